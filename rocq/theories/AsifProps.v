(** Properties of the quadratic programs of active set invariance filters. *)
From mathcomp Require Import all_ssreflect all_algebra zify.
From mathcomp.algebra_tactics Require Import ring.
From Verif Require Import SparseModel QpModel QpSpec MeshFunModel NlpModel NlpSol MpcModel AsifModel.
Set Implicit Arguments.
Unset Strict Implicit.
Unset Printing Implicit Defensive.
Import Order.TTheory GRing.Theory Num.Theory.
Local Open Scope ring_scope.
Local Arguments muln : simpl never.

Section Spec.
Variable F : realFieldType.
(** Row r of the program at the point (mu, d). *)
Definition arow (nu : nat) (q : dqp F) (mu : 'cV[F]_nu) (d : F) (r : nat) : bool :=
  between (dl q r) (du q r) (\sum_(c < nu) dA q r c * mu c 0 + dA q r nu * d).
(** The objective 1/2 z' P z + q' z at z = (mu, d), P given by its upper triangle. *)
Definition acost (nu : nat) (q : dqp F) (mu : 'cV[F]_nu) (d : F) : F :=
  let z k := if (k < nu)%N then vget mu k else d in
  2%:R^-1 * (\sum_(a < nu.+1) \sum_(b < nu.+1) dP q (minn a b) (maxn a b) * z a * z b) + \sum_(c < nu.+1) dq q c * z c.
Variables (nx nu nh : nat) (X U : Type).
Variables (xplus : X -> 'cV[F]_nx -> X) (ad : 'cV[F]_nx -> 'M[F]_nx).
(** The points of a discretized trajectory of the closed loop g(t, x) with Jacobian J, from x0 at time 0, and of its
    sensitivity: at the times t_0 = 0 < t_1 < ... < t_n.  The Jacobian is evaluated at the new state, as in the code. *)
Definition propagated (g : F -> X -> 'cV[F]_nx) (J : F -> X -> 'M[F]_nx) (x0 : X) (n : nat) (t : nat -> F) (x : nat -> X) (S : nat -> 'M[F]_nx) : Prop :=
  [/\ t 0%N = 0, x 0%N = x0, S 0%N = 1%:M &
      forall i, (i < n)%N -> [/\ t i < t i.+1, x i.+1 = xplus (x i) ((t i.+1 - t i) *: g (t i) (x i)) &
        S i.+1 = S i + (t i.+1 - t i) *: ((J (t i) (x i.+1) - ad (g (t i) (x i.+1))) *m S i)]].
End Spec.

Lemma foldl_eq_in (A : eqType) (B : Type) (g g' : B -> A -> B) b (r : seq A) : (forall b a, a \in r -> g b a = g' b a) -> foldl g b r = foldl g' b r.
Proof.
elim: r b => [//|a r IH] b e /=; rewrite e ?mem_head //; apply: IH => b' a' h; apply: e; by rewrite inE h orbT.
Qed.
Section Loop.
Variable F : realFieldType.
Variables (nx nu nh : nat) (X U : Type).
Variables (xplus : X -> 'cV[F]_nx -> X) (ad : 'cV[F]_nx -> 'M[F]_nx).
Variables (uplus : U -> 'cV[F]_nu -> U) (uminus : U -> U -> 'cV[F]_nu).
Variables (f : X -> U -> 'cV[F]_nx) (dfu : X -> U -> 'M[F]_(nx, nu)).
Variables (h : F -> X -> 'cV[F]_nh) (dht : F -> X -> 'cV[F]_nh) (dhx : F -> X -> 'M[F]_(nh, nx)).
Variables (bu : F -> X -> U) (dfcl : F -> X -> 'M[F]_nx).
Local Notation step := (ode_step xplus ad f bu dfcl).
Local Notation loop := (ode_loop xplus ad f bu dfcl).
Local Notation ast := (ast F nx X).
Definition steps (ds : seq F) (s : ast) : ast := foldl (fun s d => step d s) s ds.
Lemma steps_cat a b s : steps (a ++ b) s = steps b (steps a s). Proof. exact: foldl_cat. Qed.
Lemma steps_t ds s : at_t (steps ds s) = at_t s + \sum_(d <- ds) d.
Proof. by elim: ds s => [|d ds IH] s; rewrite ?big_nil ?addr0 //= IH big_cons addrA. Qed.
Lemma natS m (dt : F) : m.+1%:R * dt = dt + m%:R * dt. Proof. by rewrite -addn1 natrD mulrDl mul1r addrC. Qed.
Lemma loop_ok n bound dt s fuel : 0 < dt -> bound - at_t s <= n%:R * dt -> (n < fuel)%N ->
  exists m, [/\ (m <= n)%N, loop fuel bound dt s = Some (steps (nseq m dt) s), bound <= at_t s + m%:R * dt &
    (0 < m)%N -> at_t s + m.-1%:R * dt < bound].
Proof.
move=> dt0; elim: n s fuel => [|n IH] s [//|fuel] hb hf /=.
  have hb' : bound <= at_t s by rewrite -subr_le0 (le_trans hb) // mul0r.
  by exists 0%N; rewrite ltNge hb' /= mul0r addr0.
case: (ltP (at_t s) bound) => ht; last by exists 0%N; rewrite mul0r addr0.
have [||m [h1 h2 h3 h4]] := IH (step dt s) fuel; rewrite //=.
  by rewrite opprD addrA ler_subl_addr (le_trans hb) // -addn1 natrD mulrDl mul1r.
exists m.+1; rewrite h2; split=> //; first by move: h3; rewrite /= -addrA natS.
move=> _ /=; case: m h4 {h1 h2 h3} => [|m] h4; first by rewrite mul0r addr0.
by have := h4 isT; rewrite /= -addrA natS.
Qed.
Lemma loop_diverges bound dt s fuel : dt <= 0 -> at_t s < bound -> loop fuel bound dt s = None.
Proof.
move=> d0; elim: fuel s => [//|n IH] s c /=; rewrite c IH //=.
by rewrite (le_lt_trans _ c) // ger_addl.
Qed.
Variables (p : pbm F nu X U) (prm : aprm F).
Local Notation K := (aK prm).
Local Notation tau := (tau p prm).
Local Notation dt := (dtv p prm).
Local Notation s0 := (Ast 0 (px0 p) 1%:M : ast).
Local Notation kstep fuel := (k_step xplus ad f dfu h dht dhx bu dfcl p prm fuel).
Local Notation rstep := (row_step f dfu h dht dhx p prm).
Section Ok.
Hypotheses (T0 : 0 < pT p) (dt0 : 0 < adt prm) (K0 : (0 < K)%N).
Lemma tau0 : 0 < tau. Proof. by rewrite /tau divr_gt0 ?ltr0n. Qed.
Lemma dtv0 : 0 < dt. Proof. by rewrite /dtv lt_minr dt0 tau0. Qed.
Variables (n0 fuel : nat).
Hypotheses (n1 : (0 < n0)%N) (hn : tau <= n0%:R * adt prm) (hf : (n0 < fuel)%N).
Lemma hn' : tau <= n0%:R * dt.
Proof.
rewrite /dtv; case: (lerP (adt prm) tau) => // _.
by rewrite -[X in X <= _]mul1r ler_wpmul2r ?ler1n ?(ltW tau0).
Qed.
Lemma time_ok k s : tau * k%:R <= at_t s < tau * k%:R + dt -> exists m d, [/\ (m <= n0)%N, 0 < d <= dt,
  time_step xplus ad f bu dfcl p prm fuel k s = Some (steps (nseq m d) s) &
  tau * k.+1%:R <= at_t s + m%:R * d < tau * k.+1%:R + dt].
Proof.
move=> /andP[l1 l2]; rewrite /time_step; set B := tau * _; set d := Num.min _ _.
have eB : B = tau * k%:R + tau by rewrite /B -addn1 natrD mulrDr mulr1.
have dle : dt <= tau by rewrite /dtv le_minl lexx orbT.
have lB : at_t s < B by rewrite (lt_le_trans l2) // eB ler_add2l.
have d0 : 0 < d by rewrite lt_minr dtv0 subr_gt0.
have hd : d <= dt by rewrite le_minl lexx.
have hb : B - at_t s <= n0%:R * d.
  rewrite /d; case: (lerP dt (B - at_t s)) => _.
    by rewrite (le_trans _ hn') // eB ler_subl_addr addrC ler_add2l.
  by rewrite -[X in X <= _]mul1r ler_wpmul2r ?ler1n // subr_ge0 ltW.
have [m [h1 h2 h3 h4]] := loop_ok d0 hb hf; exists m, d; rewrite h2 d0 hd h3; split=> //=.
case: m h1 h2 h3 h4 => [|m] h1 h2 h3 h4; first by rewrite mul0r addr0 (lt_trans lB) // ltr_addl dtv0.
rewrite -addn1 natrD mulrDl mul1r addrA; apply: ltr_le_add => //; exact: h4.
Qed.
Definition idx_ok (I : nat -> F -> Prop) (k : nat) (ds : seq F) (idx : nat -> nat) : Prop :=
  [/\ idx 0%N = 0%N, idx k = size ds, (forall j, (j < k)%N -> idx j <= idx j.+1)%N &
      forall j, (j <= k)%N -> (idx j <= size ds)%N /\ I j (\sum_(d <- take (idx j) ds) d)].
Lemma fold_gen (I : nat -> F -> Prop) q k : I 0%N 0 ->
  (forall k s, I k (at_t s) -> exists m d, [/\ (m <= n0)%N, 0 < d <= dt,
    time_step xplus ad f bu dfcl p prm fuel k s = Some (steps (nseq m d) s) & I k.+1 (at_t s + m%:R * d)]) ->
  exists ds idx, [/\ (size ds <= k * n0)%N, all (fun d => 0 < d <= dt) ds, idx_ok I k ds idx &
  foldl (kstep fuel) (Some (s0, q)) (iota 0 k) = Some (steps ds s0, foldl (fun q j => rstep j (steps (take (idx j) ds) s0) q) q (iota 0 k))].
Proof using Type.
move=> I0 IS; elim: k => [|k [ds [idx [h1 h2 [i1 i2 i3 i4] h4]]]].
  exists [::], (fun=> 0%N); split=> //; split=> // [] [|//] _; by rewrite big_nil.
have [_] := i4 k (leqnn k); rewrite i2 take_size => hk.
have hk' : I k (at_t (steps ds s0)) by rewrite steps_t add0r.
have [m [d [m1 m2 m3 m4]]] := IS k _ hk'.
have tk j : (j <= k)%N -> take (if (j <= k)%N then idx j else size (ds ++ nseq m d)) (ds ++ nseq m d) = take (idx j) ds.
  by move=> hj; rewrite hj; have [h5 _] := i4 j hj; rewrite takel_cat.
exists (ds ++ nseq m d), (fun j => if (j <= k)%N then idx j else size (ds ++ nseq m d)); split.
- by rewrite size_cat size_nseq mulSn addnC leq_add.
- by rewrite all_cat h2 all_nseq m2 orbT.
- split=> //; first by rewrite ltnn.
    move=> j hj; rewrite (_ : (j <= k)%N); last by rewrite -ltnS.
    case: ifP => hj'; first exact: i3.
    by have [h5 _] := i4 j (hj : (j <= k)%N); rewrite size_cat (leq_trans h5) ?leq_addr.
  move=> j hj; case: (leqP j k) => hj'.
    have [h5 h6] := i4 j hj'; have := tk j hj'; rewrite hj' => ->; split=> //.
    by rewrite size_cat (leq_trans h5) ?leq_addr.
  have -> : j = k.+1 by apply/eqP; rewrite eqn_leq hj hj'.
  rewrite take_size; split=> //; move: m4; rewrite steps_t add0r big_cat /=.
  by rewrite (_ : \sum_(i <- nseq m d) i = m%:R * d) // big_nseq iter_addr addr0 mulr_natl.
rewrite -[k.+1]addn1 iotaD foldl_cat h4 /= m3 steps_cat add0n foldl_cat /=.
congr (Some (_, _)).
rewrite (tk k (leqnn k)) i2 take_size; congr rstep.
by apply: foldl_eq_in => b j; rewrite mem_iota => hj; rewrite tk // ltnW.
Qed.
Definition near (k : nat) (t : F) : Prop := tau * k%:R <= t < tau * k%:R + dt.
Lemma near_ok q k : exists ds idx, [/\ (size ds <= k * n0)%N, all (fun d => 0 < d <= dt) ds, idx_ok near k ds idx &
  foldl (kstep fuel) (Some (s0, q)) (iota 0 k) = Some (steps ds s0, foldl (fun q j => rstep j (steps (take (idx j) ds) s0) q) q (iota 0 k))].
Proof. by apply: fold_gen; [rewrite /near mulr0 add0r lexx dtv0|exact: time_ok]. Qed.
Definition exact_t (k : nat) (t : F) : Prop := t = tau * k%:R.
Lemma time_exact k s : tau = n0%:R * dt -> exact_t k (at_t s) -> exists m d, [/\ (m <= n0)%N, 0 < d <= dt,
  time_step xplus ad f bu dfcl p prm fuel k s = Some (steps (nseq m d) s) & exact_t k.+1 (at_t s + m%:R * d)].
Proof.
rewrite /exact_t => en et; rewrite /time_step; set B := tau * _; set d := Num.min _ _.
have eB : B = at_t s + tau by rewrite et /B -addn1 natrD mulrDr mulr1.
have dle : dt <= tau by rewrite /dtv le_minl lexx orbT.
have ed : d = dt by rewrite /d eB addrAC subrr add0r (min_idPl _).
have hb : B - at_t s <= n0%:R * d by rewrite eB addrAC subrr add0r ed -en.
have d0 : 0 < d by rewrite ed dtv0.
have [m [h1 h2 h3 h4]] := loop_ok d0 hb hf; exists m, d; rewrite h2 d0 ed lexx; split=> //.
suff -> : m = n0 by rewrite -en -/B eB.
apply/eqP; rewrite eqn_leq h1 /= leqNgt; apply/negP => lt.
have := h3; rewrite eB ler_add2l en ed ler_pmul2r ?dtv0 // ler_nat leqNgt lt //.
Qed.
Lemma exact_ok q k : tau = n0%:R * dt -> exists ds idx, [/\ (size ds <= k * n0)%N, all (fun d => 0 < d <= dt) ds, idx_ok exact_t k ds idx &
  foldl (kstep fuel) (Some (s0, q)) (iota 0 k) = Some (steps ds s0, foldl (fun q j => rstep j (steps (take (idx j) ds) s0) q) q (iota 0 k))].
Proof. by move=> e; apply: fold_gen; [rewrite /exact_t mulr0|move=> j s; exact: time_exact]. Qed.
End Ok.

(** * Entries *)
Local Notation Bk s := (dhx (at_t s) (at_x s) *m at_S s *m dfu (px0 p) (pu p)).
Local Notation bk s := (- dht (at_t s) (at_x s) - aalpha prm *: h (at_t s) (at_x s) - dhx (at_t s) (at_x s) *m at_S s *m f (px0 p) (pu p)).
Lemma blk_in k j : (j < nh)%N -> (k * nh <= k * nh + j < k * nh + nh)%N.
Proof. by move=> hj; rewrite leq_addr ltn_add2l. Qed.
Lemma blk_out k k' j : (j < nh)%N -> k != k' -> (k' * nh <= k * nh + j < k' * nh + nh)%N = false.
Proof.
move=> hj; rewrite neq_ltn => /orP[] lt; apply/negbTE; rewrite negb_and -!leqNgt -ltnNge.
  have := leq_mul2r nh k.+1 k'; rewrite lt orbT mulSn => e; rewrite (leq_trans _ e) //; clear -hj; lia.
have := leq_mul2r nh k'.+1 k; rewrite lt orbT mulSn => e; apply/orP; right; clear -e; lia.
Qed.
Lemma fold_rows (sts : nat -> ast) q n : let R := foldl (fun q j => rstep j (sts j) q) q (iota 0 n) in
  [/\ dP R = dP q, dq R = dq q, forall r c, (n * nh <= r)%N -> [/\ dA R r c = dA q r c, dl R r = dl q r & du R r = du q r] &
      forall k j c, (k < n)%N -> (j < nh)%N -> [/\ dA R (k * nh + j)%N c = if (c < nu)%N then mget (Bk (sts k)) j c else dA q (k * nh + j)%N c,
        dl R (k * nh + j)%N = Fin (vget (bk (sts k)) j) & du R (k * nh + j)%N = PosInf]].
Proof.
elim: n => [|n [h1 h2 h3 h4]]; first by split.
rewrite -[n.+1]addn1 iotaD foldl_cat add0n /=; split=> //.
  move=> r c hr; have hr' : (n * nh <= r)%N by apply: leq_trans hr; rewrite leq_mul2r leq_addr orbT.
  have [e1 e2 e3] := h3 r c hr'.
  rewrite /wblock /wseg (_ : (_ <= r < _)%N = false) //=.
  by apply/negbTE; rewrite negb_and -!leqNgt orbC (_ : (n * nh + nh <= r)%N) //; move: hr; rewrite mulnDl mul1n.
move=> k j c hk hj; rewrite /wblock /wseg; case: (eqVneq k n) => [->|ne].
  rewrite blk_in // addKn subn0 leq0n add0n /=; split=> //; case: ifP => // _.
  by have [-> _ _] := h3 (n * nh + j)%N c (leq_addr _ _).
rewrite blk_out //=; apply: h4 => //; by move: hk; rewrite addn1 ltnS leq_eqVlt (negbTE ne).
Qed.
Local Notation lim := (plim p).
Local Notation ni := (bn lim).
Local Notation off := (bA lim *m uminus (pu p) (bc lim)).
Local Notation update fuel := (asif_update xplus ad uminus f dfu h dht dhx bu dfcl p prm fuel).
Lemma update_entries fuel q q' s sts : foldl (kstep fuel) (Some (s0, q)) (iota 0 K) = Some (s, foldl (fun q j => rstep j (sts j) q) q (iota 0 K)) ->
  update fuel q = Some q' ->
  [/\ forall k j, (k < K)%N -> (j < nh)%N ->
        [/\ forall c, (c < nu)%N -> dA q' (k * nh + j)%N c = mget (Bk (sts k)) j c, dA q' (k * nh + j)%N nu = 1,
            dl q' (k * nh + j)%N = Fin (vget (bk (sts k)) j) & du q' (k * nh + j)%N = PosInf],
      forall i, (i < ni)%N ->
        [/\ forall c, (c < nu)%N -> dA q' (K * nh + i)%N c = mget (bA lim) i c, dA q' (K * nh + i)%N nu = dA q (K * nh + i)%N nu,
            dl q' (K * nh + i)%N = eadd (bl lim i) (- vget off i) & du q' (K * nh + i)%N = eadd (bu_ lim i) (- vget off i)],
      [/\ forall c, (c < nu)%N -> dA q' (K * nh + ni)%N c = dA q (K * nh + ni)%N c, dA q' (K * nh + ni)%N nu = 1,
            dl q' (K * nh + ni)%N = Fin 0 & du q' (K * nh + ni)%N = PosInf],
      forall a b, dP q' a b = if (a < nu)%N && (b < nu)%N then (if a == b then vget (pW p) a else 0) else if (a == nu) && (b == nu) then arelax prm else dP q a b &
      forall c, dq q' c = if c == nu then 0 else dq q c].
Proof.
move=> e; rewrite /asif_update e; set R := foldl _ q _ => -[<-] /=.
have [h1 h2 h3 h4] := fold_rows sts q K; rewrite -/R in h1 h2 h3 h4.
have lt1 a b : (a <= b < a + 1)%N = (b == a) by rewrite addn1 ltnS andbC -eqn_leq.
split.
- move=> k j hk hj.
  have hr : (k * nh + j < K * nh)%N.
    have := leq_mul2r nh k.+1 K; rewrite hk orbT mulSn => e1; apply: leq_trans e1; clear -hj; lia.
  have nr m : (K * nh + m <= k * nh + j)%N = false by apply/negbTE; rewrite -ltnNge (leq_trans hr) ?leq_addr.
  have nr0 : (K * nh <= k * nh + j)%N = false by rewrite -[X in (X <= _)%N]addn0.
  have H c := h4 k j c hk hj; have [_ H2 H3] := H 0%N.
  rewrite /wblock /wseg !nr nr0 /= add0n hr H2 H3; split=> //.
    by move=> c hc; have [-> _ _] := H c; rewrite hc leqNgt hc.
  by rewrite leqnn addn1 ltnSn.
- move=> i hi; rewrite /wblock /wseg lt1 eqn_add2l (ltn_eqF hi) /= leq_addr ltn_add2l hi /= addKn add0n; split=> //.
    by move=> c hc; rewrite hc subn0.
  rewrite ltnn; have [-> _ _] := h3 (K * nh + i)%N nu (leq_addr _ _).
  by rewrite ltnNge leq_addr.
- rewrite /wblock /wseg lt1 eqxx /=; split=> //; last by rewrite lt1 eqxx.
  move=> c hc; rewrite (leqNgt nu) hc /= leq_addr ltn_add2l ltnn /= andbF.
  by have [-> _ _] := h3 (K * nh + ni)%N c (leq_addr _ _).
- move=> a b; rewrite /wblock h1 !lt1 !add0n !subn0 /=.
  case: (eqVneq a nu) => [->|na]; last by [].
  by rewrite ltnn /=; case: (b == nu).
by move=> c; rewrite /wseg lt1 h2.
Qed.
Lemma fold_sts fuel q k s R : foldl (kstep fuel) (Some (s0, q)) (iota 0 k) = Some (s, R) ->
  exists sts, R = foldl (fun q j => rstep j (sts j) q) q (iota 0 k).
Proof.
elim: k s R => [|k IH] s R; first by case=> _ <-; exists (fun=> s0).
rewrite -[k.+1]addn1 iotaD foldl_cat add0n /=; case: (foldl _ _ (iota 0 k)) IH => [[s1 R1]|//] IH.
have [sts e] := IH s1 R1 erefl; rewrite /k_step; case: time_step => [s2|//] [_ <-].
exists (fun j => if j == k then s1 else sts j); rewrite foldl_cat /= eqxx e; congr rstep.
apply: foldl_eq_in => b j; rewrite mem_iota => hj; by rewrite (ltn_eqF (hj : (j < k)%N)).
Qed.
Lemma update_some fuel q q' : update fuel q = Some q' -> exists s sts,
  foldl (kstep fuel) (Some (s0, q)) (iota 0 K) = Some (s, foldl (fun q j => rstep j (sts j) q) q (iota 0 K)).
Proof.
rewrite /asif_update; case e : foldl => [[s R]|//] _; have [sts eR] := fold_sts e.
by exists s, sts; rewrite -eR.
Qed.
End Loop.

(** The programs that are obtained from a new one of given size by any sequence of updates. *)
Section Hist.
Variable F : realFieldType.
Variables (nx nu nh : nat) (X U : Type) (K ni : nat).
Inductive hist : dqp F -> Prop :=
| Hnew : hist (asif_allocate F)
| Hupd xplus ad uminus f dfu h dht dhx bu dfcl p prm fuel q q' : hist q -> aK prm = K -> bn (plim p) = ni ->
    @asif_update F nx nu nh X U xplus ad uminus f dfu h dht dhx bu dfcl p prm fuel q = Some q' -> hist q'.
Lemma hist_clean q : hist q ->
  [/\ forall i, (i < ni)%N -> dA q (K * nh + i)%N nu = 0, forall c, (c < nu)%N -> dA q (K * nh + ni)%N c = 0,
      forall a b, a != b -> dP q a b = 0 & forall c, dq q c = 0].
Proof.
elim=> [|xplus ad uminus f dfu h dht dhx bu dfcl p prm fuel q1 q2 _ [h1 h2 h3 h4] eK en e]; first by split.
have [s [sts es]] := update_some e; have [_ e2 [e3 _ _ _] e4 e5] := update_entries es e.
rewrite -eK -en in h1 h2 *; split.
- by move=> i hi; have [_ -> _ _] := e2 i hi; apply: h1.
- by move=> c hc; rewrite e3 ?h2.
- move=> a b ne; rewrite e4 (negbTE ne) h3 //; case: ifP => // _; case: ifP => // /andP[/eqP ea /eqP eb].
  by rewrite ea eb eqxx in ne.
by move=> c; rewrite e5 h4 if_same.
Qed.
End Hist.
