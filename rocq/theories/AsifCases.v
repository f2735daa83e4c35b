(** Concrete cases and counterexamples for active set invariance filters. *)
From mathcomp Require Import all_ssreflect all_algebra zify.
From mathcomp.algebra_tactics Require Import ring.
From Verif Require Import Calc SparseModel QpModel QpSpec MeshFunModel NlpModel NlpSol MpcModel AsifModel AsifProps AsifThms AsifThms2 AsifThms3.
Set Implicit Arguments.
Unset Strict Implicit.
Unset Printing Implicit Defensive.
Import Order.TTheory GRing.Theory Num.Theory.
Local Open Scope ring_scope.
Local Arguments muln : simpl never.
Section Ex.
Variable F : realFieldType.
Local Notation Q := F.
Local Notation V := ('cV[Q]_1).
Local Notation c1 := (const_mx : Q -> 'cV[Q]_1).

(** A single integrator x' = u with backup controller u = -x, barrier h(t, x) = x + t, input bounds -1 <= u <= 1, two
    samples. *)
Definition ex_f (x u : V) : V := u.
Definition ex_dfu (x u : V) : 'M[Q]_1 := 1%:M.
Definition ex_h (t : Q) (x : V) : V := x + c1 t.
Definition ex_ht (t : Q) (x : V) : V := c1 1.
Definition ex_hx (t : Q) (x : V) : 'M[Q]_1 := 1%:M.
Definition ex_bu (t : Q) (x : V) : V := - x.
Definition ex_J (t : Q) (x : V) : 'M[Q]_1 := - 1%:M.
Definition add1 (x a : V) : V := x + a.
Definition sub1 (x a : V) : V := x - a.
Definition noad (x : V) : 'M[Q]_1 := 0.
Definition ex_lim : mbounds Q 1 V := MBounds (1%:M : 'M[Q]_1) 0 (fun=> Fin (-1)) (fun=> Fin 1).
Definition ex_p (T : Q) (x0 u : V) : pbm Q 1 V V := Pbm T x0 u (c1 1) ex_lim.
Definition ex_prm (dt : Q) : aprm Q := Aprm 2 1 dt 100%:R.
Definition ex_up (dt T : Q) (x0 u : V) := asif_update add1 noad sub1 ex_f ex_dfu ex_h ex_ht ex_hx ex_bu ex_J (ex_p T x0 u) (ex_prm dt).

Lemma ex_aff x u mu : ex_f x (add1 u mu) = ex_f x u + ex_dfu x u *m mu.
Proof. by rewrite /ex_f /ex_dfu mul1mx. Qed.
Lemma ex_cl t (x y z : V) : ex_f y (ex_bu t y) = ex_f x (ex_bu t x) + ex_J t z *m (y - x).
Proof. by rewrite /ex_f /ex_bu /ex_J mulNmx mul1mx opprB addKr. Qed.
Lemma ex_fre t (x : V) j : frechet (fun z : 'cV[Q]_(1 + 1) => ex_h (z (lshift 1 0) 0) (dsubmx z) j 0) (col_mx (const_mx t) x)
     (fun k => match split k with inl _ => ex_ht t x j 0 | inr i => ex_hx t x j i end).
Proof.
move=> e e0; exists 1 => // w _; rewrite (@big_split_ord _ _ _ 1 1) !big_ord1 /= (unsplitK (inl 0)) (unsplitK (inr 0)).
set y := col_mx _ _; have E (v : 'cV[Q]_(1 + 1)) : ex_h (v (lshift 1 0) 0) (dsubmx v) j 0 = v (rshift 1 0) 0 + v (lshift 1 0) 0.
  by rewrite /ex_h ord1 !mxE.
have a1 k : (y + w) k 0 = y k 0 + w k 0 by rewrite mxE.
have -> : ex_ht t x j 0 = 1 by rewrite mxE.
have -> : ex_hx t x j 0 = 1 by rewrite ord1 mxE.
rewrite !E !a1; have -> : forall a b c d : Q, (a + b) + (c + d) - (a + c) - (1 * d + 1 * b) = 0 by move=> *; ring.
by rewrite normr0 mulr_ge0 ?sumr_ge0 // ltW.
Qed.
Lemma h14 : (1 : Q) / 2%:R = 2%:R * (1 / 4%:R).
Proof. by rewrite mulrA mulr1 (_ : 4%:R = 2%:R * 2%:R :> F) ?invfM ?mulrA ?divff ?mul1r // ?pnatr_eq0 // -natrM. Qed.
Lemma h13 : (1 : Q) / 2%:R <= 2%:R * (1 / 3%:R).
Proof. by rewrite mulrA mulr1 ler_pdivr_mulr ?ltr0n // mulrAC ler_pdivl_mulr ?ltr0n // mul1r -natrM ler_nat. Qed.
Lemma h3 : (1 : Q) / 2%:R <= 3%:R.
Proof. by rewrite ler_pdivr_mulr ?ltr0n // -natrM ler1n. Qed.
Lemma h31 : (0 : Q) < 3%:R. Proof. by rewrite ltr0n. Qed.
Lemma h30 : (0 : Q) < 1 / 3%:R. Proof. by rewrite divr_gt0 ?ltr0n ?ltr01. Qed.
Lemma h40 : (0 : Q) < 1 / 4%:R. Proof. by rewrite divr_gt0 ?ltr0n ?ltr01. Qed.

(** C52, C54: dt = 1/4 divides tau = 1/2. *)
Example C54_divides_case x0 u q : samples add1 noad sub1 ex_f ex_dfu ex_h ex_ht ex_hx ex_bu ex_J (ex_p 1 x0 u) (ex_prm (1 / 4%:R))
  (fun k t => t = 1 / 2%:R * k%:R) 4 3 q.
Proof. exact: (@C54_divides _ _ _ _ _ _ add1 noad sub1 ex_f ex_dfu ex_h ex_ht ex_hx ex_bu ex_J (ex_p 1 x0 u) (ex_prm (1 / 4%:R)) ltr01 h40 isT 2 3 q isT h14 isT). Qed.
Example C54_large_case x0 u q : samples add1 noad sub1 ex_f ex_dfu ex_h ex_ht ex_hx ex_bu ex_J (ex_p 1 x0 u) (ex_prm 3%:R)
  (fun k t => t = 1 / 2%:R * k%:R) 2 3 q.
Proof. exact: (@C54_large _ _ _ _ _ _ add1 noad sub1 ex_f ex_dfu ex_h ex_ht ex_hx ex_bu ex_J (ex_p 1 x0 u) (ex_prm 3%:R) ltr01 h31 isT 3 q h3 isT). Qed.
Example C54_times_case x0 u q : samples add1 noad sub1 ex_f ex_dfu ex_h ex_ht ex_hx ex_bu ex_J (ex_p 1 x0 u) (ex_prm (1 / 3%:R))
  (fun k t => 1 / 2%:R * k%:R <= t < 1 / 2%:R * k%:R + Num.min (1 / 3%:R) (1 / 2%:R)) 4 3 q.
Proof. exact: (@C54_times_partial _ _ _ _ _ _ add1 noad sub1 ex_f ex_dfu ex_h ex_ht ex_hx ex_bu ex_J (ex_p 1 x0 u) (ex_prm (1 / 3%:R)) ltr01 h30 isT 2 3 q isT h13 isT). Qed.
Example C52_case x0 u q : exists t idx q', [/\ t 0%N = 0, forall i, (i < idx 1)%N -> t i < t i.+1 <= t i + 1 / 3%:R,
    forall k, (k < 2)%N -> 1 / 2%:R * k%:R <= t (idx k) < 1 / 2%:R * k%:R + Num.min (1 / 3%:R) (1 / 2%:R),
    ex_up (1 / 3%:R) 1 x0 u 3 q = Some q' &
    forall k (j : 'I_1) mu d, (k < 2)%N ->
      exists2 D, deriv (fun s => ex_h (t (idx k) + s) (flow (fun t x => ex_f x (ex_bu t x)) t (idx k) (x0 + s *: ex_f x0 (add1 u mu))) j 0) 0 D &
        arow q' mu d (k * 1 + j) = (0 <= D + 1 * ex_h (t (idx k)) (flow (fun t x => ex_f x (ex_bu t x)) t (idx k) x0) j 0 + d)].
Proof.
apply: (@C52_derivative _ _ _ _ _ add1 sub1 ex_f ex_dfu ex_h ex_ht ex_hx ex_bu ex_J (ex_p 1 x0 u) (ex_prm (1 / 3%:R)) 2 3 q ltr01 h30 isT isT h13 isT) => //.
- by move=> mu; apply: ex_aff.
- exact: ex_cl.
exact: ex_fre.
Qed.
Example C52_rows_case x0 u q : exists n t x S idx q', [/\ propagated add1 noad (fun t x => ex_f x (ex_bu t x)) ex_J x0 n t x S,
    forall k, (k < 2)%N -> (idx k <= n)%N /\ 1 / 2%:R * k%:R <= t (idx k) < 1 / 2%:R * k%:R + Num.min (1 / 3%:R) (1 / 2%:R),
    ex_up (1 / 3%:R) 1 x0 u 3 q = Some q' &
    forall k (j : 'I_1) mu d, (k < 2)%N ->
      let i := idx k in
      arow q' mu d (k * 1 + j) =
      (0 <= ex_ht (t i) (x i) j 0 + (ex_hx (t i) (x i) *m S i *m ex_f x0 (add1 u mu)) j 0 + 1 * ex_h (t i) (x i) j 0 + d)].
Proof.
apply: (@C52_rows _ _ _ _ _ _ add1 noad add1 sub1 ex_f ex_dfu ex_h ex_ht ex_hx ex_bu ex_J (ex_p 1 x0 u) (ex_prm (1 / 3%:R)) ltr01 h30 isT 2 3 q isT h13 isT) => //.
by move=> mu; apply: ex_aff.
Qed.
(** C57, C53, C55, C56, C76: a program that was used before, for another state. *)
Example C57_case x0 u q fuel : (2 < fuel)%N -> exists q', ex_up (1 / 3%:R) 1 x0 u fuel q = Some q'.
Proof. exact: (@C57_bound _ _ _ _ _ _ add1 noad sub1 ex_f ex_dfu ex_h ex_ht ex_hx ex_bu ex_J (ex_p 1 x0 u) (ex_prm (1 / 3%:R)) ltr01 h30 isT 2 h13 fuel q). Qed.
Lemma ex_hist x0 u q : ex_up (1 / 3%:R) 1 x0 u 4 (asif_allocate Q) = Some q -> hist 1 1 1 V V 2 1 q.
Proof. move=> e; exact: (@Hupd F 1 1 1 V V 2 1 add1 noad sub1 ex_f ex_dfu ex_h ex_ht ex_hx ex_bu ex_J (ex_p 1 x0 u) (ex_prm (1 / 3%:R)) 4 (asif_allocate F) q (Hnew F 1 1 1 V V 2 1) erefl erefl e). Qed.
Example used_case x0 u x1 u1 : exists q q', [/\ ex_up (1 / 3%:R) 1 x0 u 4 (asif_allocate Q) = Some q,
  hist 1 1 1 V V 2 1 q, ex_up (1 / 3%:R) 1 x1 u1 4 q = Some q' &
  [/\ forall mu, (exists d, feas 1 (ex_p 1 x1 u1) (ex_prm (1 / 3%:R)) q' mu d) <-> -1 <= u1 0 0 + mu 0 0 <= 1,
      forall (mu : V) d, (forall i, (i < 1)%N -> arow q' mu d (2 * 1 + i)) <-> -1 <= u1 0 0 + mu 0 0 <= 1 &
      exists2 q2, ex_up (1 / 3%:R) 1 x1 u1 4 (asif_allocate Q) = Some q2 & same 1 (ex_p 1 x1 u1) (ex_prm (1 / 3%:R)) q' q2]].
Proof.
have [q e] := @C57_case x0 u (asif_allocate Q) 4 isT; have hq := ex_hist e.
have [q' e'] := @C57_case x1 u1 q 4 isT; exists q, q'; split=> //.
have bE (mu : V) : (forall i : 'I_1, between (Fin (-1)) (Fin 1) (((1%:M : 'M[Q]_1) *m (u1 - 0 + mu)) i 0)) <-> -1 <= u1 0 0 + mu 0 0 <= 1.
  rewrite mul1mx subr0; have e1 : (u1 + mu) 0 0 = u1 0 0 + mu 0 0 by rewrite mxE.
  by split=> [/(_ 0)|H i]; rewrite /between /= ?ord1 e1.
split.
- move=> mu; rewrite -(bE mu); exact: (@C53_feasible _ _ _ _ _ _ add1 noad sub1 ex_f ex_dfu ex_h ex_ht ex_hx ex_bu ex_J (ex_p 1 x1 u1) (ex_prm (1 / 3%:R)) 4 q q' hq e' mu).
- move=> mu d; rewrite -(bE mu).
  have := @C56_rows _ _ _ _ _ _ add1 noad add1 sub1 ex_f ex_dfu ex_h ex_ht ex_hx ex_bu ex_J (ex_p 1 x1 u1) (ex_prm (1 / 3%:R)) 4 q q' hq e' mu d.
  rewrite /= /sub1 /add1 => H; rewrite H; last by rewrite addrAC.
  by rewrite [u1 + mu - 0]addrAC.
have [q2 e2] := @C57_case x1 u1 (asif_allocate Q) 4 isT; exists q2 => //.
have := @C55_update _ _ _ _ _ _ add1 noad sub1 ex_f ex_dfu ex_h ex_ht ex_hx ex_bu ex_J (ex_p 1 x1 u1) (ex_prm (1 / 3%:R)) 4 q hq.
by rewrite -/(ex_up (1 / 3%:R) 1 x1 u1 4 q) e' /asif_to_qp -/(ex_up (1 / 3%:R) 1 x1 u1 4 (asif_allocate Q)) e2.
Qed.
(** C76: at rest at the origin the desired input 0 is safe and within the bounds. *)
Lemma flow0 (t : nat -> Q) i : flow (fun t (x : V) => ex_f x (ex_bu t x)) t i 0 = 0.
Proof. by elim: i => //= i ->; rewrite /ex_f /ex_bu oppr0 scaler0 addr0. Qed.
Lemma safe0 q q' : hist 1 1 1 V V 2 1 q -> ex_up (1 / 3%:R) 1 0 0 4 q = Some q' -> feas 1 (ex_p 1 0 0) (ex_prm (1 / 3%:R)) q' 0 0.
Proof.
move=> hq e; rewrite (@feasE _ _ _ _ _ _ add1 noad sub1 ex_f ex_dfu ex_h ex_ht ex_hx ex_bu ex_J (ex_p 1 0 0) (ex_prm (1 / 3%:R)) 4 q q' hq e); split=> //.
- have [n [t [x [S [idx [q1 [[_ hp] _ [i1 i2 i3 i4] eu rows]]]]]]] := @C54_times_partial _ _ _ _ _ _ add1 noad sub1 ex_f ex_dfu ex_h ex_ht ex_hx ex_bu ex_J (ex_p 1 0 0) (ex_prm (1 / 3%:R)) ltr01 h30 isT 2 4 q isT h13 isT.
  have eq1 : q1 = q' by have := eu; rewrite -/(ex_up (1 / 3%:R) 1 0 0 4 q) e => -[].
  move=> k j hk; rewrite -eq1 rows //=.
  have -> : ex_f (0 : V) (0 : V) + ex_dfu 0 0 *m 0 = (0 : V) by rewrite /ex_f /ex_dfu mul1mx addr0.
  rewrite mulmx0 !addr0.
  have ik : (idx k <= n)%N by have := i3 0%N isT; have := i3 1%N isT; rewrite /= in i2; rewrite i1 i2 => h5 h6; move: hk; case: (k) => [|[|//]] _; rewrite ?i1.
  rewrite (propagated_flow (hp : propagated (fun a b : V => a + b) noad (fun t x => ex_f x (ex_bu t x)) ex_J 0 n t x S) ik) flow0 /ex_h add0r /ex_ht !mxE.
  have /andP[h5 _] := i4 k hk; rewrite mul1r addr_ge0 ?ler01 //; apply: le_trans h5; by rewrite /= !mulr_ge0 ?ler0n ?invr_ge0 ?ler0n ?ler01.
- move=> i; rewrite /= mul1mx /sub1 subrr addr0 mxE /between /=; by rewrite oppr_le0 ler01.
Qed.
Example C76_case q q' : hist 1 1 1 V V 2 1 q -> ex_up (1 / 3%:R) 1 0 0 4 q = Some q' ->
  forall mu d, feas 1 (ex_p 1 0 0) (ex_prm (1 / 3%:R)) q' mu d ->
  (forall mu' d', feas 1 (ex_p 1 0 0) (ex_prm (1 / 3%:R)) q' mu' d' -> acost q' mu d <= acost q' mu' d') -> mu = 0 /\ d = 0.
Proof.
move=> hq e; apply: (@C76_minimal _ _ _ _ _ _ add1 noad sub1 ex_f ex_dfu ex_h ex_ht ex_hx ex_bu ex_J (ex_p 1 0 0) (ex_prm (1 / 3%:R)) 4 q q' hq e).
- by move=> c; rewrite mxE ltr01.
- by rewrite ltr0n.
exact: safe0 hq e.
Qed.
(** A filter with two calls; the solver returns 0. *)
Definition ex_solve (q : dqp F) (g : option (msol F)) : msol F := Msol Optimal (fun=> 0) (fun=> 0).
Definition ex_call (x u : V) : fcallarg F 1 1 V V := Fcall x u ex_h ex_ht ex_hx ex_bu ex_J.
Definition ex_fprm : fprm F 1 V := Fprm 1 (c1 1) ex_lim (ex_prm (1 / 3%:R)).
Local Notation fcall := (filter_call add1 noad add1 sub1 ex_f ex_dfu ex_solve ex_fprm 4).
Local Notation frun := (filter_run add1 noad add1 sub1 ex_f ex_dfu ex_solve ex_fprm 4).
Lemma ex_fcall x u s : exists s' out, fcall (ex_call x u) s = Some (s', out).
Proof.
rewrite /filter_call; have [q e] := @C57_case x u (fqp s) 4 isT.
by move: e; rewrite /ex_up /ex_p /= => ->; eexists; eexists.
Qed.
Example filter_case x u : exists s outs s' out,
  [/\ frun [:: ex_call x u] (filter_new F) = Some (s, outs), fcall (ex_call 0 0) s = Some (s', out),
      latest outs (fo_guess out) & fo_u out = 0].
Proof.
have [s [out1 e1]] := ex_fcall x u (filter_new F); have [s' [out e2]] := ex_fcall 0 0 s.
have er : frun [:: ex_call x u] (filter_new F) = Some (s, [:: out1]) by rewrite /= e1.
exists s, [:: out1], s', out; split=> //; first exact: (C51_filter er e2).
have [hq e3 e4 eu] := last_call er e2.
have mu0 : (\col_k mprimal (fo_sol out) k : V) = 0 by rewrite e4; apply/colP => k; rewrite !mxE.
rewrite (C76_filter er e2) /= ?addr0 //.
- by rewrite /add1 addr0.
- by move=> k; rewrite mxE ltr01.
- by rewrite ltr0n.
- exact: (safe0 hq e3).
- rewrite mu0 e4; exact: (safe0 hq e3).
- move=> mu' d' _; rewrite mu0 e4 !(@acostE _ _ _ _ _ _ add1 noad sub1 ex_f ex_dfu ex_h ex_ht ex_hx ex_bu ex_J (ex_p 1 0 0) (ex_prm (1 / 3%:R)) 4 _ _ hq e3).
  rewrite !big_ord1 !mxE !expr0n !mulr0 addr0 mulr0 mulr_ge0 ?invr_ge0 ?ler0n // mul1r addr_ge0 ?sqr_ge0 //.
  by rewrite mulr_ge0 ?sqr_ge0 // ler0n.
Qed.
Example filter_case2 x u : exists s outs s' out,
  [/\ frun [:: ex_call x u] (filter_new F) = Some (s, outs), fcall (ex_call 0 0) s = Some (s', out),
      exists2 q, asif_to_qp add1 noad sub1 ex_f ex_dfu ex_h ex_ht ex_hx ex_bu ex_J (ex_p 1 0 0) (ex_prm (1 / 3%:R)) 4 = Some q &
        same 1 (ex_p 1 0 0) (ex_prm (1 / 3%:R)) (fo_qp out) q &
      -1 <= fo_u out 0 0 <= 1].
Proof.
have [s [out1 e1]] := ex_fcall x u (filter_new F); have [s' [out e2]] := ex_fcall 0 0 s.
have er : frun [:: ex_call x u] (filter_new F) = Some (s, [:: out1]) by rewrite /= e1.
exists s, [:: out1], s', out; split=> //; first exact: (C55_filter er e2).
have [hq e3 e4 eu] := last_call er e2.
have mu0 : (\col_k mprimal (fo_sol out) k : V) = 0 by rewrite e4; apply/colP => k; rewrite !mxE.
have := C56_filter er e2; rewrite mu0 {1}e4 => /(_ (safe0 hq e3)) H.
have hu (mu : V) : sub1 (add1 (cu (ex_call 0 0)) mu) (bc (flim ex_fprm)) = sub1 (cu (ex_call 0 0)) (bc (flim ex_fprm)) + mu.
  by rewrite /sub1 /add1 addrAC.
by have := H hu 0; rewrite /= mul1mx /sub1 subr0.
Qed.
End Ex.

(** * Counterexamples *)
Section Two.
Variable F : realFieldType.
Variables (nx nu nh : nat) (X U : Type).
Variables (xplus : X -> 'cV[F]_nx -> X) (ad : 'cV[F]_nx -> 'M[F]_nx) (uminus : U -> U -> 'cV[F]_nu).
Variables (f : X -> U -> 'cV[F]_nx) (dfu : X -> U -> 'M[F]_(nx, nu)).
Variables (h : F -> X -> 'cV[F]_nh) (dht : F -> X -> 'cV[F]_nh) (dhx : F -> X -> 'M[F]_(nh, nx)).
Variables (bu : F -> X -> U) (dfcl : F -> X -> 'M[F]_nx).
Local Notation loop := (ode_loop xplus ad f bu dfcl).
Local Notation step := (ode_step xplus ad f bu dfcl).
Lemma loop1 n b d s : at_t s < b -> b <= at_t s + d -> loop n.+2 b d s = Some (step d s).
Proof. by move=> /= -> hb; rewrite ltNge hb. Qed.
Lemma loop2 n b d s : at_t s < b -> at_t s + d < b -> b <= at_t s + d + d -> loop n.+3 b d s = Some (step d (step d s)).
Proof. by move=> /= -> -> h3; rewrite ltNge h3. Qed.
Lemma two (p : pbm F nu X U) prm fuel q s1 s2 : aK prm = 2%N ->
  time_step xplus ad f bu dfcl p prm fuel 0 (Ast 0 (px0 p) 1%:M) = Some s1 -> time_step xplus ad f bu dfcl p prm fuel 1 s1 = Some s2 ->
  exists2 q', asif_update xplus ad uminus f dfu h dht dhx bu dfcl p prm fuel q = Some q' &
    forall j : 'I_nh, let B := dhx (at_t s1) (at_x s1) *m at_S s1 *m dfu (px0 p) (pu p) in
      [/\ forall c : 'I_nu, dA q' (1 * nh + j)%N c = B j c, dA q' (1 * nh + j)%N nu = 1,
          dl q' (1 * nh + j)%N = Fin ((- dht (at_t s1) (at_x s1) - aalpha prm *: h (at_t s1) (at_x s1) - dhx (at_t s1) (at_x s1) *m at_S s1 *m f (px0 p) (pu p)) j 0) & du q' (1 * nh + j)%N = PosInf].
Proof.
move=> eK e0 e1; pose sts k := if k == 0%N then Ast 0 (px0 p) 1%:M else s1.
have es : foldl (k_step xplus ad f dfu h dht dhx bu dfcl p prm fuel) (Some (Ast 0 (px0 p) 1%:M, q)) (iota 0 (aK prm)) =
  Some (s2, foldl (fun q j => row_step f dfu h dht dhx p prm j (sts j) q) q (iota 0 (aK prm))) by rewrite eK /= e0 /= e1.
have [q' e] : exists q', asif_update xplus ad uminus f dfu h dht dhx bu dfcl p prm fuel q = Some q' by rewrite /asif_update es; eexists.
exists q' => // j; have [H _ _ _ _] := update_entries es e.
have k1 : (1 < aK prm)%N by rewrite eK.
have [a1 a2 a3 a4] := H 1%N j k1 (ltn_ord j); split=> //.
  by move=> c; rewrite a1 // /mget !valK.
by rewrite a3 vgetO.
Qed.
End Two.
Section Refuted.
Variable F : realFieldType.
Local Notation V := ('cV[F]_1).
Local Notation c1 := (const_mx : F -> 'cV[F]_1).
(** C57: with dt = 0 the loop does not end. *)
Theorem C57_refuted : exists (p : pbm F 1 V V) (prm : aprm F), forall fuel q,
  asif_update (@add1 F) (@noad F) (@sub1 F) (@ex_f F) (@ex_dfu F) (@ex_h F) (@ex_ht F) (@ex_hx F) (@ex_bu F) (@ex_J F) p prm fuel q = None.
Proof. by exists (ex_p 1 0 0), (ex_prm 0) => fuel q; apply: C57_diverges => //=; rewrite ltr01. Qed.
(** C54: a state at rest and the barrier h(t, x) = t; T = 1, K = 2, dt = 1/3: the second sample is taken at 2/3. *)
Theorem C54_refuted : exists (f : V -> V -> V) (dfu : V -> V -> 'M[F]_1) (h dht : F -> V -> V) (dhx : F -> V -> 'M[F]_1) (bu : F -> V -> V)
    (J : F -> V -> 'M[F]_1) (p : pbm F 1 V V) (prm : aprm F) q',
  [/\ forall x u, f x u = 0 /\ dfu x u = 0, forall t x, J t x = 0,
      asif_to_qp (@add1 F) (@noad F) (@sub1 F) f dfu h dht dhx bu J p prm 5 = Some q' &
      ~ forall k (j : 'I_1) (mu : V) d, (k < aK prm)%N -> let t := pT p / (aK prm)%:R * k%:R in
        arow q' mu d (k * 1 + j) = (0 <= dht t (px0 p) j 0 + aalpha prm * h t (px0 p) j 0 + d)].
Proof.
pose p := ex_p (1 : F) 0 0; pose prm := ex_prm (1 / 3%:R : F).
pose f (x u : V) : V := 0; pose dfu (x u : V) : 'M[F]_1 := 0; pose h (t : F) (x : V) := c1 t; pose dht (t : F) (x : V) := c1 1.
pose dhx (t : F) (x : V) : 'M[F]_1 := 0; pose bu (t : F) (x : V) : V := 0; pose J (t : F) (x : V) : 'M[F]_1 := 0.
exists f, dfu, h, dht, dhx, bu, J, p, prm.
have t0 : (0 : F) < 1 / 2%:R by rewrite divr_gt0 ?ltr0n ?ltr01.
have dE : dtv p prm = 1 / 3%:R :> F.
  apply/min_idPl; by rewrite ler_pdivr_mulr ?ltr0n // mulrAC mul1r ler_pdivl_mulr ?ltr0n // mul1r ler_nat.
have b1 : tau p prm * 1%:R = 1 / 2%:R :> F by rewrite mulr1.
have e0 : time_step (@add1 F) (@noad F) f bu J p prm 5 0 (Ast 0 (px0 p) 1%:M) =
  Some (ode_step (@add1 F) (@noad F) f bu J (1 / 3%:R) (ode_step (@add1 F) (@noad F) f bu J (1 / 3%:R) (Ast 0 (px0 p) 1%:M))).
  have m0 : Num.min (dtv p prm) (tau p prm * 1%:R - 0) = 1 / 3%:R.
    by rewrite dE b1 subr0; apply/min_idPl; rewrite -dE le_minl lexx orbT.
  rewrite /time_step [at_t _]/= m0 loop2 //= ?b1 ?add0r //.
    by rewrite ltr_pdivr_mulr ?ltr0n // mulrAC mul1r ltr_pdivl_mulr ?ltr0n // mul1r ltr_nat.
  by apply: le_trans (h13 F) _; rewrite [X in X <= _]mulr_natl mulr2n.
set s1 := ode_step _ _ _ _ _ _ (ode_step _ _ _ _ _ _ _) in e0.
have t1 : at_t s1 = 2%:R / 3%:R by rewrite /s1 /= add0r -mulrDl -(natrD _ 1 1).
have [s2 e1] : exists s2, time_step (@add1 F) (@noad F) f bu J p prm 5 1 s1 = Some s2.
  have T0 : 0 < pT p by rewrite ltr01.
  have hs : tau p prm * 1%:R <= at_t s1 < tau p prm * 1%:R + dtv p prm.
    rewrite b1 dE t1; apply/andP; split; first by have := h13 F; rewrite mulrA mulr1.
    rewrite -ltr_subl_addr -mulrBl -(natrB _ (isT : (1 <= 2)%N)).
    by rewrite ltr_pdivr_mulr ?ltr0n // mulrAC mul1r ltr_pdivl_mulr ?ltr0n // mul1r ltr_nat.
  have [m [d [_ _ e _]]] := @time_ok _ _ _ V V (@add1 F) (@noad F) f bu J p prm T0 (h30 F) isT 2 5 isT (h13 F) isT 1%N s1 hs.
  by exists (steps (@add1 F) (@noad F) f bu J (nseq m d) s1).
have [q' eu H] := @two _ _ _ _ _ _ (@add1 F) (@noad F) (@sub1 F) f dfu h dht dhx bu J p prm 5 (asif_allocate F) s1 s2 erefl e0 e1.
exists q'; split=> // /(_ 1%N 0 0 (- (1 + 2%:R / 3%:R)) isT).
have [a1 a2 a3 a4] := H 0; rewrite /arow a2 a3 a4 big_ord1.
have -> : (0 : V) 0 0 = 0 by rewrite mxE.
have addE (A B : V) : (A + B) 0 0 = A 0 0 + B 0 0 by rewrite mxE.
have oppE (A : V) : (- A) 0 0 = - A 0 0 by rewrite mxE.
have -> : dhx (at_t s1) (at_x s1) *m at_S s1 *m f (px0 p) (pu p) = 0 by rewrite mulmx0.
rewrite !(addE, oppE) t1 /between /= andbT mulr0 add0r !mul1r scale1r.
rewrite /dht /h !mxE subr0 sub0r opprD lexx mulr1.
have -> : (1 : F) + 2%:R^-1 + (-1 - 2%:R / 3%:R) = - (1 / 6%:R).
  by field.
by move=> /esym; rewrite oppr_ge0 leNgt divr_gt0 ?ltr0n ?ltr01.
Qed.
Lemma fre1 (g : F -> F) (phi : V -> F) (y : V) (J : 'I_1 -> F) : (forall v, phi v = g (v 0 0)) -> deriv g (y 0 0) (J 0) -> frechet phi y J.
Proof.
move=> hp hd e e0; have [dl d0 H] := hd e e0; exists dl => // w hw; rewrite !big_ord1 !hp mxE; apply: H; exact: hw.
Qed.
(** C75: x' = x^2 + u with u = 0, x0 = 1, T = 2, K = 2, dt = 1: the sensitivity at the second sample is 5, the derivative of
    the state is 3. *)
Theorem C75_sensitivity_refuted : exists (f : V -> V -> V) (dfu : V -> V -> 'M[F]_1) (h dht : F -> V -> V) (dhx : F -> V -> 'M[F]_1) (bu : F -> V -> V)
    (J : F -> V -> 'M[F]_1) (p : pbm F 1 V V) (prm : aprm F) q' D,
  [/\ forall x u, frechet (fun v : V => f x v 0 0) u (fun k => dfu x u 0 k),
      forall t x, frechet (fun y : V => f y (bu t y) 0 0) x (fun k => J t x 0 k),
      forall t x, dht t x = 0 /\ frechet (fun y : V => h t y 0 0) x (fun k => dhx t x 0 k),
      asif_to_qp (@add1 F) (@noad F) (@sub1 F) f dfu h dht dhx bu J p prm 5 = Some q' &
      deriv (fun s => h 1 (flow (fun t x => f x (bu t x)) (fun i => i%:R) 1 (px0 p + s *: dfu (px0 p) (pu p))) 0 0) 0 D /\
      dA q' 1 0 != D].
Proof.
pose p : pbm F 1 V V := Pbm 2%:R (c1 1) 0 (c1 1) (ex_lim F); pose prm : aprm F := ex_prm 1.
pose f (x u : V) : V := c1 (x 0 0 * x 0 0) + u; pose dfu (x u : V) : 'M[F]_1 := 1%:M.
pose h (t : F) (x : V) := x; pose dht (t : F) (x : V) : V := 0.
pose dhx (t : F) (x : V) : 'M[F]_1 := 1%:M; pose bu (t : F) (x : V) : V := 0; pose J (t : F) (x : V) : 'M[F]_1 := c1 (x 0 0 + x 0 0).
exists f, dfu, h, dht, dhx, bu, J, p, prm.
have tE : tau p prm = 1 by rewrite /tau /= divff // pnatr_eq0.
have dE : dtv p prm = 1 by rewrite /dtv tE minxx.
have m0 (s : F) : s = 0 -> Num.min (dtv p prm) (tau p prm * 1%:R - s) = 1 by move=> ->; rewrite dE tE mulr1 subr0 minxx.
have e0 : time_step (@add1 F) (@noad F) f bu J p prm 5 0 (Ast 0 (px0 p) 1%:M) = Some (ode_step (@add1 F) (@noad F) f bu J 1 (Ast 0 (px0 p) 1%:M)).
  by rewrite /time_step m0 // loop1 //= tE mulr1 ?ltr01 // add0r.
set s1 := ode_step _ _ _ _ _ _ _ in e0.
have e1 : time_step (@add1 F) (@noad F) f bu J p prm 5 1 s1 = Some (ode_step (@add1 F) (@noad F) f bu J 1 s1).
  have tt : at_t s1 = 1 by rewrite /= add0r.
  have m1 : Num.min (dtv p prm) (tau p prm * 2%:R - 1) = 1 by rewrite dE tE mul1r mulr2n addrK minxx.
  by rewrite /time_step {1}tt m1 loop1 // tE mul1r tt ?ltr1n // mulr2n.
have [q' eu H] := @two _ _ _ _ _ _ (@add1 F) (@noad F) (@sub1 F) f dfu h dht dhx bu J p prm 5 (asif_allocate F) s1 _ erefl e0 e1.
exists q', 3%:R; split=> //.
- move=> x u; apply: (@fre1 (fun s => x 0 0 * x 0 0 + s)) => [v|]; first by rewrite !mxE.
  rewrite mxE eqxx -[1%:R]add0r; apply: deriv_add; [exact: deriv_const|exact: deriv_id].
- move=> t x; apply: (@fre1 (fun s => s * s)) => [v|]; first by rewrite !mxE addr0.
  apply: deriv_eq (deriv_mul (@deriv_id F _) (@deriv_id F _)); by rewrite mxE mul1r mulr1.
- move=> t x; split=> //; apply: (@fre1 id) => //; rewrite mxE eqxx; exact: deriv_id.
split.
  apply: (deriv_ext (f := fun s => (1 + s * 1) + (1 + s * 1) * (1 + s * 1))).
    by move=> s; rewrite /h /= subr0 scale1r !mxE eqxx addr0.
  apply: deriv_eq (deriv_add (deriv_affine 1 1 0) (deriv_mul (deriv_affine 1 1 0) (deriv_affine 1 1 0))); ring.
have [a1 _ _ _] := H 0; rewrite (a1 0) !mul1mx mulmx1 /s1 /= mulmx1 /noad oppr0 add0r !scale1r /J !mxE eqxx !addr0.
have -> : (1%:R + (1 + 1 * 1 + (1 + 1 * 1)) = 5%:R :> F) by ring.
by rewrite eqr_nat.
Qed.
End Refuted.
Example C57_terminates_case : forall T x0 u, exists n, forall fuel q, (n < fuel)%N -> exists q', ex_up (1 / 3%:R : [archiFieldType of rat]) T x0 u fuel q = Some q'.
Proof.
move=> T x0 u; apply/(C57_terminates (F := [archiFieldType of rat])); constructor 3; exact: h30.
Qed.
Print Assumptions C51_filter.
Print Assumptions C52_rows.
Print Assumptions C52_derivative.
Print Assumptions C52_relaxation.
Print Assumptions C53_feasible.
Print Assumptions C54_times_partial.
Print Assumptions C54_divides.
Print Assumptions C54_large.
Print Assumptions C54_refuted.
Print Assumptions C55_update.
Print Assumptions C55_filter.
Print Assumptions C56_rows.
Print Assumptions C56_filter.
Print Assumptions C57_bound.
Print Assumptions C57_diverges.
Print Assumptions C57_terminates.
Print Assumptions C57_refuted.
Print Assumptions C75_affine_partial.
Print Assumptions C75_sensitivity_refuted.
Print Assumptions C76_minimal.
Print Assumptions C76_filter.
