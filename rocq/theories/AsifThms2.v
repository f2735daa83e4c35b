(** Feasibility, updates in place, input bounds, termination and minimality of the programs of active set invariance
    filters. *)
From mathcomp Require Import all_ssreflect all_algebra zify.
From mathcomp.algebra_tactics Require Import ring.
From Verif Require Import Calc SparseModel QpModel QpSpec MeshFunModel NlpModel NlpSol MpcModel AsifModel AsifProps AsifThms.
Set Implicit Arguments.
Unset Strict Implicit.
Unset Printing Implicit Defensive.
Import Order.TTheory GRing.Theory Num.Theory.
Local Open Scope ring_scope.
Local Arguments muln : simpl never.

Lemma rowsplit K nh ni r : (r < K * nh + ni + 1)%N ->
  [\/ exists k j, [/\ (k < K)%N, (j < nh)%N & r = (k * nh + j)%N], exists2 i, (i < ni)%N & r = (K * nh + i)%N | r = (K * nh + ni)%N].
Proof.
move=> hr; case: (ltnP r (K * nh)) => h1.
  have n0 : (0 < nh)%N by move: h1; case: nh {hr} => [|//]; rewrite muln0.
  apply: Or31; exists (r %/ nh)%N, (r %% nh)%N; rewrite ltn_divLR // ltn_pmod //; split=> //; exact: divn_eq.
case: (ltnP r (K * nh + ni)) => h2.
  by apply: Or32; exists (r - K * nh)%N; [rewrite ltn_subLR|rewrite subnKC].
by apply: Or33; clear -hr h2; lia.
Qed.

Section Thms.
Variable F : realFieldType.
Variables (nx nu nh : nat) (X U : Type).
Variables (xplus : X -> 'cV[F]_nx -> X) (ad : 'cV[F]_nx -> 'M[F]_nx).
Variables (uplus : U -> 'cV[F]_nu -> U) (uminus : U -> U -> 'cV[F]_nu).
Variables (f : X -> U -> 'cV[F]_nx) (dfu : X -> U -> 'M[F]_(nx, nu)).
Variables (h : F -> X -> 'cV[F]_nh) (dht : F -> X -> 'cV[F]_nh) (dhx : F -> X -> 'M[F]_(nh, nx)).
Variables (bu : F -> X -> U) (dfcl : F -> X -> 'M[F]_nx).
Variables (p : pbm F nu X U) (prm : aprm F).
Local Notation K := (aK prm).
Local Notation T := (pT p).
Local Notation lim := (plim p).
Local Notation ni := (bn lim).
Local Notation update := (asif_update xplus ad uminus f dfu h dht dhx bu dfcl p prm).
Local Notation fresh := (asif_to_qp xplus ad uminus f dfu h dht dhx bu dfcl p prm).
Local Notation hist := (hist nx nu nh X U K ni).
Local Notation s0 := (Ast 0 (px0 p) 1%:M : ast F nx X).
Local Notation kstep fuel := (k_step xplus ad f dfu h dht dhx bu dfcl p prm fuel).
Local Notation rstep := (row_step f dfu h dht dhx p prm).
(** A point satisfies all rows of the program. *)
Definition feas (q : dqp F) (mu : 'cV[F]_nu) (d : F) : Prop := forall r, (r < K * nh + ni + 1)%N -> arow q mu d r.
(** u + mu respects the input bounds. *)
Definition in_bounds (mu : 'cV[F]_nu) : Prop :=
  forall i : 'I_ni, between (bl lim i) (bu_ lim i) ((bA lim *m (uminus (pu p) (bc lim) + mu)) i 0).

(** * C56: the rows of the input bounds *)
Lemma between_eadd (l u : ext F) a v : between (eadd l (- a)) (eadd u (- a)) v = between l u (a + v).
Proof.
by rewrite /between; congr andb; [case: l => //= b|case: u => //= b]; rewrite ?ler_subl_addl ?ler_subr_addl.
Qed.
Lemma bound_row fuel q q' : hist q -> update fuel q = Some q' -> forall (i : 'I_ni) mu d,
  arow q' mu d (K * nh + i) = between (bl lim i) (bu_ lim i) ((bA lim *m (uminus (pu p) (bc lim) + mu)) i 0).
Proof.
move=> hq e i mu d; have [c1 _ _ _] := hist_clean hq.
have [s [sts es]] := update_some e; have [_ H _ _ _] := update_entries es e.
have [a1 a2 a3 a4] := H i (ltn_ord i); rewrite /arow a2 a3 a4 c1 // mul0r addr0 between_eadd; congr between.
rewrite vgetO mulmxDr [in RHS]mxE; congr (_ + _); rewrite [in RHS]mxE; apply: eq_bigr => c _.
by rewrite a1 // /mget !valK.
Qed.
Theorem C56_rows fuel q q' : hist q -> update fuel q = Some q' ->
  forall mu d, uminus (uplus (pu p) mu) (bc lim) = uminus (pu p) (bc lim) + mu ->
  (forall i, (i < ni)%N -> arow q' mu d (K * nh + i)) <->
  forall i : 'I_ni, between (bl lim i) (bu_ lim i) ((bA lim *m uminus (uplus (pu p) mu) (bc lim)) i 0).
Proof.
move=> hq e mu d ->; split=> H i; first by rewrite -(bound_row hq e i mu d); apply: H.
by move=> hi; rewrite (bound_row hq e (Ordinal hi)).
Qed.
(** * C53: feasibility *)
Theorem C53_feasible fuel q q' : hist q -> update fuel q = Some q' ->
  forall mu, (exists d, feas q' mu d) <-> in_bounds mu.
Proof.
move=> hq e mu; have [c1 c2 _ _] := hist_clean hq.
have [s [sts es]] := update_some e; have [H1 H2 [H3 H4 H5 H6] _ _] := update_entries es e; split.
  move=> [d hd] i; rewrite -(bound_row hq e i mu d); apply: hd; rewrite -addnA ltn_add2l addn1 ltnS ltnW //.
move=> hb; pose lo r := if dl q' r is Fin b then b else 0.
pose gap r := `|lo r - \sum_(c < nu) dA q' r c * mu c 0|.
exists (\sum_(r < K * nh) gap r) => r hr.
have dpos : 0 <= \sum_(r < K * nh) gap r by apply: sumr_ge0 => i _; apply: normr_ge0.
case: (rowsplit hr) => [[k [j [hk hj er]]]|[i hi ->]|->].
- have [a1 a2 a3 a4] := H1 k j hk hj; rewrite er /arow a2 a3 a4 /between /= andbT mul1r.
  have hr' : (k * nh + j < K * nh)%N.
    have := leq_mul2r nh k.+1 K; rewrite hk orbT mulSn => e1; apply: leq_trans e1; clear -hj; lia.
  rewrite -ler_subl_addl (bigD1 (Ordinal hr')) //= ler_paddr //; first by apply: sumr_ge0 => i _; apply: normr_ge0.
  by rewrite /gap /lo a3 ler_norm.
- by rewrite (bound_row hq e (Ordinal hi)).
rewrite /arow H4 H5 H6 /between /= andbT mul1r big1 ?add0r // => c _; by rewrite H3 // c2 // mul0r.
Qed.
(** The relaxation is nonnegative. *)
Theorem C52_relaxation fuel q q' : hist q -> update fuel q = Some q' -> forall (mu : 'cV[F]_nu) d, arow q' mu d (K * nh + ni) = (0 <= d).
Proof.
move=> hq e mu d; have [_ c2 _ _] := hist_clean hq.
have [s [sts es]] := update_some e; have [_ _ [H3 H4 H5 H6] _ _] := update_entries es e.
rewrite /arow H4 H5 H6 /between /= andbT mul1r big1 ?add0r // => c _; by rewrite H3 // c2 // mul0r.
Qed.
Lemma feasE fuel q q' : hist q -> update fuel q = Some q' -> forall mu d,
  feas q' mu d <-> [/\ forall k (j : 'I_nh), (k < K)%N -> arow q' mu d (k * nh + j), in_bounds mu & 0 <= d].
Proof.
move=> hq e mu d; split=> [hd|[h1 h2 h3] r hr].
  split; last by rewrite -(C52_relaxation hq e mu); apply: hd; rewrite addn1.
    move=> k j hk; apply: hd; have := leq_mul2r nh k.+1 K; rewrite hk orbT mulSn => e1.
    by have := ltn_ord j; move: e1; move: (nat_of_ord j) => j'; clear; lia.
  by move=> i; rewrite -(bound_row hq e i mu d); apply: hd; rewrite -addnA ltn_add2l addn1 ltnS ltnW.
case: (rowsplit hr) => [[k [j [hk hj ->]]]|[i hi ->]|->].
- exact: (h1 k (Ordinal hj)).
- by rewrite (bound_row hq e (Ordinal hi)).
by rewrite (C52_relaxation hq e).
Qed.
(** * C55: updates in place *)
Lemma fold_indep fuel k : (forall q, foldl (kstep fuel) (Some (s0, q)) (iota 0 k) = None) \/
  exists s sts, forall q, foldl (kstep fuel) (Some (s0, q)) (iota 0 k) = Some (s, foldl (fun q j => rstep j (sts j) q) q (iota 0 k)).
Proof.
elim: k => [|k [IH|[s [sts IH]]]]; first by right; exists s0, (fun=> s0).
  by left=> q; rewrite -[k.+1]addn1 iotaD foldl_cat IH.
case et : (time_step xplus ad f bu dfcl p prm fuel k s) => [s2|]; last first.
  by left=> q; rewrite -[k.+1]addn1 iotaD foldl_cat IH /= add0n et.
right; exists s2, (fun j => if j == k then s else sts j) => q.
rewrite -[k.+1]addn1 iotaD !foldl_cat IH /= add0n et eqxx; congr (Some (_, rstep _ _ _)).
by apply: foldl_eq_in => b j; rewrite mem_iota => hj; rewrite (ltn_eqF (hj : (j < k)%N)).
Qed.
Definition same (q q' : dqp F) : Prop :=
  [/\ forall r c, (r < K * nh + ni + 1)%N -> (c < nu + 1)%N -> dA q r c = dA q' r c,
      forall r, (r < K * nh + ni + 1)%N -> dl q r = dl q' r /\ du q r = du q' r &
      forall a b, (a < nu + 1)%N -> (b < nu + 1)%N -> dP q a b = dP q' a b /\ dq q a = dq q' a].
Theorem C55_update fuel q : hist q ->
  match update fuel q, fresh fuel with Some q1, Some q2 => same q1 q2 | None, None => True | _, _ => False end.
Proof.
move=> hq; rewrite /asif_to_qp; case: (fold_indep fuel K) => [N|[s [sts ok]]]; first by rewrite /asif_update !N.
have [q1 e1] : exists q1, update fuel q = Some q1 by rewrite /asif_update ok; eexists.
have [q2 e2] : exists q2, update fuel (asif_allocate F) = Some q2 by rewrite /asif_update ok; eexists.
rewrite e1 e2.
have [c1 c2 c3 c4] := hist_clean hq.
have [A1 A2 [A3 A4 A5 A6] A7 A8] := update_entries (ok q) e1.
have [B1 B2 [B3 B4 B5 B6] B7 B8] := update_entries (ok (asif_allocate F)) e2.
have hc c : (c < nu + 1)%N -> (c < nu)%N \/ c = nu.
  by rewrite addn1 ltnS leq_eqVlt => /orP[/eqP|]; [right|left].
split.
- move=> r c hr /hc hc'; case: (rowsplit hr) => [[k [j [hk hj ->]]]|[i hi ->]|->].
  + have [a1 a2 _ _] := A1 k j hk hj; have [b1 b2 _ _] := B1 k j hk hj.
    by case: hc' => [hc'|->]; [rewrite a1 ?b1|rewrite a2 b2].
  + have [a1 a2 _ _] := A2 i hi; have [b1 b2 _ _] := B2 i hi.
    by case: hc' => [hc'|->]; [rewrite a1 ?b1|rewrite a2 b2 c1].
  by case: hc' => [hc'|->]; [rewrite A3 ?B3 // c2|rewrite A4 B4].
- move=> r hr; case: (rowsplit hr) => [[k [j [hk hj ->]]]|[i hi ->]|->].
  + have [_ _ a3 a4] := A1 k j hk hj; have [_ _ b3 b4] := B1 k j hk hj; by rewrite a3 a4 b3 b4.
  + have [_ _ a3 a4] := A2 i hi; have [_ _ b3 b4] := B2 i hi; by rewrite a3 a4 b3 b4.
  by rewrite A5 A6 B5 B6.
move=> a b ha hb; rewrite A7 B7 A8 B8 c4; split=> //.
case: (eqVneq a b) => [->|ne]; last by rewrite c3.
by case: (hc b hb) => [->|->] //=; rewrite ltnn eqxx.
Qed.
(** * C76: the objective and minimal invasiveness *)
Lemma acostE fuel q q' : hist q -> update fuel q = Some q' -> forall mu d,
  acost q' mu d = 2%:R^-1 * (\sum_(c < nu) pW p c 0 * mu c 0 ^+ 2 + arelax prm * d ^+ 2).
Proof.
move=> hq e mu d; have [_ _ c3 c4] := hist_clean hq.
have [s [sts es]] := update_some e; have [_ _ _ H1 H2] := update_entries es e.
rewrite /acost [X in _ + X]big1 ?addr0 => [|c _]; last by rewrite H2 c4 if_same mul0r.
congr (_ * _); rewrite big_ord_recr /=; congr (_ + _).
  apply: eq_bigr => c _; rewrite (bigD1 (widen_ord (leqnSn nu) c)) //= minnn maxnn H1 !ltn_ord /= eqxx !vgetO big1 ?addr0.
    by rewrite expr2 mulrA.
  move=> b ne; rewrite H1 c3; last first.
    by apply: contraNneq ne => eb; apply/eqP/ord_inj => /=; move: eb; clear; lia.
  have -> : (minn c b == maxn c b) = false.
    by apply/negbTE; apply: contraNneq ne => eb; apply/eqP/ord_inj => /=; move: eb; clear; lia.
  have -> : (minn c b == nu) && (maxn c b == nu) = false.
    by have := ltn_ord c; move: (nat_of_ord c) (nat_of_ord b) => c' b' hc; apply/negbTE; clear -hc; lia.
  by rewrite !if_same mul0r mul0r.
rewrite big_ord_recr /= minnn maxnn !ltnn H1 ltnn eqxx /= big1 ?add0r.
  by rewrite expr2 mulrA.
move=> b _; rewrite H1 c3; last by rewrite neq_ltn; have := ltn_ord b; move: (nat_of_ord b) => b' hb; clear -hb; lia.
have -> : (maxn nu b < nu)%N = false by apply/negbTE; rewrite -leqNgt leq_maxl.
have -> : (minn nu b == nu) = false by have := ltn_ord b; move: (nat_of_ord b) => b' hb; apply/negbTE; clear -hb; lia.
by rewrite andbF /= !mul0r.
Qed.
Theorem C76_minimal fuel q q' : hist q -> update fuel q = Some q' ->
  (forall c, 0 < pW p c 0) -> 0 < arelax prm -> feas q' 0 0 ->
  forall mu d, feas q' mu d -> (forall mu' d', feas q' mu' d' -> acost q' mu d <= acost q' mu' d') -> mu = 0 /\ d = 0.
Proof.
move=> hq e W0 r0 h0 mu d _ /(_ 0 0 h0); rewrite !(acostE hq e).
rewrite [X in _ <= _ * (X + _)]big1 => [|c _]; last by rewrite mxE expr0n mulr0.
rewrite expr0n mulr0 addr0 mulr0 pmulr_rle0 ?invr_gt0 ?ltr0n // => le0.
have p1 (c : 'I_nu) : 0 <= pW p c 0 * mu c 0 ^+ 2 by rewrite mulr_ge0 ?sqr_ge0 // ltW.
have p2 : 0 <= arelax prm * d ^+ 2 by rewrite mulr_ge0 ?sqr_ge0 // ltW.
have p3 : 0 <= \sum_(c < nu) pW p c 0 * mu c 0 ^+ 2 by apply: sumr_ge0 => c _.
have : (\sum_(c < nu) pW p c 0 * mu c 0 ^+ 2 + arelax prm * d ^+ 2 == 0) by rewrite eq_le le0 addr_ge0.
rewrite paddr_eq0 // => /andP[/eqP s1 s2]; split.
  apply/colP => c; rewrite mxE; apply/eqP.
  have s3 : forall c, true -> pW p c 0 * mu c 0 ^+ 2 = 0 by apply: psumr_eq0P s1 => c' _; exact: p1.
  have /eqP := s3 c isT.
  by rewrite mulf_eq0 (gt_eqF (W0 c)) sqrf_eq0.
by apply/eqP; move: s2; rewrite mulf_eq0 (gt_eqF r0) sqrf_eq0.
Qed.
End Thms.

(** * C57: exact condition for termination *)
Section Arch.
Variable F : archiFieldType.
Variables (nx nu nh : nat) (X U : Type).
Variables (xplus : X -> 'cV[F]_nx -> X) (ad : 'cV[F]_nx -> 'M[F]_nx) (uminus : U -> U -> 'cV[F]_nu).
Variables (f : X -> U -> 'cV[F]_nx) (dfu : X -> U -> 'M[F]_(nx, nu)).
Variables (h : F -> X -> 'cV[F]_nh) (dht : F -> X -> 'cV[F]_nh) (dhx : F -> X -> 'M[F]_(nh, nx)).
Variables (bu : F -> X -> U) (dfcl : F -> X -> 'M[F]_nx).
Theorem C57_terminates (p : pbm F nu X U) (prm : aprm F) :
  (exists n, forall fuel q, (n < fuel)%N -> exists q', asif_update xplus ad uminus f dfu h dht dhx bu dfcl p prm fuel q = Some q') <->
  [\/ aK prm = 0%N, pT p <= 0 | 0 < adt prm].
Proof.
split=> [[n H]|].
  case: (posnP (aK prm)) => [->|K0]; first by constructor 1.
  case: (lerP (pT p) 0) => [T0|T0]; first by constructor 2.
  case: (ltrP 0 (adt prm)) => [d0|d0]; first by constructor 3.
  by have [q'] := H n.+1 (asif_allocate F) (ltnSn n); rewrite C57_diverges.
have ok : forall n, (aK prm <> 0%N -> pT p <= 0) -> forall fuel q, (n < fuel)%N -> exists q', asif_update xplus ad uminus f dfu h dht dhx bu dfcl p prm fuel q = Some q'.
  move=> n hT [//|fuel] q _; rewrite /asif_update.
  suff : forall k, (k <= aK prm)%N -> exists R, foldl (k_step xplus ad f dfu h dht dhx bu dfcl p prm fuel.+1) (Some (Ast 0 (px0 p) 1%:M, q)) (iota 0 k) = Some (Ast 0 (px0 p) 1%:M, R).
    by move=> /(_ _ (leqnn _)) [R ->]; eexists.
  elim=> [_|k IH hk]; first by exists q.
  have [R eR] := IH (ltnW hk); rewrite -[k.+1]addn1 iotaD foldl_cat eR /= add0n /time_step /=.
  have : tau p prm * k.+1%:R <= 0.
    rewrite mulr_le0_ge0 ?ler0n // /tau mulr_le0_ge0 ?invr_ge0 ?ler0n //; apply: hT; by case: (aK prm) hk.
  by rewrite ltNge => ->; eexists.
case=> [K0|T0|d0]; [by exists 0%N; apply: ok; rewrite K0|by exists 0%N; apply: ok|].
case: (posnP (aK prm)) => [K0|K0]; first by exists 0%N; apply: ok; rewrite K0.
case: (lerP (pT p) 0) => [T0|T0]; first by exists 0%N; apply: ok.
pose n := Num.bound (pT p / (aK prm)%:R / adt prm); exists (maxn 1 n) => fuel q hf.
apply: (@C57_bound _ _ _ _ _ _ xplus ad uminus f dfu h dht dhx bu dfcl p prm _ _ _ n) => //.
rewrite -ler_pdivr_mulr //; apply: ltW; apply: archi_boundP; by rewrite !divr_ge0 ?ler0n // ltW.
Qed.
End Arch.
