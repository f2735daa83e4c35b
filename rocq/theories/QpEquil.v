(** Property C101: what the scaling of the QP solver achieves (qp_solver.hpp:664-671): the columns of the scaled matrix
    [P A^T; A 0] have similar norm. *)
From Coq Require Import ZArith QArith.
From mathcomp Require Import all_ssreflect all_algebra.
From mathcomp.algebra_tactics Require Import ring.
From Verif Require Import QF LinAlg QpModel QpSpec QpFacts QpAdmm QpLoop QpProps QpConv QpCodes QpCex.
Set Implicit Arguments.
Unset Strict Implicit.
Unset Printing Implicit Defensive.
Import Order.TTheory GRing.Theory Num.Theory.
Local Open Scope ring_scope.

(** * Spec *)
Section Spec.
Variables (F : realFieldType) (n m : nat).
Implicit Types (p : qp F n m) (a b : F).
(** Every column of [P A^T; A 0] is zero or has largest entry between a and b. *)
Definition cols_in p a b : Prop :=
  [/\ forall i j, `|qP p i j| <= b, forall i j, `|qA p i j| <= b,
      forall j, [\/ (forall i, qP p i j = 0) /\ (forall i, qA p i j = 0), exists i, a <= `|qP p i j| | exists i, a <= `|qA p i j|] &
      forall i, (forall j, qA p i j = 0) \/ exists j, a <= `|qA p i j|].
(** Square roots are exact. *)
Definition exact_sqrt (e : env F n m) : Prop := forall t : F, 0 < t -> 0 < sqrt e t /\ sqrt e t ^+ 2 = t.
End Spec.

(** * One round of equilibration of a nonnegative symmetric matrix *)
Section Round.
Variables (F : realFieldType) (I : finType) (T : I -> I -> F) (g D f : I -> F) (dl a b : F).
Hypotheses (T0 : forall i j, 0 <= T i j) (Ts : forall i j, T i j = T j i).
Hypotheses (gle : forall i j, T i j <= g i) (gat : forall i, g i = 0 \/ exists j, g i = T i j).
Hypotheses (dl0 : 0 < dl) (De : forall i, D i = Num.max (if g i == 0 then 1 else g i) dl).
Hypotheses (f0 : forall i, 0 < f i) (ff : forall i, f i ^+ 2 = (D i)^-1).
Definition T' i j := f i * f j * T i j.
Lemma D0 i : 0 < D i. Proof. by rewrite De lt_maxr dl0 orbT. Qed.
Lemma TleD i j : T i j <= D i.
Proof.
rewrite De; case: ifP => [/eqP g0|_].
  by apply: (@le_trans _ _ 0); [rewrite -g0 gle|rewrite le_maxr ler01].
by rewrite le_maxr gle.
Qed.
Lemma T'sq i j : T' i j ^+ 2 = T i j ^+ 2 / (D i * D j).
Proof. by rewrite /T' !exprMn !ff invfM mulrC. Qed.
Lemma T'ge0 i j : 0 <= T' i j. Proof. by rewrite !mulr_ge0 // ltW. Qed.
Lemma T'le1 i j : T' i j <= 1.
Proof.
have h : T' i j ^+ 2 <= 1 ^+ 2.
  rewrite T'sq expr1n ler_pdivr_mulr ?mulr_gt0 ?D0 // mul1r expr2.
  by apply: ler_pmul => //; [exact: TleD|rewrite Ts TleD].
by move: h; rewrite ler_pexpn2r // nnegrE ?T'ge0 ?ler01.
Qed.
Lemma T'z i : (forall j, T i j = 0) -> forall j, T' i j = 0.
Proof. by move=> z j; rewrite /T' z mulr0. Qed.
(** Norms in [a, b] become norms at least the square root of a / b. *)
Lemma T'lo i l : dl <= a -> (forall i, (forall j, T i j = 0) \/ a <= g i) -> (forall i j, T i j <= b) ->
  0 <= l -> l ^+ 2 * b <= a -> (forall j, T i j = 0) \/ exists j, l <= T' i j.
Proof.
move=> da lo up l0 hl; have a0 : 0 < a := lt_le_trans dl0 da.
case: (lo i) => [z|ai]; [by left|right].
have gi0 : 0 < g i by exact: lt_le_trans ai.
case: (gat i) => [g0|[j gj]]; first by rewrite g0 ltxx in gi0.
exists j; have Tij : 0 < T i j by rewrite -gj.
have Di : D i = T i j by rewrite De gt_eqF // max_l ?gj // (le_trans da) // -gj.
have gjp : 0 < g j by apply: (lt_le_trans Tij); rewrite Ts gle.
have Dj : D j <= b.
  rewrite De gt_eqF // le_maxl; case: (gat j) => [g0|[k gk]]; first by rewrite g0 ltxx in gjp.
  by rewrite gk up /= (le_trans da) // (le_trans ai) // gj up.
have h : l ^+ 2 <= T' i j ^+ 2.
  rewrite T'sq Di expr2 invfM mulrA mulfK ?gt_eqF // ler_pdivl_mulr ?D0 // -gj.
  apply: le_trans ai; apply: le_trans hl; apply: ler_wpmul2l => //; exact: sqr_ge0.
by move: h; rewrite ler_pexpn2r // nnegrE ?T'ge0.
Qed.
End Round.

Section Equil.
Variables (F : realFieldType) (n m : nat) (e : env F n m).
Implicit Types (p : qp F n m) (s : scaling_t F n m).
Notation spb s p := (scaled_problem (s_c s) (s_x s) (s_y s) p).
Notation I := ('I_n + 'I_m)%type.
Hypothesis sq : exact_sqrt e.
Lemma sq_good : good_sqrt e. Proof. by move=> t /sq[]. Qed.
Lemma bmax_ge k (h : 'I_k -> F) i : `|h i| <= \big[Num.max/0]_i `|h i|.
Proof. by have := norm_within (\col_i h i) i; rewrite /norm mxE; under eq_bigr do rewrite mxE. Qed.
Lemma bmax_at k (h : 'I_k -> F) : \big[Num.max/0]_i `|h i| = 0 \/ exists i, \big[Num.max/0]_i `|h i| = `|h i|.
Proof.
elim/big_ind: _ => [|x y hx hy|i _]; [by left| |by right; exists i].
by case: (leP x y) => _.
Qed.

Variable p : qp F n m.
Hypothesis sy : symm (qP p).
Definition ent s (x y : I) : F :=
  match x, y with
  | inl i, inl j => `|s_c s * s_x s i 0 * s_x s j 0 * qP p i j|
  | inl j, inr i | inr i, inl j => `|s_y s i 0 * s_x s j 0 * qA p i j|
  | inr _, inr _ => 0
  end.
Definition nrm s (x : I) : F :=
  match x with
  | inl j => Num.max (\big[Num.max/0]_i `|s_c s * s_x s i 0 * s_x s j 0 * qP p i j|)
                     (\big[Num.max/0]_i `|s_y s i 0 * s_x s j 0 * qA p i j|)
  | inr i => \big[Num.max/0]_j `|s_y s i 0 * s_x s j 0 * qA p i j|
  end.
Definition dd s (x : I) : F := Num.max (if nrm s x == 0 then 1 else nrm s x) (em F 8).
Definition fac s (x : I) : F := sqrt e (dd s x)^-1.
Lemma ent0 s x y : 0 <= ent s x y. Proof. by case: x y => [i|i] [j|j]; rewrite /= ?normr_ge0. Qed.
Lemma entS s x y : ent s x y = ent s y x.
Proof. by case: x y => [i|i] [j|j] //=; rewrite -[in LHS]sy mxE; congr `| _ |; ring. Qed.
Lemma ent_nrm s x y : ent s x y <= nrm s x.
Proof.
case: x y => [i|i] [j|j] /=.
- rewrite -/(ent s (inl i) (inl j)) entS /= le_maxr; apply/orP; left; exact: (bmax_ge (fun k => s_c s * s_x s k 0 * s_x s i 0 * qP p k i)).
- rewrite le_maxr; apply/orP; right; exact: (bmax_ge (fun k => s_y s k 0 * s_x s i 0 * qA p k i)).
- exact: (bmax_ge (fun k => s_y s i 0 * s_x s k 0 * qA p i k)).
- by apply: (big_ind (fun x => 0 <= x)) => // x y hx hy; rewrite le_maxr hx.
Qed.
Lemma nrm_at s x : nrm s x = 0 \/ exists y, nrm s x = ent s x y.
Proof.
case: x => [j|i] /=.
  set u := \big[_/_]_i _; set v := \big[_/_]_i _.
  have hu : u = 0 \/ exists i, u = ent s (inl j) (inl i).
    case: (bmax_at (fun k => s_c s * s_x s k 0 * s_x s j 0 * qP p k j)) => [|[k h]]; [by left|right; exists k].
    by rewrite entS.
  have hv : v = 0 \/ exists i, v = ent s (inl j) (inr i).
    by case: (bmax_at (fun k => s_y s k 0 * s_x s j 0 * qA p k j)) => [|[k h]]; [left|right; exists k].
  case: (leP u v) => _; [case: hv => [|[k h]]|case: hu => [|[k h]]].
  - by left.
  - by right; exists (inr k).
  - by left.
  - by right; exists (inl k).
by case: (bmax_at (fun k => s_y s i 0 * s_x s k 0 * qA p i k)) => [|[k h]]; [left|right; exists (inl k)].
Qed.
Lemma dd_x s j : Num.max (x_inc p s j 0) (em F 8) = dd s (inl j).
Proof. by rewrite /x_inc /unit0 mxE mxE. Qed.
Lemma dd_y s i : Num.max (y_inc p s i 0) (em F 8) = dd s (inr i).
Proof. by rewrite /y_inc /unit0 mxE mxE. Qed.
Lemma em0 k : 0 < em F k. Proof. by rewrite /em invr_gt0 exprn_gt0 // ltr0n. Qed.
Lemma dd0 s x : 0 < dd s x. Proof. by rewrite /dd lt_maxr em0 orbT. Qed.
Lemma fac0 s x : 0 < fac s x. Proof. by apply: (sq _).1; rewrite invr_gt0 dd0. Qed.
Lemma facE s x : fac s x ^+ 2 = (dd s x)^-1. Proof. by apply: (sq _).2; rewrite invr_gt0 dd0. Qed.
Lemma ax s j : apply_inc e (x_inc p s) (s_x s) j 0 = fac s (inl j) * s_x s j 0.
Proof. by rewrite /apply_inc mxE dd_x. Qed.
Lemma ay s i : apply_inc e (y_inc p s) (s_y s) i 0 = fac s (inr i) * s_y s i 0.
Proof. by rewrite /apply_inc mxE dd_y. Qed.
Lemma round_ent s x y : ent (scale_round e p s) x y = T' (ent s) (fac s) x y.
Proof.
rewrite /T' -(gtr0_norm (mulr_gt0 (fac0 s x) (fac0 s y))); case: x y => [i|i] [j|j] /=; rewrite ?mulr0 // -normrM; congr `| _ |.
all: rewrite ?ax ?ay; move: (fac _ _) (fac _ _) (s_c s) => u v c; gen_entries; ring.
Qed.
(** The columns of the scaled problem. *)
Definition cin s a b : Prop := (forall x y, ent s x y <= b) /\ (forall x, (forall y, ent s x y = 0) \/ a <= nrm s x).
Lemma spbP s i j : `|qP (spb s p) i j| = ent s (inl i) (inl j).
Proof. by rewrite -scaledP_spb mxE; congr `| _ |; rewrite /=; move: (s_c s) => c; gen_entries; ring. Qed.
Lemma spbA s i j : `|qA (spb s p) i j| = ent s (inl j) (inr i).
Proof. by rewrite -scaledA_spb mxE; congr `| _ |; rewrite /=; gen_entries; ring. Qed.
Lemma cinP s a b : 0 < a -> 0 <= b -> cin s a b <-> cols_in (spb s p) a b.
Proof.
move=> a0 b0; split=> [[up lo]|[u1 u2 c1 c2]].
  split=> [i j|i j|j|i].
  - by rewrite spbP.
  - by rewrite spbA.
  - case: (lo (inl j)) => [z|].
      by constructor 1; split=> i; apply/eqP; rewrite -normr_eq0 ?spbA ?spbP 1?entS ?z // entS z.
    case: (nrm_at s (inl j)) => [->|[[i|i] ->] h]; first by rewrite leNgt a0.
      by constructor 2; exists i; rewrite spbP entS.
    by constructor 3; exists i; rewrite spbA.
  - case: (lo (inr i)) => [z|]; first by left=> j; apply/eqP; rewrite -normr_eq0 spbA entS z.
    case: (nrm_at s (inr i)) => [->|[[j|j] ->] h]; first by rewrite leNgt a0.
      by right; exists j; rewrite spbA entS.
    by move: h; rewrite /= leNgt a0.
split=> [[i|i] [j|j]|[j|i]].
- by rewrite -spbP.
- by rewrite -spbA.
- by rewrite entS -spbA.
- exact: b0.
- case: (c1 j) => [[z1 z2]|[i h]|[i h]].
  + by left=> -[i|i]; apply/eqP; [rewrite entS -spbP z1 normr0|rewrite -spbA z2 normr0].
  + by right; apply: le_trans h _; rewrite spbP entS; exact: ent_nrm.
  + by right; apply: le_trans h _; rewrite spbA; exact: ent_nrm.
- case: (c2 i) => [z|[j h]].
  + by left=> -[j|j] //; apply/eqP; rewrite entS -spbA z normr0.
  + by right; apply: le_trans h _; rewrite spbA entS; exact: ent_nrm.
Qed.
(** One round. *)
Lemma round_le1 s x y : ent (scale_round e p s) x y <= 1.
Proof.
rewrite round_ent; apply: (T'le1 (@ent0 s) (@entS s) (@ent_nrm s) (em0 8) (D := dd s)) => //; [exact: fac0|exact: facE].
Qed.
Lemma round_in s a b l : em F 8 <= a -> cin s a b -> 0 <= l -> l ^+ 2 * b <= a -> cin (scale_round e p s) l 1.
Proof.
move=> da [up lo] l0 hl; split=> [x y|x]; first exact: round_le1.
case: (@T'lo _ _ (ent s) (nrm s) (dd s) (fac s) (em F 8) a b _ _ _ _ _ _ _ _ x l) => //.
- exact: ent0.
- exact: entS.
- exact: ent_nrm.
- exact: nrm_at.
- exact: em0.
- exact: fac0.
- exact: facE.
- by move=> z; left=> y; rewrite round_ent /T' z mulr0.
- by case=> y; rewrite -round_ent => h; right; apply: le_trans h _; exact: ent_nrm.
Qed.
(** The test of the loop. *)
Lemma spread_in s : (1 / 10%:R < spread p s) = false -> cin s (9%:R / 10%:R) (11%:R / 10%:R).
Proof.
move/negbT; rewrite -leNgt /spread le_maxl => /andP[/norm_le_within hx /norm_le_within hy].
have t0 : (0 : F) < 10%:R by rewrite ltr0n.
have hx' j : `|(if nrm s (inl j) == 0 then 1 else nrm s (inl j)) - 1| <= 1 / 10%:R.
  by have := hx j; rewrite /x_inc /unit0 !mxE.
have hy' j : `|(if nrm s (inr j) == 0 then 1 else nrm s (inr j)) - 1| <= 1 / 10%:R.
  by have := hy j; rewrite /y_inc /unit0 !mxE.
have h x : nrm s x = 0 \/ 9%:R / 10%:R <= nrm s x /\ nrm s x <= 11%:R / 10%:R.
  have : `|(if nrm s x == 0 then 1 else nrm s x) - 1| <= 1 / 10%:R by case: x.
  case: eqP => [|_]; first by left.
  rewrite ler_norml => /andP[h1 h2]; right; split.
    move: h1; rewrite ler_subr_addr => h1; apply: le_trans h1.
    have -> // : - (1 / 10%:R) + 1 = 9%:R / 10%:R :> F by rewrite !(q2f_nat F) -(q2f1 F) -!q2f_div -?q2fN -q2fD; exact: q2f_eq.
  move: h2; rewrite ler_subl_addr => h2; apply: le_trans h2 _.
  have -> // : 1 / 10%:R + 1 = 11%:R / 10%:R :> F by rewrite !(q2f_nat F) -(q2f1 F) -!q2f_div -?q2fN -q2fD; exact: q2f_eq.
split=> [x y|x].
  case: (h x) => [n0|[_]]; last exact: le_trans (ent_nrm s x y).
  by apply: le_trans (ent_nrm s x y) _; rewrite n0 divr_ge0 ?ler0n.
case: (h x) => [n0|[]]; last by right.
by left=> y; apply/eqP; rewrite eq_le ent0 andbT -n0 ent_nrm.
Qed.
Lemma in_spread s a : 9%:R / 10%:R <= a -> cin s a 1 -> (1 / 10%:R < spread p s) = false.
Proof.
move=> ha [up lo]; apply/negbTE; rewrite -leNgt /spread le_maxl.
have t1 : 0 <= 1 / 10%:R :> F by rewrite divr_ge0 ?ler0n ?ler01.
have h x : `|(if nrm s x == 0 then 1 else nrm s x) - 1| <= 1 / 10%:R.
  case: eqP => [|n0]; first by rewrite subrr normr0.
  have n1 : nrm s x <= 1 by case: (nrm_at s x) => [->|[y ->]]; rewrite ?ler01.
  rewrite distrC ger0_norm ?subr_ge0 // ler_subl_addr -ler_subl_addl.
  have -> : 1 - 1 / 10%:R = 9%:R / 10%:R :> F by rewrite !(q2f_nat F) -(q2f1 F) -!q2f_div -q2fB; exact: q2f_eq.
  case: (lo x) => [z|]; last exact: le_trans.
  by case: (nrm_at s x) => [//|[y hy]]; case: n0; rewrite hy z.
apply/andP; split; apply/norm_leP => // i.
  by have := h (inl i); rewrite /x_inc /unit0 !mxE.
by have := h (inr i); rewrite /y_inc /unit0 !mxE.
Qed.
Lemma cin_weak s a b a' b' : a' <= a -> b <= b' -> cin s a b -> cin s a' b'.
Proof.
move=> ha hb [up lo]; split=> [x y|x]; first exact: le_trans (up x y) hb.
by case: (lo x) => [|h]; [left|right; exact: le_trans ha h].
Qed.
Lemma loopE k s : scale_loop e k.+1 p s = if 1 / 10%:R < spread p s then scale_loop e k p (scale_round e p s) else scale_round e p s.
Proof. by []. Qed.
(** A round that ends the loop. *)
Lemma last_round s : (1 / 10%:R < spread p s) = false -> cin (scale_round e p s) (9%:R / 10%:R) 1.
Proof.
move/spread_in => h; apply: round_in h _ _; first last.
- by rewrite !(q2f_nat F) -!q2f_div expr2 -!q2fM q2f_le.
- by rewrite divr_ge0 ?ler0n.
- by rewrite /em !(q2f_nat F) q2fX -q2fV -!q2f_div q2f_le.
Qed.
(** Lower bounds of the norms that improve with every round. *)
Fixpoint chain (l : Q) (ls : seq Q) : bool :=
  if ls is l' :: ls' then [&& Qle_bool (1#100000000) l, Qle_bool (0#1) l', Qle_bool (Qmult l' l') l & chain l' ls'] else Qle_bool (9#10) l.
Lemma chain_loop ls l k s : chain l ls -> (size ls < k)%N -> cin s (q2f F l) 1 -> cin (scale_loop e k p s) (9%:R / 10%:R) 1.
Proof.
elim: ls l k s => [|l' ls IH] l [|k] s // hc hk cs; rewrite loopE.
  rewrite (in_spread _ cs); last by rewrite !(q2f_nat F) -!q2f_div q2f_le.
  by apply: last_round; rewrite (in_spread _ cs) // !(q2f_nat F) -!q2f_div q2f_le.
case E: (_ < _); last exact: last_round.
have /and4P[h1 h2 h3 h4] := hc; apply: (IH l') => //.
apply: round_in cs _ _.
- by rewrite /em !(q2f_nat F) q2fX -q2fV q2f_le.
- by rewrite -(q2f0 F) q2f_le.
- by rewrite mulr1 expr2 -q2fM q2f_le.
Qed.
Lemma loop_last k s : exists2 s', scale_loop e k p s = scale_round e p s' & s_c s' = s_c s.
Proof.
elim: k s => [|k IH] s; first by exists s.
rewrite loopE; case: ifP => _; last by exists s.
by have [s' h1 h2] := IH (scale_round e p s); exists s'.
Qed.
Notation s0 := (Scaling (cost_scale p) (ones F n) (ones F m)).
Lemma scaleE s : scale e p = Some s -> [/\ (0 < n)%N, (0 < m)%N & s = scale_loop e 10 p s0].
Proof. by rewrite /scale; case: ifP => // /andP[n0 m0]; move: 10%N => k [<-]. Qed.
(** No entry of the scaled matrix is larger than one. *)
Theorem C101_entries s : scale e p = Some s ->
  (forall i j, `|qP (spb s p) i j| <= 1) /\ (forall i j, `|qA (spb s p) i j| <= 1).
Proof.
case/scaleE => _ _ ->; have [s' -> _] := loop_last 10 s0.
by split=> i j; rewrite ?spbP ?spbA round_le1.
Qed.
(** Columns whose norms are at least 1e-8 and differ by a factor of at most 1e16 end up with norms between 0.9 and 1. *)
Theorem C101_columns s a b : scale e p = Some s -> em F 8 <= a -> b <= 10%:R ^+ 16 * a ->
  cols_in (Qp (s_c s *: qP p) (qq p) (qA p) (ql p) (qu p)) a b -> cols_in (spb s p) (9%:R / 10%:R) 1.
Proof.
case/scaleE => n0 m0 -> da hb.
have ec : s_c (scale_loop e 10 p s0) = cost_scale p by have [s' -> h] := loop_last 10 s0; rewrite -[LHS]/(s_c s') h.
rewrite {1}ec => ci; have a0 := lt_le_trans (em0 8) da.
have b0 : 0 <= b.
  have [_ u _ _] := ci; exact: le_trans (normr_ge0 _) (u (Ordinal m0) (Ordinal n0)).
have {}ci : cin s0 a b.
  apply/cinP => //.
  have eP i j : qP (spb s0 p) i j = (cost_scale p *: qP p) i j by rewrite -scaledP_spb !mxE /= ?mxE !mulr1.
  have eA i j : qA (spb s0 p) i j = qA p i j by rewrite -scaledA_spb !mxE /= ?mxE mul1r mulr1.
  have [u1 u2 c1 c2] := ci; split=> [i j|i j|j|i].
  - by rewrite eP.
  - by rewrite eA.
  - case: (c1 j) => [[z1 z2]|[i h]|[i h]].
    + by constructor 1; split=> i; rewrite ?eP ?eA.
    + by constructor 2; exists i; rewrite eP.
    + by constructor 3; exists i; rewrite eA.
  - by case: (c2 i) => [z|[j h]]; [left=> j|right; exists j]; rewrite eA.
suff : cin (scale_loop e 10 p s0) (9%:R / 10%:R) 1.
  have h9 : 0 < 9%:R / 10%:R :> F by rewrite divr_gt0 ?ltr0n.
  by move: (scale_loop e 10 p s0) => sf /(cinP sf h9 ler01).
rewrite (loopE 9); case E: (_ < _); last exact: last_round.
apply: (@chain_loop [:: 1#10000; 1#100; 1#10; 31#100; 55#100; 74#100; 86#100; 92#100] (1#100000000)) => //.
apply: round_in ci _ _ => //; first by rewrite -(q2f0 F) q2f_le.
have k0 : 0 < 10%:R ^+ 16 :> F by rewrite exprn_gt0 // ltr0n.
rewrite -(ler_pmul2l k0); apply: le_trans hb; rewrite mulrA.
have -> : 10%:R ^+ 16 * q2f F (1#100000000) ^+ 2 = 1 by rewrite (q2f_nat F) !q2fX -q2fM -(q2f1 F); exact: q2f_eq.
by rewrite mul1r.
Qed.
End Equil.

(** * The cost *)
Section Cost.
Variable F : realFieldType.
Notation f := (q2f F).
Lemma exact_sqrtE n m (e : env F n m) t : exact_sqrt e -> 0 < t -> sqrt e (t ^+ 2) = t.
Proof.
move=> sq t0; have [s0 s2] := sq _ (exprn_gt0 2 t0).
by apply/eqP; rewrite -(eqr_expn2 (n := 2)) ?s2 // ltW.
Qed.
(** min x^2 / 2 + 1e6 x without active constraint: the scaled P is 1 and the scaled q is 1000. *)
Definition p101 : qp F 1 1 := p1 F (1#1) (1000000#1) (0#1) NI PI.
Definition s101 : scaling_t F 1 1 := Scaling (f (1#1000000)) (cst F (1000#1)) (cst F (1#1)).
Lemma scale101 (e : env F 1 1) : exact_sqrt e -> scale e p101 = Some s101.
Proof.
move=> sq; rewrite /scale; have -> : (0 < 1)%N && (0 < 1)%N by [].
have bm (g : 'I_1 -> F) : \big[Num.max/0]_i `|g i| = `|g 0| by rewrite big_ord_recl big_ord0; apply: max_l.
have m1 k : Num.max 1 (em F k) = 1.
  by rewrite max_l // /em invf_le1 ?exprn_gt0 ?ltr0n // exprn_ege1 // ler1n.
have sq1 : sqrt e 1 = 1 by have := exact_sqrtE sq ltr01; rewrite expr1n.
have c1 : cost_scale p101 = f (1#1000000).
  rewrite /cost_scale /= cst_norm big_ord1 /cost_cols /unit0 !mxE bm !mxE q2f1 normr1 oner_eq0 divr1.
  rewrite -(q2f1 F) q2f_max /em (q2f_nat F) q2fX -q2fV q2f_max -q2f_div; exact: q2f_eq.
have xi a : ~~ Qle_bool a (0#1) -> x_inc p101 (Scaling (f (1#1000000)) (cst F a) (cst F (1#1))) = cst F (Qmult (Qmult (Qmult (1#1000000) a) a) (1#1)).
  move=> a0; have h : 0 < f (Qmult (Qmult (Qmult (1#1000000) a) a) (1#1)).
    have pos b : ~~ Qle_bool b (0#1) -> 0 < f b by rewrite -(q2f0 F) q2f_lt.
    rewrite q2fM q2fM q2fM; apply: mulr_gt0; last exact: pos.
    by apply: mulr_gt0; [apply: mulr_gt0|]; exact: pos.
  apply/matrixP => i j; rewrite [j]ord1 [i]ord1 /x_inc /unit0 !mxE !bm !mxE /= ?mxE -!q2fM (gtr0_norm h) !q2fM [f (0#1)]q2f0 !mulr0 normr0 -!q2fM.
  by rewrite max_l ?ltW // (gt_eqF h).
have yi a : y_inc p101 (Scaling (f (1#1000000)) (cst F a) (cst F (1#1))) = ones F 1.
  by apply/matrixP => i j; rewrite [j]ord1 [i]ord1 /y_inc /unit0 !mxE !bm !mxE /= ?mxE [f (0#1)]q2f0 mulr0 normr0 eqxx.
have ay1 : apply_inc e (ones F 1) (cst F (1#1)) = cst F (1#1).
  by apply/matrixP => i j; rewrite !mxE m1 invr1 sq1 mul1r.
have r1 : scale_round e p101 (Scaling (f (1#1000000)) (cst F (1#1)) (cst F (1#1))) = s101.
  rewrite /scale_round -[s_x _]/(cst F (1#1)) -[s_y _]/(cst F (1#1)) -[s_c _]/(f (1#1000000)) xi // yi ay1.
  have -> : apply_inc e (cst F (Qmult (Qmult (Qmult (1#1000000) (1#1)) (1#1)) (1#1))) (cst F (1#1)) = cst F (1000#1) => //.
  apply/matrixP => i j; rewrite !mxE max_l; last by rewrite /em (q2f_nat F) q2fX -q2fV q2f_le.
  have -> : (f (Qmult (Qmult (Qmult (1#1000000) (1#1)) (1#1)) (1#1)))^-1 = f (1000#1) ^+ 2 by rewrite -q2fV expr2 -q2fM; exact: q2f_eq.
  by rewrite exact_sqrtE // ?q2f1 ?mulr1 // -(q2f0 F) q2f_lt.
have e1 : cst F (Qmult (Qmult (Qmult (1#1000000) (1000#1)) (1000#1)) (1#1)) = ones F 1 by rewrite -cst1; exact: cst_eq.
have r2 : scale_round e p101 s101 = s101.
  rewrite /scale_round -[s_x _]/(cst F (1000#1)) -[s_y _]/(cst F (1#1)) -[s_c _]/(f (1#1000000)) xi // yi ay1 e1.
  have -> : apply_inc e (ones F 1) (cst F (1000#1)) = cst F (1000#1) => //.
  by apply/matrixP => i j; rewrite !mxE m1 invr1 sq1 mul1r.
have p1 : 1 / 10%:R < spread p101 (Scaling (f (1#1000000)) (cst F (1#1)) (cst F (1#1))).
  rewrite /spread xi // yi lt_maxr -cst1 cstN cstD cst_norm (q2f_nat F) -(q2f1 F) -q2f_div q2f_lt //.
have p2 : 1 / 10%:R < spread p101 s101 = false.
  by rewrite /spread xi // yi e1 !subrr !norm0 maxxx ltNge divr_ge0 ?ler0n ?ler01.
have slE k s : scale_loop e k.+1 p101 s = if 1 / 10%:R < spread p101 s then scale_loop e k p101 (scale_round e p101 s) else scale_round e p101 s by [].
by rewrite c1 -cst1 (slE 9%N) p1 r1 (slE 8%N) p2 r2.
Qed.
Theorem C101_cost_refuted : exists p : qp F 1 1, symm (qP p) /\ forall e : env F 1 1, exact_sqrt e ->
  exists2 s, scale e p = Some s & norm (qq (scaled_problem (s_c s) (s_x s) (s_y s) p)) = 1000%:R *
    `|qP (scaled_problem (s_c s) (s_x s) (s_y s) p) 0 0|.
Proof.
exists p101; split=> [|e sq]; first by rewrite /symm /= cstT.
exists s101; first exact: scale101.
have -> : qq (scaled_problem (s_c s101) (s_x s101) (s_y s101) p101) = cst F (1000#1).
  by rewrite /= mul_diagl; apply/matrixP => i j; rewrite [j]ord1 !mxE -!q2fM; exact: q2f_eq.
rewrite /= mul_diagl mul_diagr !mxE -!q2fM cst_norm q2f_abs (q2f_nat F) -q2fM; exact: q2f_eq.
Qed.
(** Case for C101_columns: min 0 subject to 16 x = 16. *)
Example C101_columns_case : cols_in (Qp (f (1#1) *: qP (p1 F (0#1) (0#1) (16#1) (Fi (16#1)) (Fi (16#1)))) 0 (cst F (16#1)) (fun=> Fin 0) (fun=> Fin 0)) 1 (10%:R ^+ 16).
Proof.
have h : 1 <= `|f (16#1)| by rewrite -(q2f1 F) q2f_abs q2f_le.
split=> [i j|i j|j|i] /=; rewrite ?mxE.
- by rewrite q2f0 mulr0 normr0 exprn_ge0 ?ler0n.
- by rewrite (q2f_nat F) q2fX q2f_abs q2f_le.
- by constructor 3; exists 0; rewrite mxE.
- by right; exists 0; rewrite mxE.
Qed.
End Cost.
Example C101_sqrt_case (R : rcfType) n m : exact_sqrt (Env Num.sqrt (fun=> true) (fun=> fun=> true) (fun=> false) 0 : env R n m).
Proof. by move=> t t0 /=; rewrite sqrtr_gt0 t0 sqr_sqrtr // ltW. Qed.
Print Assumptions C101_entries. Print Assumptions C101_columns. Print Assumptions C101_cost_refuted.
