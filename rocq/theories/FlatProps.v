(** Properties of the flattening of optimal control problems. *)
From mathcomp Require Import all_ssreflect all_algebra.
From mathcomp.algebra_tactics Require Import ring.
From Verif Require Import Calc QpModel QpSpec FlatModel FlatSpec FlatFacts.
Set Implicit Arguments.
Unset Strict Implicit.
Unset Printing Implicit Defensive.
Import Order.TTheory GRing.Theory Num.Theory.
Local Open Scope ring_scope.

Section Gen.
Variable F : realFieldType.
(** One group, a reference curve r and the map (t, e) -> (t, r(t) (+) e). *)
Section One.
Variables (G : lie F) (D : 'cV[F]_(dof G) -> Prop) (oG : lie_ok D) (r : curve G).
Hypothesis rv : forall t, vel (@lplus F G) (cv r) t (dcv r t).
Let n := dof G.
Definition zt (z : 'cV[F]_(1 + n)) : F := z (lshift n 0) 0.
Definition point (z : 'cV[F]_(1 + n)) : car (pairL (R1 F) G) := (zt z, lplus (cv r (zt z)) (dsubmx z)).
Definition Jp (z : 'cV[F]_(1 + n)) : 'M[F]_(1 + n) := block_mx 1%:M 0 (Adi (dsubmx z) *m dcv r (zt z)) (dexp (dsubmx z)).
Definition Hp (z : 'cV[F]_(1 + n)) (k : 'I_(1 + n)) : 'M[F]_(1 + n) :=
  match split k with inl _ => 0 | inr k => block_mx 0 (row k (dAdexp (dsubmx z) (dcv r (zt z)))) 0 (d2exp (dsubmx z) k) end.

Lemma zt_r z k s : zt (setc z (rshift 1 k) s) = zt z.
Proof. by rewrite /zt mxE eq_lrshift. Qed.
Lemma zt_l z s : zt (setc z (lshift n 0) s) = s.
Proof. by rewrite /zt mxE eqxx. Qed.
Lemma delta_col m p (A : 'M[F]_(m, p)) k : A *m delta_mx k 0 = col k A.
Proof. by rewrite -colE. Qed.

Lemma vel_point z b : vel (@lplus F (pairL (R1 F) G)) (fun s => point (setc z b s)) (z b 0) (col b (Jp z)).
Proof.
case: (split_ordP b) => {b} k ->.
  rewrite (ord1 k) {k}.
  apply: (@vel_ext _ _ _ _ (fun s => (s, lplus (cv r s) (dsubmx z)))).
    by move=> s; rewrite /point zt_l setc_dl.
  have := vel_pair (G := R1 F) (w1 := 1%:M) _ (ok_vel oG (rv (zt z)) (derivv_const (dsubmx z) (zt z))).
  move=> /(_ id) H; apply: vel_eq (H _); last first.
    by apply/(@velR1 _ _ _ 1); [rewrite mxE|exact: deriv_id].
  by rewrite /Jp block_mxEh colKl mulmx0 addr0; apply/matrixP => i j; rewrite (ord1 j) [RHS]mxE.
apply: (@vel_ext _ _ _ _ (fun s => (zt z, lplus (cv r (zt z)) (setc (dsubmx z) k s)))).
  by move=> s; rewrite /point zt_r setc_dr.
have := vel_pair (G := R1 F) (w1 := 0) _ (ok_vel oG (vel_const (z (rshift 1 k) 0) (ok_zero oG (cv r (zt z)))) (derivv_setc (dsubmx z) k _)).
move=> /(_ (fun=> zt z)) H; apply: vel_eq (H _); last first.
  by apply/(@velR1 _ _ _ 0); [rewrite mxE|exact: deriv_const].
have -> : z (rshift 1 k) 0 = dsubmx z k 0 by rewrite mxE.
by rewrite setc_id mulmx0 add0r delta_col /Jp block_mxEh colKr col_col_mx col0.
Qed.
Lemma partial_Jp z i a b : derivv (dcv r) (zt z) 0 -> partial (fun z => Jp z i a) z b (Hp z i a b).
Proof.
move=> acc; rewrite /Hp; case: (split_ordP i) => {i} i ->; rewrite ?(unsplitK (inl i)) ?(unsplitK (inr i)).
  rewrite [X in partial _ _ _ X]mxE; apply: (@partial_ext _ _ (fun=> (row_mx 1%:M 0 : 'M[F]_(1, 1 + n)) i a)); last exact: partial_const.
  by move=> w; rewrite /Jp col_mxEu.
case: (split_ordP a) => {a} a ->; case: (split_ordP b) => {b} b ->.
- rewrite (ord1 a) (ord1 b) {a b} block_mxEul [X in partial _ _ _ X]mxE /partial.
  apply: (@deriv_ext _ (fun s => \sum_k Adi (dsubmx z) i k * dcv r s k 0)).
    by move=> s; rewrite /Jp block_mxEdl zt_l setc_dl mxE.
  apply: (@deriv_eq _ _ _ (\sum_k Adi (dsubmx z) i k * (0 : 'cV[F]_n) k 0)).
    by rewrite big1 // => k _; rewrite mxE mulr0.
  by apply: deriv_sum => k _; apply: deriv_scale; exact: acc.
- rewrite (ord1 a) {a} block_mxEur [X in partial _ _ _ X]mxE /partial.
  apply: deriv_ext (_ : deriv (fun s => (Adi (setc (dsubmx z) b s) *m dcv r (zt z)) i 0) _ _).
    by move=> s; rewrite /Jp block_mxEdl zt_r setc_dr.
  by have := ok_dAd oG (dsubmx z) (dcv r (zt z)) b i; rewrite /partial mxE.
- rewrite (ord1 b) {b} block_mxEdl [X in partial _ _ _ X]mxE /partial.
  apply: deriv_ext (deriv_const (dexp (dsubmx z) i a) _) => s.
  by rewrite /Jp block_mxEdr setc_dl.
- rewrite block_mxEdr /partial.
  apply: deriv_ext (_ : deriv (fun s => dexp (setc (dsubmx z) b s) i a) _ _).
    by move=> s; rewrite /Jp block_mxEdr setc_dr.
  by have := ok_d2 oG (dsubmx z) i a b; rewrite /partial mxE.
Qed.

(** A function evaluated there. *)
Variables (m : nat) (f : fn F (car (pairL (R1 F) G)) (1 + n) m).
Hypothesis f1 : fn_ok1 (@lplus F (pairL (R1 F) G)) f.
Lemma gen_jac z i k : partial (fun z => fval f (point z) i 0) z k ((fjac f (point z) *m Jp z) i k).
Proof.
rewrite /partial mxE.
have := @vel_chain F _ _ (@lplus F (pairL (R1 F) G)) (fun y => fval f y i 0) (fun s => point (setc z k s)) (z k 0) (col k (Jp z)) (fun l => fjac f (point z) i l).
rewrite setc_id => /(_ (f1 _ i) (vel_point z k)); apply: deriv_eq.
by apply: eq_bigr => l _; rewrite mxE.
Qed.
Hypothesis f2 : fn_ok2 (@lplus F (pairL (R1 F) G)) f.
Lemma gen_jac2 z i a b : derivv (dcv r) (zt z) 0 ->
  partial (fun z => (fjac f (point z) *m Jp z) i a) z b (fog (fjac f (point z)) (fhess f (point z)) (Jp z) (Hp z) i a b).
Proof.
move=> acc; rewrite /partial.
have e1 : fog (fjac f (point z)) (fhess f (point z)) (Jp z) (Hp z) i a b = \sum_k
  ((\sum_l fhess f (point z) i k l * col b (Jp z) l 0) * Jp (setc z b (z b 0)) k a +
   fjac f (point (setc z b (z b 0))) i k * Hp z k a b).
  rewrite setc_id big_split /= /fog mxE summxE; congr (_ + _); last by apply: eq_bigr => k _; rewrite mxE.
  rewrite -mulmxA mxE; apply: eq_bigr => k _; rewrite [LHS]mulrC; congr (_ * _); last by rewrite mxE.
  by rewrite mxE; apply: eq_bigr => l _; rewrite [in RHS]mxE.
rewrite e1; apply: (@deriv_ext _ (fun s => \sum_k fjac f (point (setc z b s)) i k * Jp (setc z b s) k a)).
  by move=> s; rewrite mxE.
apply: deriv_sum => k _; apply: deriv_mul; last exact: partial_Jp.
have := @vel_chain F _ _ (@lplus F (pairL (R1 F) G)) (fun y => fjac f y i k) (fun s => point (setc z b s)) (z b 0) (col b (Jp z)) (fun l => fhess f (point z) i k l).
by rewrite setc_id => /(_ (f2 _ i k) (vel_point z b)).
Qed.
Lemma gen_hess z i a b : derivv (dcv r) (zt z) 0 ->
  hess (fun z => fval f (point z) i 0) z a b (fog (fjac f (point z)) (fhess f (point z)) (Jp z) (Hp z) i a b).
Proof.
by move=> acc; exists (fun z => (fjac f (point z) *m Jp z) i a); [move=> w; exact: gen_jac|exact: gen_jac2].
Qed.
End One.
End Gen.
