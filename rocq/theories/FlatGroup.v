(** Nilpotent groups of step two (such as the Heisenberg group) satisfy what is trusted of the library, so that
    the theorems on flattening are not empty for groups that do not commute. *)
From mathcomp Require Import all_ssreflect all_algebra.
From mathcomp.algebra_tactics Require Import ring.
From Verif Require Import Calc QpModel QpSpec FlatModel FlatSpec FlatFacts FlatProps FlatThms FlatThms3.
Set Implicit Arguments.
Unset Strict Implicit.
Unset Printing Implicit Defensive.
Import Order.TTheory GRing.Theory Num.Theory.
Local Open Scope ring_scope.

Section Nil.
Variables (F : realFieldType) (n : nat) (ad : 'cV[F]_n -> 'M[F]_n).
Hypothesis adl : forall (c : F) a b, ad (c *: a + b) = c *: ad a + ad b.
Hypothesis ada : forall a b, ad a *m b = - (ad b *m a).
Hypothesis adn : forall a b, ad (ad a *m b) = 0.
Local Notation hf := (2%:R^-1 : F).
(** Multiplication x exp(a) = x + a + [x, a] / 2. *)
Definition Nil2 : lie F := @Lie F 'cV[F]_n n (fun x a => x + a + hf *: (ad x *m a))
  (fun e => 1%:M - ad e) ad (fun e => 1%:M - hf *: ad e) (fun e => 1%:M + hf *: ad e)
  (fun e i => \matrix_(j, k) - (hf * ad (delta_mx k 0) i j)) (fun e i => \matrix_(j, k) (hf * ad (delta_mx k 0) i j)).

Lemma ad0 : ad 0 = 0. Proof. by have := adl (-1) 0 0; rewrite scaler0 addr0 scaleN1r addNr. Qed.
Lemma adD a b : ad (a + b) = ad a + ad b. Proof. by have := adl 1 a b; rewrite !scale1r. Qed.
Lemma adZ c a : ad (c *: a) = c *: ad a. Proof. by have := adl c a 0; rewrite ad0 !addr0. Qed.
Lemma adN a : ad (- a) = - ad a. Proof. by rewrite -scaleN1r adZ scaleN1r. Qed.
Lemma adB a b : ad (a - b) = ad a - ad b. Proof. by rewrite adD adN. Qed.
Lemma ad2 a b (c : 'cV[F]_n) : ad a *m (ad b *m c) = 0.
Proof. by rewrite ada adn mul0mx oppr0. Qed.
Lemma ad2m a b : ad a *m ad b = 0.
Proof. by apply/matrixP => i j; have := congr1 (fun M : 'cV[F]_n => M i 0) (ad2 a b (delta_mx j 0)); rewrite mulmxA delta_col !mxE. Qed.
Lemma h2 : hf + hf = 1. Proof. by have := splitr (1 : F); rewrite mul1r => <-. Qed.

Lemma ad_basis a : ad a = \sum_k a k 0 *: ad (delta_mx k 0).
Proof.
have S (r : seq 'I_n) : ad (\sum_(k <- r) a k 0 *: delta_mx k 0) = \sum_(k <- r) a k 0 *: ad (delta_mx k 0).
  by elim: r => [|k r IH]; rewrite ?big_nil ?ad0 // !big_cons adl IH.
rewrite -S; congr ad; apply/matrixP => i j; rewrite (ord1 j) summxE (bigD1 i) //= big1.
  by rewrite !mxE !eqxx mulr1 addr0.
by move=> k ki; rewrite !mxE eq_sym (negbTE ki) mulr0.
Qed.
Lemma ad_deriv (e : F -> 'cV[F]_n) s w i j : derivv e s w -> deriv (fun r => ad (e r) i j) s (ad w i j).
Proof.
move=> h; rewrite (ad_basis w) summxE.
apply: (@deriv_ext _ (fun r => \sum_k ad (delta_mx k 0) i j * e r k 0)).
  by move=> r; rewrite (ad_basis (e r)) summxE; apply: eq_bigr => k _; rewrite mxE mulrC.
rewrite (eq_bigr (fun k => ad (delta_mx k 0) i j * w k 0)); last by move=> k _; rewrite mxE mulrC.
by apply: deriv_sum => k _; exact: deriv_scale.
Qed.
Lemma half_inv e : (1%:M + hf *: ad e) *m (1%:M - hf *: ad e) = 1%:M.
Proof.
rewrite mulmxDl !mulmxBr !mulmx1 !mul1mx -scalemxAl -scalemxAr ad2m !scaler0 subr0; exact: subrK.
Qed.
Lemma half_inv' e : (1%:M - hf *: ad e) *m (1%:M + hf *: ad e) = 1%:M.
Proof. exact: mulmx1C (half_inv e). Qed.
Lemma plusE (x a : 'cV[F]_n) : x + a + hf *: (ad x *m a) = x + (1%:M + hf *: ad x) *m a.
Proof. by rewrite mulmxDl mul1mx -scalemxAl addrA. Qed.

(** Velocity and derivative. *)
Lemma velN (x : F -> 'cV[F]_n) s w : vel (@lplus F Nil2) x s w -> derivv x s ((1%:M + hf *: ad (x s)) *m w).
Proof.
move=> h i; rewrite mxE.
apply: (@vel_chain F _ _ (@lplus F Nil2) (fun y : 'cV[F]_n => y i 0) x s w (fun k => (1%:M + hf *: ad (x s)) i k)) => //.
move=> ep ep0; exists 1 => [|a _]; first exact: ltr01.
rewrite /= plusE addE [((_ + _) *m _) _ _]mxE; move: (x s i 0) (\sum_k _) => u v.
have -> : u + v - u - v = 0 by ring.
by rewrite normr0 mulr_ge0 ?(ltW ep0) // sumr_ge0.
Qed.
Lemma derivv_mulc (A : 'M[F]_n) (x : F -> 'cV[F]_n) s d : derivv x s d -> derivv (fun r => A *m x r) s (A *m d).
Proof.
move=> h i; rewrite mxE; apply: (@deriv_ext _ (fun r => \sum_k A i k * x r k 0)); first by move=> r; rewrite mxE.
by apply: deriv_sum => k _; exact: deriv_scale.
Qed.
Lemma velN' (x : F -> 'cV[F]_n) s d : derivv x s d -> vel (@lplus F Nil2) x s ((1%:M - hf *: ad (x s)) *m d).
Proof.
move=> h; have h1 : derivv (fun r => (1%:M - hf *: ad (x s)) *m (x r - x s)) s ((1%:M - hf *: ad (x s)) *m d).
  apply: derivv_mulc; rewrite -[X in derivv _ _ X]addr0.
  by apply: derivv_add => //; exact: derivv_const.
move=> ep ep0; have [dl d0 H] := unif (fun k => h1 k ep ep0); exists dl => // r rd.
exists ((1%:M - hf *: ad (x s)) *m (x (s + r) - x s)).
  by rewrite /= plusE mulmxA half_inv mul1mx [x s + _]addrC subrK.
by move=> k; have := H r rd k; rewrite subrr mulmx0 [(0 : 'M_(_, _)) _ _]mxE subr0 [r * _]mulrC.
Qed.

Lemma alg x e w de : (1%:M - hf *: (ad x + ad e)) *m ((1%:M + hf *: ad x) *m w + de + hf *: (ad w *m e + ad x *m de)) =
  (1%:M - ad e) *m w + (1%:M - hf *: ad e) *m de.
Proof.
set Y := (_ + _ + _ : 'cV[F]_n).
have aY a : ad a *m Y = ad a *m w + ad a *m de.
  by rewrite /Y !mulmxDr mulmxA mulmxDr mulmx1 -!scalemxAr ad2m mulmxDr !ad2 scaler0 !addr0 scaler0 addr0.
rewrite [LHS]mulmxBl (mul1mx Y) -[X in Y - X]scalemxAl (mulmxDl _ _ Y) !aY /Y [ad w *m e]ada !mulmxBl !mulmxDl !mul1mx -!scalemxAl.
move: (ad x *m w) (ad x *m de) (ad e *m w) (ad e *m de) => A B E D; apply/matrixP => i j; rewrite !mxE.
move: h2; move: (hf) (w i j) (de i j) (A i j) (B i j) (E i j) (D i j) => h a b c d g k hh.
by rewrite -[g in RHS]mul1r -hh; ring.
Qed.
Lemma Nil2_ok : lie_ok (G := Nil2) (fun _ => True).
Proof.
split=> /=.
- by move=> x; rewrite mulmx0 scaler0 !addr0.
- move=> x; exists 1; first exact: ltr01.
  move=> a b _ _; rewrite !plusE => /addrI /(congr1 (mulmx (1%:M - hf *: ad x))).
  by rewrite !mulmxA half_inv' !mul1mx.
- move=> x e s w de hx he; have dx := velN hx.
  have hy : derivv (fun r => x r + e r + hf *: (ad (x r) *m e r)) s
     ((1%:M + hf *: ad (x s)) *m w + de + hf *: (ad ((1%:M + hf *: ad (x s)) *m w) *m e s + ad (x s) *m de)).
    apply: derivv_add; first exact: derivv_add.
    move=> i; rewrite mxE; apply: (@deriv_ext _ (fun r => hf * (ad (x r) *m e r) i 0)); first by move=> r; rewrite [RHS]mxE.
    by apply: deriv_scale; exact: (derivv_mulA (fun i j => ad_deriv i j dx) he i).
  apply: vel_eq (velN' hy).
  have e1 : ad ((1%:M + hf *: ad (x s)) *m w) = ad w.
    by rewrite mulmxDl mul1mx -scalemxAl adD adZ adn scaler0 addr0.
  have e2 : ad (x s + e s + hf *: (ad (x s) *m e s)) = ad (x s) + ad (e s).
    by rewrite !adD adZ adn scaler0 addr0.
  by rewrite e1 e2 alg.
- by move=> e _; exact: half_inv.
- by move=> e; rewrite mulmxBl mul1mx -scalemxAl ad2m scaler0 subr0 opprB addrC subrK.
- exact: adl.
- exact: ada.
- move=> e b k i.
  have -> : ad ((1%:M - ad e) *m b) *m (1%:M - ad e) *m (1%:M - hf *: ad (- e)) = ad b.
    have -> : ad ((1%:M - ad e) *m b) = ad b by rewrite mulmxBl mul1mx adB adn subr0.
    have -> : ad b *m (1%:M - ad e) = ad b by rewrite mulmxBr mulmx1 ad2m subr0.
    rewrite mulmxBr mulmx1 -scalemxAr ad2m scaler0.
    exact: subr0.
  have -> : ad b i k = 0 - (ad (delta_mx k 0) *m b) i 0 by rewrite sub0r ada oppE opprK delta_col mxE.
  apply: (@deriv_ext _ (fun s => b i 0 - (ad (setc e k s) *m b) i 0)).
    by move=> s; rewrite mulmxBl mul1mx addE oppE.
  apply: deriv_sub; first exact: deriv_const.
  have := derivv_mulA (fun i j => ad_deriv i j (derivv_setc e k (e k 0))) (derivv_const b (e k 0)) i.
  by rewrite mulmx0 addr0.
- move=> e i j k; rewrite [X in partial _ _ _ X]mxE -sub0r.
  apply: (@deriv_ext _ (fun s => (1%:M : 'M[F]_n) i j - hf * ad (setc e k s) i j)).
    by move=> s; rewrite addE oppE; congr (_ - _); rewrite [RHS]mxE.
  apply: deriv_sub; first exact: deriv_const.
  by apply: deriv_scale; apply: ad_deriv; exact: derivv_setc.
- move=> e i j k _; rewrite [X in partial _ _ _ X]mxE -[X in partial _ _ _ X]add0r.
  apply: (@deriv_ext _ (fun s => (1%:M : 'M[F]_n) i j + hf * ad (setc e k s) i j)).
    by move=> s; rewrite addE; congr (_ + _); rewrite [RHS]mxE.
  apply: deriv_add; first exact: deriv_const.
  by apply: deriv_scale; apply: ad_deriv; exact: derivv_setc.
Qed.

(** Its series are finite. *)
Lemma Nil2_nil (e w : 'cV[F]_n) m : (2 <= m)%N -> iter m (mulmx (ad e)) w = 0.
Proof. by case: m => [|[|m]] // _; elim: m => [|m IH]; [exact: ad2|rewrite iterS IH mulmx0]. Qed.
Lemma Nil2_dexp (e w : 'cV[F]_n) : (1%:M - hf *: ad e) *m w = \sum_(m < 23) ((-1) ^+ m / (m.+1)`!%:R) *: iter m (mulmx (ad e)) w.
Proof.
rewrite big_ord_recl big_ord_recl big1 => [|i _]; last by rewrite Nil2_nil ?scaler0.
by rewrite /= addr0 expr0 divr1 scale1r expr1 mulmxBl mul1mx -scalemxAl mulN1r scaleNr.
Qed.
End Nil.
