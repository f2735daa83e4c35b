(** Cases for the theorems on flattening, counterexamples, and assumptions. *)
From mathcomp Require Import all_ssreflect all_algebra.
From mathcomp.algebra_tactics Require Import ring.
From Verif Require Import Calc QpModel QpSpec FlatModel FlatSpec FlatFacts FlatProps FlatThms FlatThms2 FlatBern FlatThms3 FlatGroup.
Set Implicit Arguments.
Unset Strict Implicit.
Unset Printing Implicit Defensive.
Import Order.TTheory GRing.Theory Num.Theory.
Local Open Scope ring_scope.

Section Cases.
Variable F : realFieldType.
Let i0 : 'I_3 := @Ordinal 3 0 isT.
Let i1 : 'I_3 := @Ordinal 3 1 isT.
Let i2 : 'I_3 := @Ordinal 3 2 isT.
(** The Heisenberg group: [a, b] = (0, 0, a0 b1 - a1 b0). *)
Definition adH (a : 'cV[F]_3) : 'M[F]_3 :=
  \matrix_(i, j) if i == i2 then (if j == i0 then - a i1 0 else if j == i1 then a i0 0 else 0) else 0.
Lemma sum3 (g : 'I_3 -> F) : \sum_i g i = g i0 + g i1 + g i2.
Proof. rewrite !big_ord_recl big_ord0 addr0 addrA; congr (g _ + g _ + g _); exact: val_inj. Qed.
Lemma adHE (a b : 'cV[F]_3) i : (adH a *m b) i 0 = if i == i2 then a i0 0 * b i1 0 - a i1 0 * b i0 0 else 0.
Proof.
rewrite mxE sum3 !mxE /=; case: (i == i2); last by rewrite !mul0r !addr0.
by rewrite mul0r addr0 mulNr addrC.
Qed.
Lemma adHl (c : F) a b : adH (c *: a + b) = c *: adH a + adH b.
Proof.
apply/matrixP => i j; rewrite !mxE; case: (i == i2); last by rewrite mulr0 addr0.
move: (a i1 0) (b i1 0) (a i0 0) (b i0 0) => p q r s; by case: (j == i0); [ring|case: (j == i1); ring].
Qed.
Lemma adHa a b : adH a *m b = - (adH b *m a).
Proof.
apply/matrixP => i j; rewrite (ord1 j) oppE !adHE; case: (i == i2); last by rewrite oppr0.
ring.
Qed.
Lemma adHn a b : adH (adH a *m b) = 0.
Proof. by apply/matrixP => i j; rewrite [LHS]mxE [RHS]mxE !adHE /= oppr0 !if_same. Qed.
Definition Heis : lie F := Nil2 adH.
Lemma Heis_ok : lie_ok (G := Heis) (fun _ => True). Proof. exact: Nil2_ok adHl adHa adHn. Qed.

Lemma adH_self (a : 'cV[F]_3) : adH a *m a = 0.
Proof. by apply/matrixP => i j; rewrite (ord1 j) adHE mulrC subrr if_same mxE. Qed.
(** A reference that moves along the first axis. *)
Definition xlH : curve Heis := @Curve F Heis (fun t => t *: delta_mx i0 0) (fun _ => delta_mx i0 0).
Lemma derivv_line n (a : 'cV[F]_n) t : derivv (fun s => s *: a) t a.
Proof.
move=> k; apply: (@deriv_ext _ (fun s => a k 0 * s)); first by move=> s; rewrite mxE mulrC.
by rewrite -[X in deriv _ _ X]mulr1; apply: deriv_scale; exact: deriv_id.
Qed.
Lemma xlH_v t : vel (@lplus F Heis) (cv xlH) t (dcv xlH t).
Proof.
have := velN' adHa adHn (derivv_line (delta_mx i0 0) t); apply: vel_eq.
rewrite mulmxBl mul1mx -scalemxAl (adZ adHl) -scalemxAl.
rewrite (adH_self (delta_mx i0 0)).
by rewrite !scaler0 subr0.
Qed.
Lemma xlH_a t : derivv (dcv xlH) t 0. Proof. exact: derivv_const. Qed.
Definition ulH : curve (Rn F 1) := @Curve F (Rn F 1) (fun t => t *: delta_mx 0 0) (fun _ => delta_mx 0 0).
Lemma ulH_v t : vel (@lplus F (Rn F 1)) (cv ulH) t (dcv ulH t).
Proof. apply/velRn; exact: derivv_line. Qed.
Lemma ulH_a t : derivv (dcv ulH) t 0. Proof. exact: derivv_const. Qed.

(** The dynamics (0, x0 u, 0). *)
Let kx : 'I_(1 + (3 + 1)) := rshift 1 (lshift 1 i0).
Let ku : 'I_(1 + (3 + 1)) := rshift 1 (rshift 3 0).
Definition fH : fn F (F * (car Heis * 'cV[F]_1)) (1 + (3 + 1)) 3 := Fn
  (fun y : F * ('cV[F]_3 * 'cV[F]_1) => \col_i if i == i1 then y.2.1 i0 0 * y.2.2 0 0 else 0)
  (fun y => \matrix_(i, k) if i == i1 then (if k == kx then y.2.2 0 0 else if k == ku then y.2.1 i0 0 else 0) else 0)
  (fun y i => \matrix_(a, b) if i == i1 then (if a == kx then (b == ku)%:R else if a == ku then (b == kx)%:R else 0) else 0).
Lemma sel2 (n : nat) (k l : 'I_n) (c d : F) (a : 'I_n -> F) : k != l ->
  \sum_i (if i == k then c else if i == l then d else 0) * a i = c * a k + d * a l.
Proof.
move=> kl; have lk : l != k by rewrite eq_sym.
rewrite (bigD1 k) //= (bigD1 l) //= !eqxx (negbTE lk) big1 ?addr0 //.
by move=> i /andP[/negbTE -> /negbTE ->]; rewrite mul0r.
Qed.
Lemma kxu : kx != ku. Proof. by []. Qed.
Lemma scE m n (c : F) (A : 'M[F]_(m, n)) i j : (c *: A) i j = c * A i j. Proof. exact: mxE. Qed.
Lemma plus_x (y : F * ('cV[F]_3 * 'cV[F]_1)) (a : 'cV[F]_(1 + (3 + 1))) :
  (@lplus F (Binner Heis (Rn F 1)) y a).2.1 i0 0 = y.2.1 i0 0 + a kx 0.
Proof. by rewrite /= !addE scE adHE /= mulr0 addr0 !mxE. Qed.
Lemma plus_u (y : F * ('cV[F]_3 * 'cV[F]_1)) (a : 'cV[F]_(1 + (3 + 1))) :
  (@lplus F (Binner Heis (Rn F 1)) y a).2.2 0 0 = y.2.2 0 0 + a ku 0.
Proof. by rewrite /= !addE !mxE. Qed.
Lemma fH1 : fn_ok1 (@lplus F (Binner Heis (Rn F 1))) fH.
Proof.
move=> y i ep ep0; exists ep => // a ha.
rewrite [fval _ _ _ _]mxE [X in _ - X - _]mxE plus_x plus_u.
case E : (i == i1); last first.
  rewrite big1 ?subr0 ?normr0 ?mulr_ge0 ?(ltW ep0) ?sumr_ge0 // => k _.
  by rewrite [fjac _ _ _ _]mxE E mul0r.
rewrite (eq_bigr (fun k => (if k == kx then y.2.2 0 0 else if k == ku then y.2.1 i0 0 else 0) * a k 0)); last first.
  by move=> k _; rewrite [fjac _ _ _ _]mxE E.
rewrite (sel2 _ _ (fun k => a k 0) kxu).
have -> : (y.2.1 i0 0 + a kx 0) * (y.2.2 0 0 + a ku 0) - y.2.1 i0 0 * y.2.2 0 0 - (y.2.2 0 0 * a kx 0 + y.2.1 i0 0 * a ku 0) =
  a kx 0 * a ku 0 by ring.
rewrite normrM; apply: ler_pmul => //; rewrite (bigD1 ku) //= ler_addl; exact: sumr_ge0.
Qed.
Lemma fH2 : fn_ok2 (@lplus F (Binner Heis (Rn F 1))) fH.
Proof.
move=> y i k ep ep0; exists ep => // a ha.
rewrite [fjac _ _ _ _]mxE [X in _ - X - _]mxE plus_x plus_u.
have -> : \sum_l fhess fH y i k l * a l 0 = if i == i1 then (if k == kx then a ku 0 else if k == ku then a kx 0 else 0) else 0.
  have S l0 : \sum_(l < 1 + (3 + 1)) (l == l0)%:R * a l 0 = a l0 0.
    by rewrite (bigD1 l0) //= eqxx mul1r big1 ?addr0 // => l /negbTE ->; rewrite mul0r.
  rewrite (eq_bigr (fun l => (if i == i1 then (if k == kx then (l == ku)%:R else if k == ku then (l == kx)%:R else 0) else 0) * a l 0)); last first.
    by move=> l _; rewrite [fhess _ _ _ _ _]mxE.
  case: (i == i1); last by rewrite big1 // => l _; rewrite mul0r.
  case: (k == kx); first exact: S.
  by case: (k == ku); [exact: S|rewrite big1 // => l _; rewrite mul0r].
have z (x : F) : x = 0 -> `|x| <= ep * \sum_l `|a l 0| by move=> ->; rewrite normr0 mulr_ge0 ?(ltW ep0) // sumr_ge0.
apply: z; move: (a ku 0) (a kx 0) (y.2.1 i0 0) (y.2.2 0 0) => p q r s.
by case: (i == i1); [case: (k == kx); [|case: (k == ku)]|]; ring.
Qed.

Local Notation R1g := (Rn F 1).
Definition fH' : fn F (F * (car Heis * car R1g)) (1 + (dof Heis + dof R1g)) (dof Heis) := fH.
(** C67: the deviation e(t) = t along the second axis. *)
Example ex_C67 (t : F) (v : F -> 'cV[F]_1) :
  let e s : 'cV[F]_3 := s *: delta_mx i1 0 in
  vel (@lplus F Heis) (fun s => @lplus F Heis (cv xlH s) (e s)) t
    (fval fH (t, (@lplus F Heis (cv xlH t) (e t), @lplus F R1g (cv ulH t) (v t)))) <->
  derivv e t (dyn_op fH' xlH ulH t (e t) (v t)).
Proof.
move=> e; apply: (@C67_dynamics F Heis R1g (fun _ => True) Heis_ok xlH ulH xlH_v fH' e v t I).
by exists (delta_mx i1 0); exact: derivv_line.
Qed.
(** A problem with dynamics (1, 0, 0) and cost x2(tf)^2, and its solution e = 0. *)
Definition oH : gocp Heis R1g 0 0 0 := @Gocp F Heis R1g 0 0 0
  (Fn (fun y : F * ('cV[F]_3 * ('cV[F]_3 * 'cV[F]_0)) => \col__ (y.2.2.1 i2 0) ^+ 2) (fun _ => 0) (fun _ _ => 0))
  (Fn (fun _ => delta_mx i0 0) (fun _ => 0) (fun _ _ => 0)) (Fn (fun _ => 0) (fun _ => 0) (fun _ _ => 0))
  (Fn (fun _ => 0) (fun _ => 0) (fun _ _ => 0)) (fun _ => @NegInf F) (fun _ => @PosInf F)
  (Fn (fun _ => 0) (fun _ => 0) (fun _ _ => 0)) (fun _ => @NegInf F) (fun _ => @PosInf F).
Definition sH : gsol (Rn F (dof Heis)) (Rn F (dof R1g)) 0 0 0 := @Gsol F (Rn F 3) (Rn F 1) 0 0 0 0 1 0 (fun _ => 0) (fun _ => 0) 0 0 (fun _ => 0) (fun _ => 0).
Definition noint (g : F -> 'cV[F]_0) (tf : F) (q : 'cV[F]_0) : Prop := True.
Lemma sH_adm : admissible (X := Heis) (fun _ => True) (g_tf sH) (g_x sH).
Proof. by move=> t _; split=> //; exists 0; exact: derivv_const. Qed.
Lemma sH_feasible : ocp_feasible noint (flatten_ocp oH xlH ulH) (g_tf sH) (g_x sH) (g_u sH) (g_Q sH).
Proof.
split=> // t _.
apply/(velRn (n := 3)).
have -> : fval (o_f (flatten_ocp oH xlH ulH)) (t, (g_x sH t, g_u sH t)) = 0; last exact: derivv_const.
by rewrite /= /dyn_op /= subrr mulmx0 (ad0 adHl) mul0mx addr0.
Qed.
Lemma sH_cost : ocp_cost (flatten_ocp oH xlH ulH) (g_tf sH) (g_x sH) (g_Q sH) = 0.
Proof. by rewrite /ocp_cost /= /end_op /= mxE mulmx0 scaler0 !addr0 !mxE /= mulr0 expr0n. Qed.
Example ex_C67_optimal : let s' := unflatten_ocpsol sH (cv xlH) (cv ulH) in
  ocp_feasible noint oH (g_tf s') (g_x s') (g_u s') (g_Q s') /\
  forall tf e v q, admissible (X := Heis) (fun _ => True) tf e ->
      let x t := @lplus F Heis (cv xlH t) (e t) in let u t := @lplus F R1g (cv ulH t) (v t) in
      ocp_feasible noint oH tf x u q -> ocp_cost oH (g_tf s') (g_x s') (g_Q s') <= ocp_cost oH tf x q.
Proof.
apply/(@C67_optimal F Heis R1g (fun _ => True) Heis_ok xlH ulH xlH_v 0 0 0 oH noint sH sH_adm).
split=> [|tf e v q _ _]; first exact: sH_feasible.
by rewrite sH_cost /ocp_cost /= /end_op /= mxE sqr_ge0.
Qed.
Example ex_C67_problem : let s' := unflatten_ocpsol sH (cv xlH) (cv ulH) in
  ocp_feasible noint oH (g_tf s') (g_x s') (g_u s') (g_Q s') /\ ocp_cost oH (g_tf s') (g_x s') (g_Q s') = 0.
Proof.
have [h1 h2] := @C67_problem F Heis R1g (fun _ => True) Heis_ok xlH ulH xlH_v 0 0 0 oH noint sH sH_adm.
by split; [apply/h1; exact: sH_feasible|rewrite -h2 sH_cost].
Qed.

(** C68 and C77 at every point. *)
Local Notation T := (vt (X := Heis) (U := R1g)).
Local Notation E := (ve (X := Heis) (U := R1g)).
Local Notation V := (vv (X := Heis) (U := R1g)).
Example ex_C68_jac (z : 'cV[F]_(1 + (3 + 1))) i k :
  partial (fun z => inner_op fH' xlH ulH (T z) (E z) (V z) i 0) z k (inner_jac fH' xlH ulH (T z) (E z) (V z) i k).
Proof. exact: (proj2 (@C68_inner_jacobian F Heis R1g _ _ Heis_ok (Rn_ok F 1) xlH ulH xlH_v ulH_v 3 fH' z i k fH1)). Qed.
Example ex_C68_hess (z : 'cV[F]_(1 + (3 + 1))) i a b :
  hess (fun z => inner_op fH' xlH ulH (T z) (E z) (V z) i 0) z a b (inner_hess fH' xlH ulH (T z) (E z) (V z) i a b).
Proof. exact: (@C68_inner_hessian F Heis R1g _ _ Heis_ok (Rn_ok F 1) xlH ulH xlH_v ulH_v 3 fH' z i a b fH1 fH2 (xlH_a _) (ulH_a _)). Qed.
Example ex_C77_jac (z : 'cV[F]_(1 + (3 + 1))) j k :
  partial (fun z => dyn_op fH' xlH ulH (T z) (E z) (V z) j 0) z k (dyn_jac fH' xlH ulH (T z) (E z) (V z) j k).
Proof. exact: (@C77_jacobian F Heis R1g _ _ Heis_ok (Rn_ok F 1) xlH ulH xlH_v ulH_v fH' fH1 xlH_a z j k I). Qed.
Example ex_C77_hess (z : 'cV[F]_(1 + (3 + 1))) j a b :
  hess (fun z => dyn_op fH' xlH ulH (T z) (E z) (V z) j 0) z a b (dyn_hess fH' xlH ulH (T z) (E z) (V z) j a b).
Proof.
exact: (@C77_hessian F Heis R1g _ _ Heis_ok (Rn_ok F 1) xlH ulH xlH_v ulH_v fH' fH1 xlH_a fH2 ulH_a z j a b (fun _ => I)
  (fun e w m (h : (23 <= m)%N) => Nil2_nil adHa adHn e w (leq_trans (isT : (2 <= 23)%N) h)) (Nil2_dexp adHa adHn)).
Qed.
End Cases.
