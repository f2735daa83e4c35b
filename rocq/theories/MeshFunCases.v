(** Concrete cases for C27-C31. *)
From mathcomp Require Import all_ssreflect all_algebra zify.
From mathcomp.algebra_tactics Require Import ring.
From Verif Require Import Calc MeshModel MeshSpec PolyFacts MeshFacts MeshQuad MeshEval MeshProps.
From Verif Require Import SparseModel SparseFacts MeshFunModel MeshFunFacts MeshFunLoops MeshFunDyn MeshFunProps MeshFunTraj.
Set Implicit Arguments.
Unset Strict Implicit.
Unset Printing Implicit Defensive.
Import Order.TTheory GRing.Theory Num.Theory.
Local Open Scope ring_scope.
Local Arguments muln : simpl never.

(** Concrete cases. *)
Section Cases.
Local Notation Q := [realFieldType of rat].
(** f(t, x, u) = u x with its Jacobian (0, u, x) and Hessian; X and U of dimension one. *)
Definition ex_fv (z : 'cV[Q]_(1 + 1 + 1)) (j : nat) : Q := z (inord 2) 0 * z (inord 1) 0.
Definition ex_df (z : 'cV[Q]_(1 + 1 + 1)) : smat Q :=
  fun _ a => if a == 1%N then Some (z (inord 2) 0) else if a == 2%N then Some (z (inord 1) 0) else None.
Definition ex_d2f (z : 'cV[Q]_(1 + 1 + 1)) : smat Q :=
  fun a b => if (a == 1%N) && (b == 2%N) || (a == 2%N) && (b == 1%N) then Some 1 else None.
Lemma ord3 (a : 'I_(1 + 1 + 1)) : [\/ a = inord 0, a = inord 1 | a = inord 2].
Proof.
case: a => [[|[|[|a]]] h] //; [apply: Or31|apply: Or32|apply: Or33]; apply: val_inj => /=; rewrite inordK //.
Qed.
Lemma ex_setc (z : 'cV[Q]_(1 + 1 + 1)) a b s : setc z a s b 0 = if b == a then s else z b 0.
Proof. by rewrite /setc mxE. Qed.
Example ex_derivs : derivs 1 ex_fv ex_df ex_d2f.
Proof.
have i01 : (inord 1 : 'I_(1 + 1 + 1)) == inord 0 = false by rewrite -val_eqE /= !inordK.
have i02 : (inord 2 : 'I_(1 + 1 + 1)) == inord 0 = false by rewrite -val_eqE /= !inordK.
have i12 : (inord 2 : 'I_(1 + 1 + 1)) == inord 1 = false by rewrite -val_eqE /= !inordK.
have V0 : (((inord 0 : 'I_(1 + 1 + 1)) = 0%N :> nat) * ((inord 1 : 'I_(1 + 1 + 1)) = 1%N :> nat) * ((inord 2 : 'I_(1 + 1 + 1)) = 2%N :> nat))%type.
  by rewrite !inordK.
split=> [z [|//] a _|z [|//] a b _].
  rewrite /partial /ex_fv /ex_df /val /=; case: (ord3 a) => ->; rewrite !V0 /=.
  - apply: (deriv_ext (f := fun=> z (inord 2) 0 * z (inord 1) 0)); last exact: deriv_const.
    by move=> s; rewrite !ex_setc i01 i02.
  - apply: (deriv_ext (f := fun s => z (inord 2) 0 * s)); first by move=> s; rewrite !ex_setc i12 eqxx.
    by rewrite -[X in deriv _ _ X]mulr1; apply: deriv_scale; exact: deriv_id.
  - apply: (deriv_ext (f := fun s => z (inord 1) 0 * s)).
      by move=> s; rewrite !ex_setc [inord 1 == inord 2]eq_sym i12 eqxx mulrC.
    by rewrite -[X in deriv _ _ X]mulr1; apply: deriv_scale; exact: deriv_id.
rewrite /partial /ex_df /ex_d2f /val muln0 add0n /=.
case: (ord3 a) => ->; case: (ord3 b) => ->; rewrite !V0 /=;
 (apply: (deriv_ext (f := fun=> 0)); [by []|exact: deriv_const]) ||
 (apply: (deriv_ext (f := fun=> z (inord 2) 0)); [by move=> s; rewrite ?ex_setc ?i02 ?i12|exact: deriv_const]) ||
 (apply: (deriv_ext (f := fun=> z (inord 1) 0)); [by move=> s; rewrite ?ex_setc ?i01 ?[inord 1 == inord 2]eq_sym ?i12|exact: deriv_const]) ||
 (apply: (deriv_ext (f := id)); [by move=> s; rewrite ?ex_setc eqxx|exact: deriv_id]).
Qed.

Local Notation m := ex_m.
Lemma ex_hN : (\sum_(i < size m) N_colloc_ival m i < uint_mod)%N.
Proof.
rewrite (_ : (\sum_(i < size m) N_colloc_ival m i)%N = 3%N); last by rewrite !big_ord_recl big_ord0.
by rewrite -[3%N]/(2 ^ 2).-1; apply: leq_ltn_trans (leq_pred _) _; rewrite ltn_exp2l.
Qed.
Lemma ex_N : N_colloc m = 3%N.
Proof. by have [_ h _] := C26_N_colloc_partial m; rewrite h ?ex_hN // !big_ord_recl big_ord0. Qed.

(** d(u_2 x_2)/du_2 = x_2, found in row 2 and column 2 + (N + 1) + 2 of the Jacobian. *)
Example C27_case (v : nat -> Q) out : val (mvdF (mesh_eval 1 ex_fv ex_df ex_d2f 1 1 ex_lgr m (v 0%N) (v 1%N) (var_x 1 v) (var_u 1 1 (N_colloc m) v) false out)) 2 8 = v 4%N.
Proof.
have h := @C27_jacobian Q 1 1 1 ex_fv ex_df ex_d2f 1 1 ex_lgr m false out v 2%N 8%N ex_derivs.
apply: (deriv_uniq (h _)); first by rewrite ex_N.
apply: (deriv_ext (f := fun s => v 4%N * s)).
  move=> s; rewrite -[2%N]/(1 * 2 + 0)%N C27_value ?ex_N // mul1r /ex_fv /node_arg !mxE !inordK //=.
  by rewrite /var_u /var_x /setn /= mulrC.
by rewrite -[X in deriv _ _ X]mulr1; apply: deriv_scale; exact: deriv_id.
Qed.
(** The entry at the same place of the Hessian of the Lagrangian with multiplier lambda: d2/(dx_2 du_2) = lambda_2. *)
Example C27_hess_case (v : nat -> Q) out : val (mvd2F (mesh_eval 1 ex_fv ex_df ex_d2f 1 1 ex_lgr m (v 0%N) (v 1%N) (var_x 1 v) (var_u 1 1 (N_colloc m) v) false out)) 4 8 = mvlam out 2%N.
Proof.
have [/(_ isT) [D h1 h2] _] := @C27_hessian Q 1 1 1 ex_fv ex_df ex_d2f 1 1 ex_lgr m false out v 4%N 8%N ex_derivs.
apply: (deriv_uniq h2); apply: (deriv_ext (f := fun s => mvlam out 2%N * s)); last first.
  by rewrite -[X in deriv _ _ X]mulr1; apply: deriv_scale; exact: deriv_id.
move=> s; apply: (deriv_uniq _ (h1 (setn v 8 s))).
apply: (deriv_ext (f := fun x => mvlam out 0%N * (v 6%N * v 2%N) + mvlam out 1%N * (v 7%N * v 3%N) + mvlam out 2%N * s * x)).
  move=> x; set W := setn (setn v 8 s) 4 x.
  rewrite (eq_bigr (fun r : 'I_(1 * N_colloc m) => mvlam out r * (W (6 + r)%N * W (2 + r)%N))); last first.
    move=> i _; congr (_ * _); have := ltn_ord i; rewrite [X in (_ < X)%N]mul1n; move: (nat_of_ord i) => {}i hi.
    rewrite -{1}[i]mul1n -[(1 * i)%N]addn0 C27_value //.
    by rewrite mul1r /ex_fv /node_arg !mxE !inordK //= /var_u /var_x ex_N !mul1n !addn0.
  rewrite ex_N !big_ord_recl big_ord0 /W /setn /= addr0 addrA -[mvlam out 2 * s * x]mulrA.
  by [].
have := deriv_add (deriv_const (mvlam out 0%N * (v 6%N * v 2%N) + mvlam out 1%N * (v 7%N * v 3%N)) (setn v 8 s 4%N)) (deriv_scale (mvlam out 2%N * s) (deriv_id (setn v 8 s 4%N))).
by rewrite add0r mulr1.
Qed.

(** The integral of u x over [t0, tf] with u = 1 and x = 3: nodes at 0, 1/4, 1/2 with weights 1/4, 1/4, 1/2. *)
Example C28_case (v : nat -> Q) out : (forall i, (i < 3)%N -> v (6 + i)%N = 1 /\ v (2 + i)%N = 3%:R) ->
  mvF (mesh_integrate 1 ex_fv ex_df ex_d2f 1 1 ex_lgr m (v 0%N) (v 1%N) (var_x 1 v) (var_u 1 1 (N_colloc m) v) out) 0 = 3%:R * (v 1%N - v 0%N).
Proof.
move=> h; rewrite (@C28_exact Q 1 1 1 ex_fv ex_df ex_d2f 1 1 ex_lgr ex_kinc m out v 0%N (3%:R)%:P isT isT ex_lgr_contract ex_reach ex_hN) //.
- by rewrite -(prim_unique (q := 3%:R *: 'X)) ?hornerZ ?hornerX ?derivZ ?derivX ?alg_polyC // -mulrBr.
- by rewrite size_polyC; case: (_ == _).
- move=> i; rewrite ex_N => hi; rewrite hornerC /ex_fv /node_arg !mxE !inordK //= /var_x /var_u !mul1n !addn0.
  by have [-> ->] := h i hi; rewrite mul1r.
Qed.
Example C28_jac_case (v : nat -> Q) out : 
  partialn (fun v => mvF (mesh_integrate 1 ex_fv ex_df ex_d2f 1 1 ex_lgr m (v 0%N) (v 1%N) (var_x 1 v) (var_u 1 1 (N_colloc m) v) out) 0) v 1
    (val (mvdF (mesh_integrate 1 ex_fv ex_df ex_d2f 1 1 ex_lgr m (v 0%N) (v 1%N) (var_x 1 v) (var_u 1 1 (N_colloc m) v) out)) 0 1).
Proof. by apply: C28_jacobian => //; exact: ex_derivs. Qed.
Example C29_jac_case (v : nat -> Q) out : 
  partialn (fun v => mvF (mesh_dyn ex_fv ex_df ex_d2f 1 1 ex_lgr m (v 0%N) (v 1%N) (var_x 1 v) (var_u 1 1 (N_colloc m) v) out) 1) v 4
    (val (mvdF (mesh_dyn ex_fv ex_df ex_d2f 1 1 ex_lgr m (v 0%N) (v 1%N) (var_x 1 v) (var_u 1 1 (N_colloc m) v) out)) 1 4).
Proof. by apply: (@C29_jacobian Q 1 1 ex_fv ex_df ex_d2f 1 1 ex_lgr ex_kinc m isT isT ex_reach ex_hN out v 1%N 4%N ex_derivs); rewrite ex_N. Qed.

(** f(t, x, u) = u - x + t has the solution x = t, u = 1. *)
Definition ex_g (z : 'cV[Q]_(1 + 1 + 1)) (j : nat) : Q := z (inord 2) 0 - z (inord 1) 0 + z (inord 0) 0.
Definition ex_v (k : nat) : Q :=
  nth 1 [:: 0; 2%:R; 0; 1 / 2%:R; 1; 2%:R] k.
Lemma ex_nodes I a : (I < 3)%N -> (a <= 1)%N -> nth 0 (interval_nodes 1 1 ex_lgr m I) a = nth 0 [:: 0; 1 / 4%:R; 1 / 2%:R; 1] (I + a).
Proof.
case: I => [|[|[|//]]] _; case: a => [|[|//]] _; rewrite /interval_nodes /half_len /tauf /tau0 /=; by apply/eqP.
Qed.
Lemma ex_interpolates : @interpolates Q 1 1 1 ex_lgr m (var_x 1 ex_v) 0 2%:R (fun _ _ => 'X).
Proof.
move=> I k hI; case: k => [_|//]; have K1 : N_colloc_ival m I = 1%N by case: I hI => [|[|[|]]].
rewrite K1 size_polyX; split=> // a ha; rewrite hornerX /t_of ex_nodes //.
have -> : N_before m I = I by case: I hI {K1} => [|[|[|]]].
by case: I hI {K1} => [|[|[|//]]] _; case: a ha => [|[|//]] _; apply/eqP.
Qed.
Example C31_case df d2f out r : (r < 3)%N ->
  mvF (mesh_dyn ex_g df d2f 1 1 ex_lgr m 0 2%:R (var_x 1 ex_v) (var_u 1 1 (N_colloc m) ex_v) out) r = 0.
Proof.
move=> hr; have H := @C31_residual_polynomial Q 1 1 ex_g df d2f 1 1 ex_lgr ex_kinc m isT isT ex_lgr_contract ex_reach ex_hN ex_v (fun _ _ => 'X) out.
apply: (H _ ex_interpolates).2; rewrite ?ex_N ?mul1n //.
move=> I j k hI; have K1 : N_colloc_ival m I = 1%N by case: I hI => [|[|[|]]].
rewrite K1; case: j => [_|//]; case: k => [_|//].
have -> : N_before m I = I by case: I hI {K1} => [|[|[|]]].
rewrite derivX hornerE /ex_g /node_arg !mxE !inordK //= addn0 /var_x /var_u ?ex_N ?mul1n.
have -> : nth 0 (all_nodes 1 1 ex_lgr m) I = nth 0 [:: 0; 1 / 4%:R; 1 / 2%:R; 1] I.
  by case: I hI {K1} => [|[|[|//]]] _; rewrite /all_nodes /= /n_take /= /interval_nodes /half_len /tauf /tau0 /=; apply/eqP.
by case: I hI {K1} => [|[|[|//]]] _; apply/eqP.
Qed.
Example C30_case o1 o2 : mvlam o1 = mvlam o2 -> 
  mvF (mesh_dyn ex_g (fun=> empty) (fun=> empty) 1 1 ex_lgr m (ex_v 0%N) (ex_v 1%N) (var_x 1 ex_v) (var_u 1 1 (N_colloc m) ex_v) o1) 1 =
  mvF (mesh_dyn ex_g (fun=> empty) (fun=> empty) 1 1 ex_lgr m (ex_v 0%N) (ex_v 1%N) (var_x 1 ex_v) (var_u 1 1 (N_colloc m) ex_v) o2) 1.
Proof.
move=> e; have [h _ _] := @C30_dyn Q 1 1 ex_g (fun=> @empty Q) (fun=> @empty Q) 1 1 ex_lgr ex_kinc m isT isT ex_reach ex_hN ex_v o1 o2 e.
by apply: h; rewrite ex_N.
Qed.
End Cases.

(** The default mesh over any real closed field, with the two-point rule needed by the contract. *)
Section ErrorCase.
Variable F : rcfType.
Definition exF_lgr (K : nat) : seq F * seq F :=
  if K == 1%N then ([:: -1], [:: 2%:R]) else ([:: -1; 1 / 3%:R], [:: 1 / 2%:R; 3%:R / 2%:R]).
Lemma exF_contract K : (1 <= K <= 2)%N -> lgr_contract K (exF_lgr K).
Proof.
have t0 : (3%:R : F) != 0 by rewrite pnatr_eq0.
have s0 : (2%:R : F) != 0 by rewrite pnatr_eq0.
case: K => [|[|[|K]]] // _.
- split=> //=; rewrite ?andbT ?ltr0n //; first by apply: lt_trans (ltrN10 F) ltr01.
  move=> p sp; have [c ->] : exists c, p = c%:P by exists p`_0; apply: size1_polyC.
  rewrite big_seq1 /= hornerC -(prim_unique (q := c *: 'X)) ?hornerZ ?hornerX ?derivZ ?derivX ?alg_polyC //; ring.
- split=> //=.
  + rewrite !andbT (lt_trans (ltrN10 F)) ?divr_gt0 ?ltr01 ?ltr0n //=.
    by rewrite ltr_pdivr_mulr ?ltr0n // mul1r (ltr_nat F 1 3).
  + by rewrite !divr_gt0 ?ltr01 ?ltr0n.
  + move=> p sp; rewrite !big_cons big_nil /=.
    pose q : {poly F} := p`_0 *: 'X + (p`_1 / 2%:R) *: 'X^2 + (p`_2 / 3%:R) *: 'X^3.
    rewrite -(@prim_unique _ _ q); last first.
      rewrite /q !derivD !derivZ derivX !derivXn /=; apply/polyP => i.
      rewrite !coefD !coefZ !coefMn coefX coefXn coef1 /=.
      case: i => [|[|[|i]]]; rewrite ?mulr0 ?mulr1 ?addr0 ?add0r ?mul0rn ?mulr0 ?addr0 ?add0r //.
      * by rewrite mulfVK.
      * by rewrite mulfVK.
      * by rewrite nth_default // (leq_trans sp).
    have E x : p.[x] = p`_0 + p`_1 * x + p`_2 * x ^+ 2.
      rewrite (horner_coef_wide x sp) !big_ord_recl big_ord0 /= expr0 mulr1 addr0 addrA expr1.
      by rewrite /bump /=.
    rewrite !E /q !hornerD !hornerZ !hornerX !hornerXn; move: (p`_0) (p`_1) (p`_2) => x y z; by field.
Qed.
(** x(t) = 3t solves x' = 3 + u (x - 3t) for every input u. *)
Example C31_error_case (u : F -> 'cV[F]_1) :
  nth 0 (@mesh_dyn_error F 1 1 1 1 exF_lgr (mesh_default F 1) (fun t x u => \col_(_ < 1) (3%:R + u 0 0 * (x 0 0 - 3%:R * t))) 0 2%:R (fun t => \col_(_ < 1) (3%:R * t)) u) 0 = 0.
Proof.
apply: (@C31_dyn_error_exact F 1 1 1 1 exF_lgr (fun _ _ _ => 0%N) _ isT isT exF_contract _ _ _ _ _ _ (fun _ => 3%:R *: 'X)) => //.
- by exists (Some (mesh_default F 1)), [::]; split=> //; left.
- by rewrite eq_sym pnatr_eq0.
- by move=> k; rewrite (leq_trans (size_scale_leq _ _)) // size_polyX.
- by move=> t k; rewrite mxE hornerZ hornerX.
- by move=> t k; rewrite derivZ derivX !mxE subrr mulr0 addr0 hornerZ hornerC mulr1.
Qed.
End ErrorCase.

Print Assumptions C27_value.
Print Assumptions C27_jacobian.
Print Assumptions C27_hessian.
Print Assumptions C28_value.
Print Assumptions C28_jacobian.
Print Assumptions C28_hessian.
Print Assumptions C28_exact.
Print Assumptions C29_value.
Print Assumptions C29_jacobian.
Print Assumptions C29_hessian.
Print Assumptions C30_eval.
Print Assumptions C30_integrate.
Print Assumptions C30_dyn.
Print Assumptions C31_residual_polynomial.
Print Assumptions C31_residual.
Print Assumptions C31_dyn_error.
Print Assumptions C31_dyn_error_exact.
