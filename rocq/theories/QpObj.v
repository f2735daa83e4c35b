(** Property C93: the objective value that the QP solver reports. *)
From Coq Require Import QArith.
From mathcomp Require Import all_ssreflect all_algebra.
From mathcomp.algebra_tactics Require Import ring.
From Verif Require Import LinAlg QF QpModel QpSpec QpFacts QpLoop QpProps QpCex QpExamples.
Set Implicit Arguments.
Unset Strict Implicit.
Unset Printing Implicit Defensive.
Import Order.TTheory GRing.Theory Num.Theory.
Local Open Scope ring_scope.

Section Obj.
Variable F : realFieldType.
Variables n m : nat.
Variables (e : env F n m) (prm : params F).
Implicit Types (p : qp F n m) (sp : sqp F n m).

Lemma core_obj fuel p s Hs ws r : solve_core e prm fuel p s Hs ws = Some r -> objective r = cost p (primal r).
Proof.
rewrite /solve_core; case: (main_loop _ _ _ _ _ _ _ _ _) => //= -[[k v] rc] [<-]; rewrite /finish /=.
move: (unscale_x _ _) => x; rewrite /cost qf_dot [dot (qq p) x]dotC.
by rewrite -[LHS]/(dot x _) dotDr dotZr.
Qed.
(** For every status, with and without polishing and warm start, the reported objective is the cost of the program in the
    variables of the user, at the reported primal point. *)
Theorem C93_objective_dense fuel o p ws r o' : solve_dense e prm fuel o p ws = Some (r, o') -> objective r = cost p (primal r).
Proof. by move=> /solve_dense_obj[s _ [hs _]]; exact: core_obj hs. Qed.
Theorem C93_objective_sparse fuel o sp ws r o' : solve_sparse e prm fuel o sp ws = Some (r, o') ->
  objective r = cost (dense_of sp) (primal r).
Proof.
rewrite /solve_sparse; case: (cur_scale _ _ _ _) => // s /=; case: ifP => // _.
by case E : (solve_core _ _ _ _ _ _ _) => [r0|] // [<- _]; exact: core_obj E.
Qed.

(** An approximate KKT point costs at least the optimum minus a multiple of the primal residual. *)
Lemma approx_lower p x y z rp rd xs ys : convex p -> approx_kkt p x y z rp rd -> kkt p xs ys ->
  cost p xs - rp * norm1 ys <= cost p x.
Proof.
move=> cv [bz hp _ _] [_ st ms]; have := convex_grad xs x cv.
have -> : qP p *m xs + qq p = - ((qA p)^T *m ys) by apply/eqP; rewrite -addr_eq0 st.
rewrite dotNl -dotMr => h.
have h2 : dot ys (qA p *m (x - xs)) <= rp * norm1 ys.
  have -> : qA p *m (x - xs) = (z - qA p *m xs) + (qA p *m x - z) by rewrite mulmxBr [RHS]addrC addrA subrK.
  rewrite dotDr -[X in _ <= X]add0r; apply: ler_add.
    rewrite dotE -oppr_ge0 -sumrN sumr_ge0 // => i _; rewrite oppr_ge0 [X in _ * X]mxE [X in _ * (_ + X)]mxE.
    exact: mult_ineq (ms i) (bz i).
  rewrite dotC; apply: le_trans (ler_norm _) _; exact: dot_within.
rewrite ler_subl_addr -ler_subl_addl.
by apply: le_trans h2; rewrite -ler_opp2 opprB.
Qed.
(** For a convex program with a solution xs and multipliers ys, a reported Optimal objective lies around the optimal value;
    the width is given by the tolerances of the stopping test. *)
Theorem C93_value fuel o p ws r o' xs ys : good_sqrt e -> 0 < rho_bar prm -> polish prm = false ->
  reach_d e prm o -> solve_dense e prm fuel o p ws = Some (r, o') -> code r = Optimal -> convex p -> kkt p xs ys ->
  exists2 z : 'cV[F]_m, (forall i, between (ql p i) (qu p i) (z i 0)) &
    cost p xs - tol_primal prm p (primal r) z * norm1 ys <= objective r <=
    cost p xs + tol_dual prm p (primal r) (dual r) * norm1 (xs - primal r) + tol_primal prm p (primal r) z * norm1 (dual r).
Proof.
move=> h r0 pf ro hs hc cv kk; have [z hz] := C02_optimal_dense h r0 pf ro hs hc.
exists z; first by case: hz.
rewrite (C93_objective_dense hs) (approx_lower cv hz kk) /=.
by apply: approx_gap hz _ => //; case: kk.
Qed.
(** If only the upper triangle of P is given (qp.hpp:27-29), the reported objective misses half of the mixed terms. *)
Theorem C93_upper fuel o p ws r o' : solve_dense e prm fuel o p ws = Some (r, o') ->
  cost (upper_problem p) (primal r) - objective r =
  2%:R^-1 * \sum_(i : 'I_n) \sum_(j < n | (i < j)%N) (qP p i j - qP p j i) * primal r i 0 * primal r j 0.
Proof.
move=> /C93_objective_dense ->; rewrite /cost /= opprD addrACA subrr addr0 -mulrBr; congr (_ * _).
move: (primal r) => x; rewrite !qf_dot -dotBr -mulmxBl dotE.
have -> : \sum_i x i 0 * ((symU (qP p) - qP p) *m x) i 0 =
   \sum_(i : 'I_n) \sum_(j < n | (j < i)%N) (qP p j i - qP p i j) * x j 0 * x i 0.
  apply: eq_bigr => i _; rewrite mxE mulr_sumr [RHS]big_mkcond /=; apply: eq_bigr => j _; rewrite !mxE.
  case: leqP => ij; first by rewrite subrr mul0r mulr0.
  by rewrite mulrC mulrAC.
rewrite pair_big_dep /= [RHS]pair_big_dep /= (reindex_inj (h := fun u : 'I_n * 'I_n => (u.2, u.1))) //=.
by move=> [a b] [c d] [-> ->].
Qed.
End Obj.

Section Cases.
Variable F : realFieldType.
Notation f := (q2f F).
Lemma kkt15 : kkt (p15 F) (cst F (-1#1)) (cst F (-1#10000)).
Proof.
have Ax : (qA (p15 F) *m cst F (-1#1)) = cst F (-1#1) by rewrite cstM; exact: cst_eq.
split.
- by move=> i; rewrite Ax mxE /between /= !q2f_le.
- by rewrite cstT !cstM !cstD -cst0; exact: cst_eq.
move=> i; rewrite Ax !mxE; split=> [|_] //.
by rewrite -(q2f0 F) q2f_lt.
Qed.
Example C93_case : exists r o' z, [/\ solve_dense (env0 F false 1 1) (dprm F true false) 2 (@obj_new F 1 1) (p15 F) None = Some (r, o'),
  code r = Optimal, objective r = cost (p15 F) (primal r) &
  cost (p15 F) (cst F (-1#1)) - tol_primal (dprm F true false) (p15 F) (primal r) z * norm1 (cst F (-1#10000)) <= objective r].
Proof.
have [r [o' [hs hc]]] := run15 F false.
have [z _ /andP[h1 h2]] := C93_value (@env0_sqrt _ _ _ _) (dprm_rho F _ _) erefl (rd_new _ _) hs hc (conv15 F) kkt15.
by exists r, o', z; split=> //; exact: C93_objective_dense hs.
Qed.
End Cases.
