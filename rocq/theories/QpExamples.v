(** Concrete cases that meet the hypotheses of the theorems about the QP solver, and the axioms used. *)
From Coq Require Import QArith.
From mathcomp Require Import all_ssreflect all_algebra.
From Verif Require Import LinAlg QF QpModel QpSpec QpFacts QpAdmm QpLoop QpProps QpConv QpCodes QpInfeas QpCex.
Set Implicit Arguments.
Unset Strict Implicit.
Unset Printing Implicit Defensive.
Import Order.TTheory GRing.Theory Num.Theory.
Local Open Scope ring_scope.

Section Cases.
Variable F : realFieldType.
Notation f := (q2f F).
Notation s1 := (Scaling 1 (ones F 1) (ones F 1)).
(** Factorizations succeed; [po] is the outcome of the one made for polishing. *)
Definition env0 (po : bool) n m : env F n m := Env (fun t => t) (fun _ => true) (fun _ _ => po) (fun _ => false) 0.
Lemma env0_sqrt po n m : good_sqrt (env0 po n m). Proof. by []. Qed.
Lemma conv15 : convex (p15 F).
Proof. by split; [rewrite /symm cstT|rewrite /= cst0 => x; rewrite /qf mulmx0 mul0mx mxE]. Qed.
Lemma pos01 a : ~~ Qle_bool a (0#1) -> 0 < f a.
Proof. by rewrite -(q2f0 F) q2f_lt. Qed.
(** min 1e-4 x subject to -1 <= x <= 1 without and with (failing) polishing. *)
Lemma run15 po : exists r o', solve_dense (env0 false 1 1) (dprm F true po) 2 (@obj_new F 1 1) (p15 F) None = Some (r, o') /\
  code r = Optimal.
Proof.
rewrite /solve_dense /cur_scale (scale1 (P := 0#1) (q := 1#10000)) //=.
rewrite (@run2 _ _ _ (env0 false 1 1) (dprm F true po) (p15 F) s1 _ None Optimal) //; last 2 first.
- exact: ti14.
- by rewrite start1 -/(Hd (dprm F true po) (p15 F) s1) (verdictE (rho := (1#10))) // rho14.
by do 2 eexists; split; first reflexivity.
Qed.
Example C01_case : exists s, cur_scale (env0 false 1 1) (dprm F true true) (@obj_new F 1 1) (p15 F) = Some s /\ 0 < s_c s.
Proof.
rewrite /cur_scale (scale1 (P := 0#1) (q := 1#10000)) //; eexists; split; first reflexivity; exact: ltr01.
Qed.
Example C02_case : exists r o' z, [/\ solve_dense (env0 false 1 1) (dprm F true false) 2 (@obj_new F 1 1) (p15 F) None = Some (r, o'),
  code r = Optimal & approx_kkt (p15 F) (primal r) (dual r) z (tol_primal (dprm F true false) (p15 F) (primal r) z)
    (tol_dual (dprm F true false) (p15 F) (primal r) (dual r))].
Proof.
have [r [o' [hs hc]]] := run15 false.
by have [z hz] := C02_optimal_dense (@env0_sqrt _ _ _) (dprm_rho F _ _) erefl (rd_new _ _) hs hc; exists r, o', z.
Qed.
Example C03_case : exists r o', [/\ solve_dense (env0 false 1 1) (dprm F true false) 2 (@obj_new F 1 1) (p15 F) None = Some (r, o'),
  code r = Optimal & convex (p15 F)] /\ optimal (p12 F (1#1)) (primal (w12 F)).
Proof.
have [r [o' [hs hc]]] := run15 false; exists r, o'; split; first by split=> //; exact: conv15.
exact: C03_kkt_optimal (conv12 F) (kkt12 F).
Qed.
(** Started at the solution (1, 1) of min x1^2 + x1 x2 + x2^2 - 3 x1 - 3 x2 the iteration stays there. *)
Definition sc12 : scaling_t F 2 1 := Scaling (f (2#1)) (const_mx (f (3#1))) (const_mx (f (1#5))).
Example C04_case k :
  unscale_x sc12 (it_x (traj (dprm F false false) (p12 F (1#1)) sc12 (Hd (dprm F false false) (p12 F (1#1)) sc12)
    (start (p12 F (1#1)) sc12 (Some (w12 F))) k)) = primal (w12 F).
Proof.
have [] := @C04_solution_fixed F 2 1 (dprm F false false) (p12 F (1#1)) sc12 (w12 F) k _ _ _ _ _ (conv12 F) (kkt12 F) => //.
- exact: pos01.
- by move=> i; rewrite mxE; exact: pos01.
- by move=> i; rewrite mxE; exact: pos01.
- exact: pos01.
- exact: pos01.
Qed.
Example C05_case : symU (fill_dense (dprm F false false) (p15 F) s1) \in unitmx.
Proof.
apply: (C05_nonsingular _ _ _ _ _ _).1 => //=.
- exact: ltr01.
- by move=> i; rewrite mxE; exact: ltr01.
- by move=> i; rewrite mxE; exact: ltr01.
- exact: pos01.
- exact: pos01.
- by rewrite cst0 => x; rewrite (_ : symU 0 = 0) ?qf_dot ?mul0mx ?dot0r //; apply/matrixP => i j; rewrite !mxE; case: ifP.
Qed.
Example C07_case : exists dy, approx_farkas (p07 F) dy (f (1#10000) * linf dy).
Proof.
have nr : ~ empty_row (p07 F) by case=> i /(_ (f (0#1))); rewrite /between /= lexx.
have [r [o' [hs hc]]] := @run07 F (env0 false 1 1) (fun _ => isT).
by have [|] := C07_certificate_partial hs hc.
Qed.
Example C08_case : exists dx, approx_recession (p08 F) dx (f (1#10000) * linf dx).
Proof.
have [r [o' [hs hc]]] := @run08 F (env0 false 1 1) false (fun _ => isT) erefl.
exact: C08_certificate_partial hs hc.
Qed.
(** 1 <= x <= 0. *)
Example C09_case : exists r o', [/\ solve_dense (env0 false 1 1) (dprm F false true) 0 (@obj_new F 1 1)
    (p1 F (1#1) (1#1) (1#1) (Fi (1#1)) (Fi (0#1))) None = Some (r, o'), code r = PrimalInfeasible & niter r = 0%N].
Proof.
do 2 eexists; have E : empty_row (p1 F (1#1) (1#1) (1#1) (Fi (1#1)) (Fi (0#1))).
  exists 0 => t; rewrite /between /=; apply/negbTE/negP => /andP[h1 h2].
  by have := le_trans h1 h2; rewrite q2f_le.
split; first by rewrite /solve_dense /= /solve_core /ret0 /= (introT (emptyP _) E).
all: by [].
Qed.
(** One iteration is allowed. *)
Definition prm10 : params F := Params (f (8#5)) (f (1#10)) (f (1#1000000)) false (f (1#1000)) (f (1#1000)) (f (1#10000)) (f (1#10000))
    (Some 1%N) false 25 true 5 (f (1#1000000)).
Example C10_case : exists r o', [/\ solve_dense (env0 true 1 1) prm10 1 (@obj_new F 1 1) (p15 F) None = Some (r, o'),
  ~ empty_row (p15 F), niter r = 1%N & code r = MaxIterations].
Proof.
have ne : ~ empty_row (p15 F) by move/emptyP; rewrite ti14.
have L0 : at_limit prm10 0 = false by rewrite /at_limit mod0n.
have L1 : at_limit prm10 1 by rewrite /at_limit modn_small.
have C0 : is_check prm10 0 = false by rewrite /is_check !mod0n.
rewrite /solve_dense /= /solve_core /ret0 ti14 /main_loop L0 L1 C0.
by do 2 eexists; split; [reflexivity|exact: ne|rewrite /= modn_small|].
Qed.
Example C11_case k : (k + 25 <= w32)%N -> exists2 j, (k <= j < k + 25)%N & is_check (dprm F true true) j.
Proof. exact: (@C11_checks_partial F (dprm F true true)). Qed.
Example C12_case : same_upper (p12 F (1#1)) (p12 F (0#1)) /\ qP (p12 F (1#1)) <> qP (p12 F (0#1)).
Proof.
split; last by move/matrixP/(_ (lift ord0 ord0) ord0); rewrite !mxE /= q2f0 q2f1 => /eqP; rewrite oner_eq0.
split=> // i j ij; rewrite !mxE; case: eqP => // i0; case: eqP => // j0.
by move: ij; rewrite j0 leqn0 => /eqP i0'; case: i0; exact: val_inj.
Qed.
(** A second solve with an object that has solved p15 gives the result of the first. *)
Example C13_case : exists r o' o'', solve_dense (env0 false 1 1) (dprm F true true) 2 (@obj_new F 1 1) (p15 F) None = Some (r, o') /\
  solve_dense (env0 false 1 1) (dprm F true true) 2 o' (p15 F) None = Some (r, o'').
Proof.
have [r [o' [hs _]]] := run15 true; exists r, o'.
have := C13_history_dense 2 (p15 F) None (rd_solve (rd_new (env0 false 1 1) (dprm F true true)) hs).
by rewrite hs /=; case: (solve_dense _ _ _ _ _ _) => [[r' o'']|] // [<-]; exists o''.
Qed.
Example C15_case : exists r o' z, [/\ solve_dense (env0 false 1 1) (dprm F true true) 2 (@obj_new F 1 1) (p15 F) None = Some (r, o'),
  code r = Optimal & approx_kkt (p15 F) (primal r) (dual r) z (tol_primal (dprm F true true) (p15 F) (primal r) z)
    (tol_dual (dprm F true true) (p15 F) (primal r) (dual r))].
Proof.
have [r [o' [hs hc]]] := run15 true.
by have [z hz] := C15_failed_partial (@env0_sqrt _ _ _) (dprm_rho F _ _) (fun _ _ => erefl) (rd_new _ _) hs hc; exists r, o', z.
Qed.
(** The multiplier 1 of -1 <= x <= 1 makes the row active at its upper bound. *)
Example C16_case po : LU (env0 po 1 1) (p15 F) (ones F 1) = [:: 0] /\ 0 <= macheps (env0 po 1 1).
Proof.
split=> //; rewrite /LU /actL /actU /= mulr0.
have -> : enum 'I_1 = [:: 0] by apply: (inj_map val_inj); rewrite val_enum_ord.
by rewrite /= !mxE oppr0 ltr10 ltr01.
Qed.
End Cases.

Example C06_case (F : archiFieldType) : exists fuel r o', solve_dense (env0 F true 2 1) (dprm F true true) fuel
  (@obj_new _ 2 1) (p12 F (1#1)) None = Some (r, o').
Proof.
have a2 : q2f F (8#5) < 2%:R by rewrite (q2f_nat F) q2f_lt.
apply: (@C06_terminates F 2 1 _ (dprm F true true) _ (p12 F (1#1)) _ _ None (@env0_sqrt _ _ _ _) (rd_new _ _)
  _ _ _ a2 _ _ _ (conv12 _) (kkt12 _)) => /=; try exact: pos01; try by [].
by apply: ltW; exact: pos01.
Qed.

Print Assumptions C01_positive.
Print Assumptions C01_equivalent.
Print Assumptions C01_warmstart.
Print Assumptions C01_iterates.
Print Assumptions C02_optimal_dense.
Print Assumptions C02_optimal_sparse.
Print Assumptions C03_near_optimal.
Print Assumptions C03_kkt_optimal.
Print Assumptions C04_solution_fixed.
Print Assumptions C04_fixed_solution.
Print Assumptions C04_solve_returns.
Print Assumptions C05_nonsingular.
Print Assumptions C05_sparse_dense.
Print Assumptions C06_distance.
Print Assumptions C06_rate.
Print Assumptions C06_residuals_vanish.
Print Assumptions C06_terminates.
Print Assumptions C07_refuted.
Print Assumptions C07_certificate_partial.
Print Assumptions C07_zero_tolerance_partial.
Print Assumptions C08_refuted.
Print Assumptions C08_certificate_partial.
Print Assumptions C08_direction_partial.
Print Assumptions C09_contradictory.
Print Assumptions C09_otherwise.
Print Assumptions C10_iterations.
Print Assumptions C10_no_limit.
Print Assumptions C11_refuted.
Print Assumptions C11_checks_partial.
Print Assumptions C12_refuted.
Print Assumptions C12_iterates_partial.
Print Assumptions C13_refuted.
Print Assumptions C13_history_dense.
Print Assumptions C13_history_sparse_partial.
Print Assumptions C13_history_sparse_same_structure.
Print Assumptions C14_refuted.
Print Assumptions C14_code_partial.
Print Assumptions C15_refuted.
Print Assumptions C15_failed_partial.
Print Assumptions C16_rows_once.
Print Assumptions C16_bound_finite.
Print Assumptions C16_write_back.
Print Assumptions C16_fixed_point.
