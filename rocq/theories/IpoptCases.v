(** Concrete cases and counterexamples for the wrappers of IPOPT and OSQP: C70, C71, C72, C79, C80, C81. *)
From mathcomp Require Import all_ssreflect all_algebra.
From mathcomp.algebra_tactics Require Import ring.
From Verif Require Import Calc LinAlg QpModel QpSpec QpLoop MeshModel MeshSpec MeshFacts MeshQuad MeshEval MeshProps.
From Verif Require Import SparseModel SparseFacts MeshFunModel MeshFunProps MeshFunCases NlpModel NlpFacts NlpProps NlpSol.
From Verif Require Import IpoptModel IpoptProps IpoptOcp OsqpModel OsqpProps.
Set Implicit Arguments.
Unset Strict Implicit.
Unset Printing Implicit Defensive.
Import Order.TTheory GRing.Theory Num.Theory.
Local Open Scope ring_scope.

Section Ipopt.
Variable F : realFieldType.
Local Notation vec := (nat -> F).
(** f = g = x^2 in one variable.  jac x tells whether the entry of dg_dx is stored, hes l whether that of d2g_dx2 is. *)
Definition sq_problem (jac hes : F -> bool) : problem F unit :=
  Problem 1 1 false (fun=> NegInf) (fun=> PosInf) (fun=> Fin 0) (fun=> Fin 4%:R)
    (fun s x => (s, x 0%N * x 0%N)) (fun s x => (s, fun _ _ => Some (2%:R * x 0%N)))
    (fun s x => (s, fun=> x 0%N * x 0%N)) (fun s x => (s, fun _ _ => if jac (x 0%N) then Some (2%:R * x 0%N) else None))
    (fun s x => (s, fun _ _ => None)) (fun s x l => (s, fun _ _ => if hes (l 0%N) then Some (2%:R * l 0%N) else None)).
Local Notation all := (fun _ => true).
Lemma one_lt r : (r < 1)%N -> r = 0%N. Proof. by case: r. Qed.
Lemma sq_ok : nlp_ok (sq_problem all all) (fun=> True) (fun x _ _ => 2%:R * x 0%N) (fun _ _ _ => 0) (fun _ l _ _ => 2%:R * l 0%N)
  (fun _ _ => true) (fun r c => (r <= c)%N).
Proof. by split=> //= s x; rewrite ?leqnn //; try (by move=> l r c _ /one_lt -> /one_lt ->); move=> r c _ /one_lt -> /one_lt ->. Qed.
(** The Jacobian at x = 3 after any calls. *)
Example C70_jacobian_case h h' : calls_ok true h -> calls_ok true h' ->
  let P := sq_problem all all in let st := (get_nlp_info P true (Ist tt (@empty F))).1 in
  trip (eval_jac_s P (run P st h)).2 (eval_jac_v P (run P st h') (fun=> 3%:R)).2 0 0 = 6%:R.
Proof.
move=> c c'; have [_ _ _ /(_ 0%N 0%N isT isT) e] := @C70_jacobian F _ _ _ _ _ _ _ _ sq_ok true tt (@empty F) I h h' (fun=> 3%:R) c c'.
by apply: (etrans e); ring.
Qed.
Example C70_hessian_case h h' : calls_ok true h -> calls_ok true h' ->
  let P := sq_problem all all in let st := (get_nlp_info P true (Ist tt (@empty F))).1 in
  trip (eval_h_s P (run P st h)).2 (eval_h_v P (run P st h') (fun=> 3%:R) 5%:R (fun=> 2%:R)).2 0 0 = 4%:R.
Proof.
move=> c c'; have [_ _ _ /(_ 0%N 0%N isT) e] := @C70_hessian F _ _ _ _ _ _ _ _ sq_ok true tt (@empty F) I h h' (fun=> 3%:R) 5%:R (fun=> 2%:R) isT c c'.
by apply: (etrans e); ring.
Qed.
(** A Jacobian without stored zeros: for x = 0 there is none, so that IPOPT is told that there are no entries, and then
    gets one. *)
Theorem C70_jacobian_refuted : exists P : problem F unit, 
  (forall x, partialn (fun x => (p_g P tt x).2 0%N) x 0 (val (p_dg P tt x).2 0 0)) /\
  forall uh H0, let info := get_nlp_info P uh (Ist tt H0) in
  [/\ info.2.1.2 = 0%N, size (eval_jac_s P info.1).2 = 0%N & size (eval_jac_v P info.1 (fun=> 1)).2 = 1%N].
Proof.
exists (sq_problem (fun x => x != 0) all); split=> [x|uh H0 info].
  have -> : val (p_dg (sq_problem (fun x => x != 0) all) tt x).2 0 0 = 1 * x 0%N + x 0%N * 1.
    by rewrite /val /=; case: (eqVneq (x 0%N) 0) => [->|_] /=; ring.
  exact: (deriv_mul (deriv_id _) (deriv_id _)).
by case: uh @info; rewrite /get_nlp_info /eval_jac_s /eval_jac_v /stored /= eqxx /= oner_neq0.
Qed.
(** The same for a Hessian that is not stored for lambda = 0. *)
Theorem C70_hessian_refuted : exists P : problem F unit,
  (forall x l, hessn (fun x => l 0%N * (p_g P tt x).2 0%N) x 0 0 (val (p_d2g P tt x l).2 0 0)) /\
  forall H0, let info := get_nlp_info P true (Ist tt H0) in
  [/\ info.2.2 = 0%N, size (eval_h_s P info.1).2 = 0%N & size (eval_h_v P info.1 (fun=> 1) 1 (fun=> 1)).2 = 1%N].
Proof.
exists (sq_problem all (fun l => l != 0)); split=> [x l|H0 info].
  have -> : val (p_d2g (sq_problem all (fun l => l != 0)) tt x l).2 0 0 = l 0%N * (1 + 1).
    by rewrite /val /=; case: (eqVneq (l 0%N) 0) => [->|_] /=; ring.
  apply: hessn_scale; exists (fun w => 1 * w 0%N + w 0%N * 1) => [w|].
    exact: (deriv_mul (deriv_id _) (deriv_id _)).
  apply: (deriv_ext (f := fun s => s + s)) => [s|]; first by rewrite /setn eqxx mul1r mulr1.
  by apply: deriv_add; exact: deriv_id.
by rewrite /info /get_nlp_info /eval_h_s /eval_h_v /stored /= eqxx /= /sadd /smul /set_zero /= oner_neq0.
Qed.

(** C71 *)
Example C71_ipopt_case : n_status (@solve_nlp_ipopt F 1 NOptimal None (fun _ _ => Some (FinCall MAXITER_EXCEEDED 7 [:: 1] [::] [::] [::] 0))) = NMaxIterations.
Proof. by []. Qed.
(** If IPOPT stops with an error before the first iteration, a warm start comes back with its status Optimal, and
    without a warm start the status is undetermined. *)
Theorem C71_ipopt_refuted : exists (warm : nsol F) (ipopt : bool -> nsol F -> option (fin F)),
  (forall b s, ipopt b s = None) /\ solve_nlp_ipopt 1 NUnknown (Some warm) ipopt = warm /\ n_status warm = NOptimal /\
  forall junk, n_status (solve_nlp_ipopt 1 junk None ipopt) = junk.
Proof. by exists (NSol NOptimal 3 [:: 1] [::] [::] [::] 0), (fun _ _ => None). Qed.

(** C79 *)
Example C79_case v : let: (xl, xu, gl, gu) := get_bounds_info (sq_problem all all) in
  ipopt_lo (gl 0%N) v && ipopt_hi (gu 0%N) v = (0 <= v <= 4%:R).
Proof.
have [] := C79_bounds_partial (sq_problem all all) 0 v => _ h; apply: h => /=.
  by rewrite oppr_lt0 exprn_gt0 ?ltr0n.
have e : (4%:R : F) < 10%:R by rewrite ltr_nat.
by apply: (lt_le_trans e); apply: ler_eexpr; rewrite ?ler1n.
Qed.
(** A finite lower bound below -1e19 is dropped. *)
Theorem C79_bounds_refuted : exists (P : problem F unit) v,
  let: (xl, xu, gl, gu) := get_bounds_info P in
  ~~ between (p_xl P 0%N) (p_xu P 0%N) v /\ ipopt_lo (xl 0%N) v && ipopt_hi (xu 0%N) v.
Proof.
pose a : F := - big F.
exists (Problem 1 1 false (fun=> Fin a) (fun=> PosInf) (fun=> NegInf) (fun=> PosInf)
  (fun s x => (s, 0)) (fun s x => (s, @empty F)) (fun s x => (s, fun=> 0)) (fun s x => (s, @empty F)) (fun s x => (s, @empty F))
  (fun s x l => (s, @empty F))), (a - 1); cbv [get_bounds_info p_xl p_xu p_gl p_gu lo hi between lo_ok hi_ok ipopt_lo ipopt_hi]; split.
  by rewrite andbT -ltNge ltr_subl_addr ltr_addl ltr01.
by rewrite maxxx /a ler_opp2 !(ltW (big_gt F)).
Qed.

(** C80 *)
Example C80_case : use_hessian (T := nat_eqType) (V := bool_eqType) 7%N true [:: (3, true); (7, true)]%N = true /\
  ipopt_exact (T := nat_eqType) (V := bool_eqType) 7%N true [:: (3, true); (7, true)]%N.
Proof. by []. Qed.
(** Without the option IPOPT asks for Hessians, but has been told that they have no entries; what the wrapper then writes
    is longer than what IPOPT has allocated. *)
Theorem C80_hessian_refuted : exists P : problem F unit, forall (T V : eqType) (key : T) (exact : V),
  let uh := use_hessian key exact [::] in
  let info := get_nlp_info P uh (Ist tt (@empty F)) in
  [/\ ipopt_exact key exact [::], info.2.2 = 0%N & size (eval_h_v P info.1 (fun=> 1) 1 (fun=> 1)).2 = 1%N].
Proof.
exists (sq_problem all all) => T V key exact; rewrite /ipopt_exact /= eqxx; split=> //.
Qed.
Theorem C80_twice_refuted (T V : eqType) (key : T) (exact other : V) : exact != other ->
  use_hessian key exact [:: (key, exact); (key, other)] /\ ~~ ipopt_exact key exact [:: (key, exact); (key, other)].
Proof. by move=> h; rewrite /use_hessian /ipopt_exact /= !eqxx /= eq_sym h. Qed.
End Ipopt.

(** C70 for an optimal control problem: x' = u x, all constraints of dimension one. *)
Section Ocp.
Local Notation Q := [realFieldType of rat].
Local Notation m := ex_m.
Lemma ex_fixed : fixed_patterns ex_ocp.
Proof.
have h1 : fixed ex_df by exists (fun _ c => (c == 1%N) || (c == 2%N)) => z r c; rewrite /ex_df; (case: ifP => // _; case: ifP).
have h2 : fixed ex_d2f by exists (fun a b => (a == 1%N) && (b == 2%N) || (a == 2%N) && (b == 1%N)) => z r c; rewrite /ex_d2f; case: ifP.
have h3 : exists q : nat -> nat -> bool, forall z r c, isSome (exo_d2e z r c) = q r c.
  by exists (fun a b => (a == 1%N) && (b == 3%N) || (a == 3%N) && (b == 1%N)) => z r c; rewrite /exo_d2e; case: ifP.
by split=> //; exists (fun _ c => (c == 1%N) || (c == 3%N)) => z r c; rewrite /= /exo_de; (case: ifP => // _; case: ifP).
Qed.
Example C70_ocp_case jl ju h h' x o : calls_ok true h -> calls_ok true h' ->
  let P := ocp_problem ex_ocp 1 1 ex_lgr m jl ju in let st := (get_nlp_info P true (Ist (@nlp_new Q) (@empty Q))).1 in
  partialn (fun x => o_g (nlp_g ex_ocp 1 1 ex_lgr m o x) 1) x 7
    (trip (eval_jac_s P (run P st h)).2 (eval_jac_v P (run P st h') x).2 1 7).
Proof.
move=> c c' P st; have h1 : (1 < nlp_m 1 1 1 1 m)%N by rewrite exo_m.
have h2 : (7 < nlp_n 1 1 1 m)%N by rewrite exo_n.
by have [] := @C70_ocp_jacobian Q 1 1 1 1 1 ex_ocp 1 1 ex_lgr m ex_fixed ex_kinc isT isT ex_reach ex_hN ex_ocp_derivs jl ju true (@empty Q) h h' x o 1 7 c c' h1 h2.
Qed.
End Ocp.

Section Osqp.
Variable F : realFieldType.
(** min 1/2 x^2 - x with l <= a x <= u. *)
Definition one_qp (a : F) (l u : ext F) : qp F 1 1 := Qp (const_mx 1) (const_mx (-1)) (const_mx a) (fun=> l) (fun=> u).
Definition one_prm (k : option nat) : params F := Params 1 1 1 false 1 1 1 1 k false 1 false 0 1.
Lemma one_settings k t : k != Some 0%N -> settings_ok (settings_of (one_prm k) t).
Proof.
move=> hk; rewrite /settings_ok /settings_of; cbn [o_rho o_sigma o_delta o_max_iter o_eps_abs o_eps_rel o_eps_pinf o_eps_dinf o_alpha o_time
  rho_bar sigma delta max_iter eps_abs eps_rel eps_pinf eps_dinf alpha one_prm].
rewrite ltr01 ler01 oner_neq0 ltr1n !andTb; apply/andP; split.
  by case: k hk => [[|k]|].
by case: t => // t; rewrite mulr_ge0 ?ler0n // ltW // em_gt0.
Qed.
Example C71_osqp_case warm : exists2 q, solve_qp_osqp (data_dense (one_qp 1 (Fin 0) (Fin 2%:R))) (settings_of (one_prm None) None) warm
  (fun _ _ _ => OOut false OMAX_ITER_REACHED 9 0 0 0) = Some q & code q = MaxIterations.
Proof.
have hd : data_ok (data_dense (one_qp 1 (Fin 0) (Fin 2%:R))).
  by rewrite /data_ok; apply/forallP => i /=; rewrite /contradictory /= subr0 ltNge ler0n.
have [q e [_ _ _ [h _ _]]] := @C71_osqp_partial F 1 1 _ _ warm (fun _ _ _ => OOut false OMAX_ITER_REACHED 9 0 0 0) hd (@one_settings None None isT).
by exists q => //; apply/h.
Qed.
(** Contradictory bounds: osqp_setup fails, and the wrapper goes on with a pointer that has no value. *)
Theorem C71_osqp_refuted : exists p : qp F 1 1, [/\ convex p, (forall x, ~ feasible p x) &
  forall prm t warm osqp, solve_qp_osqp (data_dense p) (settings_of prm t) warm osqp = None].
Proof.
exists (one_qp 1 (Fin 1) (Fin 0)); split.
- split; first by apply/matrixP => i j; rewrite !mxE.
  move=> x; rewrite /qf mxE big_ord1 mxE big_ord1 !mxE mulr1; exact: sqr_ge0.
- move=> x /(_ 0) /=; rewrite /between /= => /andP[h1 h2]; have := le_trans h1 h2; rewrite leNgt ltr01 //.
- move=> prm t warm osqp; rewrite /solve_qp_osqp.
  have -> : data_ok (data_dense (one_qp 1 (Fin 1) (Fin 0))) = false; last by [].
  by apply/negP => /andP[_ /forallP /(_ 0)]; rewrite /contradictory /= sub0r oppr_lt0 ltr01.
Qed.

(** C72 *)
Example C72_case k : osqp_time_limit (settings_of (one_prm k) (Some 5%N)) = Some (5%:R / 10%:R ^+ 9).
Proof. by rewrite C72_time_partial. Qed.
(** A time limit of zero is no limit for OSQP. *)
Theorem C72_time_refuted : exists t : nat, forall prm : params F, osqp_time_limit (settings_of prm (Some t)) = None.
Proof. by exists 0%N => prm; rewrite /osqp_time_limit /settings_of; cbn [o_time]; rewrite mul0r eqxx. Qed.
(** Zero iterations: the built-in solver returns MaxIterations (whenever the factorization succeeds), but osqp_setup fails. *)
Theorem C72_iter_refuted : exists (p : qp F 1 1) (prm : params F), max_iter prm = Some 0%N /\
  (forall e fuel, (forall H, ldlt_ok e H) -> exists2 q, solve_qp e prm fuel p None = Some q & code q = MaxIterations /\ niter q = 0%N) /\
  forall t warm osqp, solve_qp_osqp (data_dense p) (settings_of prm t) warm osqp = None.
Proof.
exists (one_qp 1 (Fin 0) (Fin 2%:R)), (one_prm (Some 0%N)); split=> //; split.
  move=> e fuel h; rewrite /solve_qp /solve_dense /cur_scale /= /solve_core /ret0 h.
  have -> : trivially_infeasible (one_qp 1 (Fin 0) (Fin 2%:R)) = false.
    by apply/negbTE; rewrite /trivially_infeasible negb_exists; apply/forallP => i; rewrite /contradictory /= subr0 ltNge ler0n.
  by case: fuel => [|fuel]; rewrite /=; eexists; first by reflexivity.
move=> t warm osqp; rewrite /solve_qp_osqp (_ : settings_ok _ = false) ?andbF //.
by rewrite /settings_ok /settings_of; cbn [o_max_iter max_iter one_prm]; rewrite ltnn !andbF.
Qed.

(** C81 *)
Lemma tiny_gt1 : em F 18 < (1 : F).
Proof.
rewrite /em invf_lt1 ?exprn_gt0 ?ltr0n //; apply: exprn_egt1 => //.
by rewrite ltr1n.
Qed.
Example C81_case x : cost (osqp_problem (data_dense (one_qp 1 (Fin 0) (Fin 2%:R)))) x = cost (one_qp 1 (Fin 0) (Fin 2%:R)) x.
Proof.
have t1 (i j : 'I_1) : no_tiny ((const_mx 1 : 'M[F]_1) i j) by right; rewrite mxE normr1 tiny_gt1.
have [|||_ h] := @C81_dense_partial F 1 1 (one_qp 1 (Fin 0) (Fin 2%:R)); rewrite ?h //.
by apply/matrixP => i j; rewrite !mxE.
Qed.
(** 1e-18 x = 1 has a solution, but not without the entry. *)
Theorem C81_dense_refuted : exists p : qp F 1 1, [/\ convex p, (exists x, feasible p x) &
  forall x, ~ feasible (osqp_problem (data_dense p)) x].
Proof.
have e0 := em_gt0 F 18.
exists (one_qp (em F 18) (Fin 1) (Fin 1)); split.
- split; first by apply/matrixP => i j; rewrite !mxE.
  move=> x; rewrite /qf mxE big_ord1 mxE big_ord1 !mxE mulr1; exact: sqr_ge0.
- exists (const_mx (em F 18)^-1) => i; rewrite /= mxE big_ord1 !mxE mulfV ?gt_eqF // /between /=; by rewrite lexx.
move=> x /(_ 0); rewrite /= mxE big_ord1 !mxE /= /sparse_view gt_eqF //= em18 gtr0_norm // lexx /= mul0r /between /=.
by rewrite ler10.
Qed.
(** A matrix P that is not symmetric is replaced by the one with the same upper triangle. *)
Theorem C81_symmetric_refuted : exists (p : sqp F 2 1) x, cost (osqp_problem (data_sparse p)) x <> cost (dense_of p) x.
Proof.
exists (Sqp (fun i j => if (i == 0) && (j == 1) then Some 2%:R else None) 0 (fun _ _ => None) (fun=> NegInf) (fun=> PosInf)), (const_mx 1).
rewrite /cost /qf /dot /=; rewrite !mxE !big_ord_recl !big_ord0 !mxE !big_ord_recl !big_ord0 !mxE /=.
rewrite ?(mulr0, mul0r, addr0, add0r, mul1r, mulr1) => /eqP; rewrite (inj_eq (mulfI _)) ?invr_neq0 ?pnatr_eq0 //.
by rewrite -subr_eq0 addrK pnatr_eq0.
Qed.
End Osqp.

Print Assumptions C70_jacobian.
Print Assumptions C70_hessian.
Print Assumptions C70_ocp_jacobian.
Print Assumptions C70_ocp_hessian_partial.
Print Assumptions C70_hessian_refuted.
Print Assumptions C71_ipopt_partial.
Print Assumptions C71_osqp_partial.
Print Assumptions C71_osqp_refuted.
Print Assumptions C72_time_partial.
Print Assumptions C72_iter_refuted.
Print Assumptions C79_bounds_partial.
Print Assumptions C80_hessian_iff.
Print Assumptions C81_close.
Print Assumptions C81_dense_refuted.
