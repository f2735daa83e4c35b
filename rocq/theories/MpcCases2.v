(** Concrete cases and counterexamples for copies, meshes and trajectories of MPC objects. *)
From mathcomp Require Import all_ssreflect all_algebra zify.
From mathcomp.algebra_tactics Require Import ring.
From Verif Require Import Calc QpModel QpSpec MeshModel MeshSpec PolyFacts MeshFacts MeshQuad MeshEval MeshProps.
From Verif Require Import SparseModel SparseFacts MeshFunModel MeshFunFacts MeshFunLoops MeshFunDyn MeshFunProps MeshFunTraj NlpModel NlpFacts NlpProps NlpSol.
From Verif Require Import OqpModel OqpFacts OqpProps OqpCost MpcModel MpcHist MpcCost MpcRows MpcCases.
Set Implicit Arguments.
Unset Strict Implicit.
Unset Printing Implicit Defensive.
Import Order.TTheory GRing.Theory Num.Theory.
Local Open Scope ring_scope.
Local Arguments muln : simpl never.
Local Opaque mesh_integrate mesh_eval oqp_update oqp_allocate N_colloc all_nodes all_weights mpc_step mpc_call.
Local Notation Q := [realFieldType of rat].

(** * C49: copies *)
Definition w0 : world Q 1 1 Q unit := World (fun=> cell_new _ _ _ 0) 0 (fun=> 0%N) (fun=> None).
Definition ex_wrun := w_run 1 (fun a b : Q => a + b) (fun a b => a - b) 0 1 ex_lgr ex_f ex_df true ex_f ex_df (fun=> -1) (fun=> 1) (fun=> tt) ex_solve.
(** Construct object 0, copy it to object 1, set the desired input of object 1, and call object 0. *)
Definition ops_copy : seq (wop Q 1 1 Q) := [:: WNew 1 1 Q 0 ex_q; WCopy Q 1 1 Q 0 1; WOp 1 (SetUdes 1 (fun=> 1)); WOp 0 (Call 1 0 0)].
Local Transparent mpc_step mpc_call.
Theorem C49_copies_refuted : exists co, ex_new true ex_q = Some co /\
  [seq o_u out | out <- outs_of 0 (ex_wrun ops_copy w0).2] <> [seq o_u out | out <- (ex_run true (calls_of 0 ops_copy) co).2].
Proof.
have [co [e em]] := ex_newE true; exists co; split=> //.
case: e => <- {co em}; rewrite /ex_wrun /ops_copy /ex_run /= /at_ /= /udes_rel /= => -[].
by move/(congr1 (fun M : 'cV[Q]_1 => M 0 0)); rewrite !mxE.
Qed.
(** The same operations without the call of set_udes, and with a separately constructed object instead of the copy. *)
Definition ex_world : world Q 1 1 Q unit := (ex_wrun [:: WNew 1 1 Q 0 ex_q] w0).1.
Example C49_case1 ob : objs ex_world 0 = Some ob ->
  outs_of 0 (ex_wrun [:: WCopy Q 1 1 Q 0 1; WOp 1 (Call 1 3%:R 1); WOp 0 (Call 1 0 0)] ex_world).2 =
  (ex_run true [:: Call 1 0 0] (heap ex_world (ptr ex_world 0), ob)).2.
Proof. by move=> e; apply: (@C49_no_set_partial Q 1 1 1 Q). Qed.
Example C49_case2 ob : objs ex_world 0 = Some ob ->
  outs_of 0 (ex_wrun [:: WNew 1 1 Q 1 ex_q; WOp 1 (SetUdes 1 (fun=> 1)); WOp 0 (Call 1 0 0)] (ex_wrun [:: WNew 1 1 Q 1 ex_q] ex_world).1).2 =
  (ex_run true [:: Call 1 0 0] (heap ex_world (ptr ex_world 0), ob)).2.
Proof.
move=> e; apply: (@C49_unshared Q 1 1 1 Q (fun a b => a + b) (fun a b => a - b) 0 1 ex_lgr ex_f ex_df true ex_f ex_df (fun=> -1) (fun=> 1) unit (fun=> tt) ex_solve 0 (ex_wrun [:: WNew 1 1 Q 1 ex_q] ex_world).1) => //.
- by move=> i; rewrite /ex_world /ex_wrun /= /at_; case: ifP => //; case: ifP.
- by move=> i; rewrite /ex_world /ex_wrun /= /at_; case: ifP => // _; case: ifP.
Qed.
(** K = 5 on a mesh with intervals of two points. *)
Example C50_case co : mpc_new 1 (fun a b : Q => a + b) 0 2 ex_lgr ex_f ex_df true ex_f ex_df (fun=> -1) (fun=> 1) (fun=> tt) (Params 5 1 true) = Some co ->
  (\sum_(i < size (msh co.2)) N_colloc_ival (msh co.2) i)%N = 6%N.
Proof.
move=> e.
have [n [h1 h2 h3 h4 h5]] := @C50_mesh Q 1 1 1 Q (fun a b => a + b) (fun a b => a - b) 0 2 ex_lgr ex_f ex_df true ex_f ex_df (fun=> -1) (fun=> 1) unit (fun=> tt) ex_solve isT (Params 5 1 true) co [::] e.
move: h3 h4 (h5 isT); rewrite [maxn _ _]/= [pK _]/= [(mpc_run _ _ _ _ _ _ _ _ _ _ _ _ _ _ _ _).1]/=.
by move: (\sum_(i < _) _)%N => K ->; clear; lia.
Qed.
Example C50_traj_case co t x : ex_new true ex_q = Some co -> msh co.2 = ex_m -> let out := (ex_call true t x (ex_run true ops10 co).1).2 in
  size (o_xs out) = 2%N /\ nth 0 (o_xs out) 1 0 0 = 10%:R * (t + 1).
Proof.
move=> e em out.
have := @C50_trajectories Q 1 1 1 Q (fun a b => a + b) (fun a b => a - b) 0 1 ex_lgr ex_f ex_df true ex_f ex_df (fun=> -1) (fun=> 1) unit (fun=> tt) ex_solve isT ex_K ex_q co ops10 t x e.
rewrite run_msh em; cbv zeta => /(_ ex_hN) [_ h1 _ _ [_ h]]; split; first by rewrite h1 !big_ord_recl big_ord0.
by rewrite h ?ex_ns ?big_ord_recl ?big_ord0 //= mxE mulr1n addr0 mulr1.
Qed.
(** The first call has no guess, the second one starts from the solution of the first. *)
Example C51_case co t x t' x' : ex_new true ex_q = Some co -> pwarm ex_q /\
  o_guess (ex_call true t' x' (ex_run true [:: Call 1 t x] co).1).2 = Some zsol.
Proof. by case=> <-. Qed.
Print Assumptions C45_ignored.
Print Assumptions C45_weights_refuted.
Print Assumptions C46_blocks_partial.
Print Assumptions C46_cost_partial.
Print Assumptions C46_running_weights_refuted.
Print Assumptions C46_more_inputs.
Print Assumptions C46_no_object.
Print Assumptions C47_final_free.
Print Assumptions C47_no_effect.
Print Assumptions C47_final_weight_refuted.
Print Assumptions C48_rows_time.
Print Assumptions C48_rows_constant.
Print Assumptions C48_affine_partial.
Print Assumptions C48_input_partial.
Print Assumptions C48_input_constant.
Print Assumptions C48_input_bounds_refuted.
Print Assumptions C49_no_set_partial.
Print Assumptions C49_unshared.
Print Assumptions C49_copies_refuted.
Print Assumptions C50_mesh.
Print Assumptions C50_trajectories.
Print Assumptions C51_guess.
Print Assumptions C74_initial.
Print Assumptions C74_dynamics.
