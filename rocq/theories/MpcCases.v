(** Concrete cases and counterexamples for the properties of MPC objects. *)
From mathcomp Require Import all_ssreflect all_algebra zify.
From mathcomp.algebra_tactics Require Import ring.
From Verif Require Import Calc QpModel QpSpec MeshModel MeshSpec PolyFacts MeshFacts MeshQuad MeshEval MeshProps.
From Verif Require Import SparseModel SparseFacts MeshFunModel MeshFunFacts MeshFunLoops MeshFunDyn MeshFunProps MeshFunTraj NlpModel NlpFacts NlpProps NlpSol.
From Verif Require Import OqpModel OqpFacts OqpProps OqpCost MpcModel MpcHist MpcCost MpcRows.
Set Implicit Arguments.
Unset Strict Implicit.
Unset Printing Implicit Defensive.
Import Order.TTheory GRing.Theory Num.Theory.
Local Open Scope ring_scope.
Local Arguments muln : simpl never.
Local Opaque mesh_integrate mesh_eval oqp_update oqp_allocate N_colloc all_nodes all_weights mpc_step mpc_call.
Local Notation Q := [realFieldType of rat].

(** * C46: the Hessian of the integrand *)
Section C46.
Variable F : realFieldType.
(** The state block is Q and the other blocks are zero; the input block is R where Q is not zero. *)
Theorem C46_blocks_partial Nx Nu (M : 'M[F]_Nx) (R : 'M[F]_Nu) h gh : int_hess M R h = Some gh ->
  [/\ forall i j : 'I_Nx, val gh (1 + i) (1 + j) = M i j,
      forall i j : 'I_Nu, val gh (1 + Nx + i) (1 + Nx + j) = if mget M i j != 0 then R i j else 0,
      forall (i : 'I_Nx) (j : 'I_Nu), val gh (1 + i) (1 + Nx + j) = 0 /\ val gh (1 + Nx + j) (1 + i) = 0 &
      forall k, val gh 0 k = 0 /\ val gh k 0 = 0].
Proof.
move=> e.
have ix (a : 'I_Nx) : inr 1 Nx (1 + a) by rewrite /inr leq_addr ltn_add2l ltn_ord.
have iu (a : 'I_Nu) : inr (1 + Nx) Nu (1 + Nx + a) by rewrite /inr leq_addr ltn_add2l ltn_ord.
have ixu (a : 'I_Nx) : inr (1 + Nx) Nu (1 + a) = false by rewrite /inr leq_add2l leqNgt ltn_ord.
have iux (a : 'I_Nu) : inr 1 Nx (1 + Nx + a) = false by rewrite /inr; clear; lia.
have mO n (A : 'M[F]_n) (a b : 'I_n) : mget A a b = A a b by rewrite /mget !valK.
by split=> [i j|i j|i j|k]; rewrite !(int_hess_val _ _ e) ?ixu ?iux ?ix ?iu ?andbF //= ?(addKn 1) ?addKn ?mO.
Qed.
(** With more inputs than states the function reads outside of Q, and no object can be constructed. *)
Theorem C46_more_inputs Nx Nu (M : 'M[F]_Nx) (R : 'M[F]_Nu) h : (Nx < Nu)%N -> int_hess M R h = None.
Proof. by move=> e; rewrite /int_hess leqNgt e. Qed.
Theorem C46_no_object Nx Nu Ncr Tm tplus tzero Kmesh lgr f df cr_time cr dcr crl cru S analyze q : (Nx < Nu)%N ->
  @mpc_new F Nx Nu Ncr Tm tplus tzero Kmesh lgr f df cr_time cr dcr crl cru S analyze q = None.
Proof. by move=> e; rewrite /mpc_new C46_more_inputs //; case: mesh_new. Qed.
End C46.
Definition ex_R : 'M[Q]_2 := \matrix_(i, j) if i == j then i.+1%:R else 1.
(** Symmetric weights Q = I and R = (1 1; 1 2), both positive definite. *)
Theorem C46_running_weights_refuted : exists (M R : 'M[Q]_2) gh (i j : 'I_2),
  [/\ M = 1%:M, R^T = R, (forall v : 'rV[Q]_2, v != 0 -> 0 < (v *m R *m v^T) 0 0), int_hess M R empty = Some gh &
      val gh (1 + 2 + i) (1 + 2 + j) <> R i j].
Proof.
exists 1%:M, ex_R; move e : (int_hess _ _ _) => [gh|//]; exists gh, 0, (lift 0 0); split=> //.
- by apply/matrixP => i j; rewrite !mxE eq_sym; case: eqP => // ->.
- move=> v v0; rewrite !mxE !big_ord_recl big_ord0 !mxE !big_ord_recl !big_ord0 !mxE /= !addr0.
  have -> : lift ord0 ord0 = (1 : 'I_2) by apply: ord_inj.
  have h : v 0 0 != 0 \/ v 0 1 != 0.
    case: (eqVneq (v 0 0) 0) => a0; last by left.
    case: (eqVneq (v 0 1) 0) => a1; last by right.
    case/eqP: v0; apply/matrixP => i j; rewrite (ord1 i) mxE; case: j => [[|[|//]] hj]; [rewrite -[RHS]a0|rewrite -[RHS]a1]; congr (v 0 _); exact: ord_inj.
  set a := v _ _; set b := v _ _.
  have -> : (a * 1 + b * 1) * a + (a * 1 + b * 2%:R) * b = (a + b) ^+ 2 + b ^+ 2 by ring.
  case: (eqVneq b 0) h => [b0|b0] h.
    rewrite b0 expr0n /= !addr0 exprn_even_gt0 //=; case: h => //; by rewrite -/b b0 eqxx.
  by apply: ltr_paddl; rewrite ?sqr_ge0 // exprn_even_gt0.
have [_ h _ _] := C46_blocks_partial e; rewrite h mxE /mget !insubT /= => *.
by rewrite !mxE.
Qed.

(** * A concrete controller
    x' = u on R, with the constraint -1 <= u <= 1 on the input, K = 1 and a horizon of one second.  The solver returns the
    zero vector. *)
Definition zsol : msol Q := Msol Optimal (fun=> 0) (fun=> 0).
Definition ex_f (t : Q) (x u : 'cV[Q]_1) (k : nat) : Q := vget u k.
Definition ex_df (t : Q) (x u : 'cV[Q]_1) (k c : nat) : Q := (c == 1 + k)%N%:R.
Definition ex_solve (s : unit) (p : qpst Q) (g : option (msol Q)) : unit * msol Q := (tt, zsol).
Section Instance.
Variable ct : bool.
Definition ex_new := mpc_new 1 (fun a b : Q => a + b) 0 1 ex_lgr ex_f ex_df ct ex_f ex_df (fun=> -1) (fun=> 1) (fun=> tt).
Definition ex_call := mpc_call 1 (fun a b : Q => a + b) 0 1 ex_lgr ex_f ex_df ct ex_f ex_df (fun=> -1) (fun=> 1) ex_solve.
Definition ex_run := mpc_run 1 (fun a b : Q => a + b) (fun a b => a - b) 0 1 ex_lgr ex_f ex_df ct ex_f ex_df (fun=> -1) (fun=> 1) ex_solve.
Definition ex_q : params Q := Params 1 1 true.
Definition ex_m : mesh Q := [:: (1%N, 0)].
Lemma ex_newE : exists co, ex_new ex_q = Some co /\ msh co.2 = ex_m.
Proof. by rewrite /ex_new /mpc_new /=; eexists; split; first by []. Qed.
Lemma ex_hN : (\sum_(i < size ex_m) N_colloc_ival ex_m i < uint_mod)%N.
Proof.
rewrite (_ : (\sum_(i < size ex_m) N_colloc_ival ex_m i)%N = 1%N); last by rewrite !big_ord_recl big_ord0.
by rewrite -[1%N]/(2 ^ 0)%N; rewrite ltn_exp2l.
Qed.
Lemma ex_N : N_colloc ex_m = 1%N.
Proof. by have [_ h _] := C26_N_colloc_partial ex_m; rewrite h ?ex_hN // !big_ord_recl big_ord0. Qed.
Lemma ex_K K : (1 <= K <= 2)%N -> lgr_contract K (ex_lgr K).
Proof. exact: ex_lgr_contract. Qed.
Lemma ex_input : cr_input 1 ex_f ex_df.
Proof.
split=> //; split=> // t x u k b; rewrite ltnS leqn0 => /eqP ->; split=> //.
  by rewrite ltnS leqn0 => /eqP ->.
Qed.
End Instance.
Local Transparent all_weights all_nodes.
Lemma ex_ws : all_weights 1 1 ex_lgr ex_m = [:: 1; 0]. Proof. by apply/eqP. Qed.
Lemma ex_ns : all_nodes 1 1 ex_lgr ex_m = [:: 0; 1]. Proof. by apply/eqP. Qed.
Local Opaque all_weights all_nodes.
Lemma quad1 (M : 'M[Q]_1) v : quad M v = M 0 0 * v 0%N * v 0%N. Proof. by rewrite /quad big_ord1 big_ord1. Qed.
Lemma ex_cost ct co ops t x z : ex_new ct ex_q = Some co -> msh co.2 = ex_m ->
  qp_cost 3 (o_qp (ex_call ct t x (ex_run ct ops co).1).2) z = 2%:R^-1 * (z 0%N ^+ 2 + z 2%N ^+ 2) + 4%:R^-1 * z 0%N ^+ 2.
Proof.
move=> e em; have h := @C46_cost_partial Q 1 1 1 Q (fun a b => a + b) (fun a b => a - b) 0 1 ex_lgr ex_f ex_df ct ex_f ex_df (fun=> -1) (fun=> 1) unit (fun=> tt) ex_solve isT ex_q co e.
have := h; rewrite em => /(_ ex_hN ops t x z); rewrite ex_N /ex_call /ex_run => ->.
rewrite /running_cost ex_N ex_ws big_ord1 /= !quad1 !mxE /= /dx_of /du_of ex_N /= !mul1n !addn0 addn1; move: (z 0%N) (z 2%N) (2%:R^-1) (4%:R^-1) => *; ring.
Qed.
Lemma ex_mpc_cost (w : weights Q 1 1) z : mpc_cost ex_m (all_weights 1 1 ex_lgr ex_m) w 1 z =
  2%:R^-1 * (wQ w 0 0 * z 0%N ^+ 2 + wR w 0 0 * z 2%N ^+ 2) + 2%:R^-1 * (wQtf w 0 0 * z 1%N ^+ 2).
Proof.
rewrite /mpc_cost /running_cost ex_N ex_ws big_ord1 /= !quad1 /= /dx_of /du_of ex_N /= !mul1n !addn0 addn1; move: (z 0%N) (z 1%N) (z 2%N) (2%:R^-1) => *; ring.
Qed.

(** * C45 *)
(** After set_weights with R = 2 the cost of a change of the input is still that of R = 1. *)
Theorem C45_weights_refuted : exists co (w : weights Q 1 1) z z',
  [/\ ex_new true ex_q = Some co, forall k, (k < 2)%N -> z k = z' k &
      let c := qp_cost 3 (o_qp (ex_call true 0 0 (ex_run true [:: SetWeights _ w] co).1).2) in
      let d := mpc_cost ex_m (all_weights 1 1 ex_lgr ex_m) w 1 in
      c z - c z' <> d z - d z'].
Proof.
have [co [e em]] := ex_newE true; exists co, (Weights 1%:M 1%:M 2%:R%:M), (fun k => (k == 2)%N%:R), (fun=> 0).
split=> //; first by case=> [|[|k]].
by move=> c d; rewrite /c /d !(ex_cost _ _ _ _ e em) !ex_mpc_cost /= !mxE /=; apply/eqP.
Qed.
Example C45_case co w t x : ex_new true ex_q = Some co ->
  (ex_run true [:: SetWeights _ w; Call 1 t x] co).2 = (ex_run true [:: Call 1 t x] co).2.
Proof. by move=> _; rewrite /ex_run C45_ignored. Qed.
Example C46_case : exists gh, int_hess (2%:R%:M : 'M[Q]_1) (3%:R%:M : 'M[Q]_1) empty = Some gh /\ val gh 1 1 = 2%:R /\ val gh 2 2 = 3%:R.
Proof.
move e : (int_hess _ _ _) => [gh|//]; exists gh; split=> //.
by have [/(_ 0 0) /= -> /(_ 0 0) /= -> _ _] := C46_blocks_partial e; rewrite /mget !insubT /= => *; rewrite !mxE.
Qed.
Example C46_cost_case co t x z : ex_new true ex_q = Some co -> msh co.2 = ex_m ->
  qp_cost 3 (o_qp (ex_call true t x co).2) z = 2%:R^-1 * (z 0%N ^+ 2 + z 2%N ^+ 2) + 4%:R^-1 * z 0%N ^+ 2.
Proof. by move=> e em; rewrite -(ex_cost [::] t x z e em). Qed.
Example C46_more_inputs_case : int_hess (1%:M : 'M[Q]_1) (1%:M : 'M[Q]_2) empty = None.
Proof. exact: C46_more_inputs. Qed.
(** * C47: the final state *)
Theorem C47_final_weight_refuted : exists co z z',
  [/\ ex_new true ex_q = Some co, forall k : nat, k != 1%N -> z k = z' k,
      qp_cost 3 (o_qp (ex_call true 0 0 co).2) z = qp_cost 3 (o_qp (ex_call true 0 0 co).2) z' &
      let d := mpc_cost ex_m (all_weights 1 1 ex_lgr ex_m) (weights_default : weights Q 1 1) 1 in d z' < d z].
Proof.
have [co [e em]] := ex_newE true; exists co, (fun k => (k == 1)%N%:R), (fun=> 0).
split=> //; first by move=> k /negbTE ->.
  by rewrite !(ex_cost [::] _ _ _ e em).
by move=> d; rewrite /d !ex_mpc_cost /= !mxE.
Qed.
Example C47_case co t x z : ex_new true ex_q = Some co -> msh co.2 = ex_m -> 
  qp_cost 3 (o_qp (ex_call true t x co).2) z = qp_cost 3 (o_qp (ex_call true t x co).2) (fun k => if k == 1%N then 7%:R else z k).
Proof.
move=> e em; have h := @C47_final_free Q 1 1 1 Q (fun a b => a + b) (fun a b => a - b) 0 1 ex_lgr ex_f ex_df true ex_f ex_df (fun=> -1) (fun=> 1) unit (fun=> tt) ex_solve isT ex_q co e.
have := h; rewrite em => /(_ ex_hN [::] t x z (fun k => if k == 1%N then 7%:R else z k)); rewrite ex_N; apply=> k hk; rewrite /inr.
by case: k hk => [|[|[|k]]].
Qed.
(** * C48 and C74 *)
Local Notation rowq s z r := (row_holds 1 1 ex_m s z r).
Local Transparent all_nodes.
Lemma ex_D : mget (interval_diffmat ex_lgr ex_m 0) 0 0 = -1 /\ mget (interval_diffmat ex_lgr ex_m 0) 1 0 = 1.
Proof.
have rm : reachable 1 1 ex_kinc ex_m by exists (Some (mesh_default Q 1)), [::]; split=> //; left.
have [_ h] := C22_diffmat_intmat ex_K isT isT rm (isT : (0 < size ex_m)%N).
have n0 : interval_nodes 1 1 ex_lgr ex_m 0 = [:: 0; 1] by apply/eqP.
have k1 : (size (1%:P : {poly Q}) <= 2)%N by rewrite size_polyC oner_eq0.
have k2 : (size ('X : {poly Q}) <= 2)%N by rewrite size_polyX.
have [/(congr1 (fun M : 'rV_1 => M 0 0)) e1 _] := h _ k1; have [/(congr1 (fun M : 'rV_1 => M 0 0)) e2 _] := h 'X k2.
move: e1 e2; rewrite !mxE n0 !big_ord_recl !big_ord0 !mxE /= derivX derivC !hornerE /= => e1 e2.
rewrite /mget !insubT /= => *; rewrite !mxE /= subr0 divr1.
split; last exact: e2.
by move: e1; rewrite e2 => /eqP; rewrite addr_eq0 => /eqP.
Qed.
Local Opaque all_nodes.
Lemma ex_rows ct co ops t x z : ex_new ct ex_q = Some co -> msh co.2 = ex_m -> let s := o_qp (ex_call ct t x (ex_run ct ops co).1).2 in
  let xd := cur_xdes (fun a b : Q => a - b) ops in let dxd := cur_dxdes (fun a b : Q => a - b) ops in
  let ud := cur_udes (fun a b : Q => a - b) ops in
  [/\ rowq s z 0%N <-> z 1%N - z 0%N = vget (ud t) 0 - vget (dxd t) 0 + z 2%N,
      rowq s z 1%N <-> - 1 <= (if ct then vget (ud t) 0 else 0) + z 2%N <= 1 &
      rowq s z 2%N <-> vget (xd t) 0 + z 0%N = vget x 0].
Proof.
move=> e em s xd dxd ud.
have H1 := @C74_initial Q 1 1 1 Q (fun a b => a + b) (fun a b => a - b) 0 1 ex_lgr ex_f ex_df ct ex_f ex_df (fun=> -1) (fun=> 1) unit (fun=> tt) ex_solve isT ex_q co e.
have := H1; rewrite em => /(_ ex_hN ops t x z) {H1}; rewrite ex_N => H1.
have H2 := @C74_dynamics Q 1 1 1 Q (fun a b => a + b) (fun a b => a - b) 0 1 ex_lgr ex_f ex_df ct ex_f ex_df (fun=> -1) (fun=> 1) unit (fun=> tt) ex_solve isT ex_q co e.
have := H2; rewrite em => /(_ ex_hN ops t x z ex_K) {H2}; rewrite ex_N => H2.
have [D0 D1] := ex_D.
have nt : time 1 1 ex_lgr ex_m (ptf ex_q) 0 = 0 by rewrite /time ex_ns mulr0.
have T0 (k : nat) : ((k < 1)%N -> k = 0%N) by case: k.
split.
- have E : ((\sum_(a < (N_colloc_ival ex_m 0).+1) dx_of 1 z (N_before ex_m 0 + a) 0 * mget (interval_diffmat ex_lgr ex_m 0) a 0) = z 1%N - z 0%N).
    rewrite big_ord_recl big_ord1 /= D0 D1 /dx_of mulrN1 mulr1 addrC; congr (z _ - z _).
  have -> : rowq s z 0%N <-> (forall r, (r < 1 * 1)%N -> rowq s z r).
    by split=> [h r|]; [rewrite mul1n => /T0 ->|apply].
  rewrite H2; split=> [h|h I j k /T0 -> /T0 -> /T0 ->].
    have := h 0%N 0%N 0%N isT isT isT; rewrite E /= nt addr0 !big_ord1 /ex_f /ex_df /= /dx_of /du_of ex_N /= => ->.
    by rewrite mul1r mul1r mul0r addr0.
  by rewrite E h /= nt addr0 !big_ord1 /ex_f /ex_df /= /dx_of /du_of ex_N /= mul1r mul1r mul0r addr0.
- have -> : rowq s z 1%N <-> (forall r, (1 * 1 <= r < 1 * 1 + 1 * 1)%N -> rowq s z r).
    split=> [h r|]; last by apply.
    by rewrite mul1n => hr; have -> : r = 1%N by clear -hr; lia.
  have [c|c] : ct \/ ~~ ct by case: (ct); [left|right].
    have H3 := @C48_rows_time Q 1 1 1 Q (fun a b => a + b) (fun a b => a - b) 0 1 ex_lgr ex_f ex_df ct ex_f ex_df (fun=> -1) (fun=> 1) unit (fun=> tt) ex_solve isT ex_q co e.
    have := H3; rewrite em => /(_ ex_hN ops t x z c) {H3}; rewrite /cr_rows_hold em ex_N => ->; rewrite c.
    split=> [/(_ 0%N 0%N isT isT)|h i k /T0 -> /T0 ->]; rewrite nt addr0 !big_ord1 /ex_f /ex_df /= /du_of ex_N mul0r addr0 mul1r; exact.
  have H3 := @C48_rows_constant Q 1 1 1 Q (fun a b => a + b) (fun a b => a - b) 0 1 ex_lgr ex_f ex_df ct ex_f ex_df (fun=> -1) (fun=> 1) unit (fun=> tt) ex_solve isT ex_q co e.
  have := H3; rewrite em => /(_ ex_hN ops t x z c) {H3}; rewrite /cr_rows_hold em ex_N => ->; rewrite (ifN _ _ c).
  split=> [/(_ 0%N 0%N isT isT)|h i k /T0 -> /T0 ->]; rewrite !big_ord1 /ex_f /ex_df /= /du_of ex_N mul0r addr0 mul1r (vgetE _ (isT : (0 < 1)%N)) mxE; exact.
have -> : rowq s z 2%N <-> (forall r, (1 * 1 + 1 * 1 <= r < 1 * 1 + 1 * 1 + 1)%N -> rowq s z r).
  split=> [h r|]; last by apply.
  by rewrite mul1n => hr; have -> : r = 2%N by clear -hr; lia.
rewrite H1; split=> [/(_ 0%N isT)|h k /T0 ->]; rewrite addr0; exact.
Qed.
Definition ops10 : seq (mop Q 1 1 Q) := [:: SetUdes _ (fun=> 10%:R%:M); SetXdes _ (fun t => (10%:R * t)%:M) (fun=> 10%:R%:M)].
(** The constraint -1 <= u <= 1 is given by a functor without set_time, and the solution of the program is feasible and
    optimal; the input that is returned is 10. *)
Theorem C48_input_bounds_refuted : exists co, let out := (ex_call false 0 0 (ex_run false ops10 co).1).2 in
  [/\ ex_new false ex_q = Some co, cr_input 1 ex_f ex_df, forall r, (r < 3)%N -> rowq (o_qp out) (mprimal (o_sol out)) r,
      forall z, qp_cost 3 (o_qp out) (mprimal (o_sol out)) <= qp_cost 3 (o_qp out) z &
      ~~ (-1 <= vget (o_u out) 0 <= 1)].
Proof.
have [co [e em]] := ex_newE false; exists co => out; split=> //; first exact: ex_input.
- have [r0 r1 r2] := ex_rows ops10 0 0 (mprimal (o_sol out)) e em.
  have so : mprimal (o_sol out) = fun=> 0 by [].
  move=> [|[|[|r]]] // _; [apply/r0|apply/r1|apply/r2]; rewrite so /= ?(vgetE _ (isT : (0 < 1)%N)) ?mxE //.
- move=> z; rewrite !(ex_cost ops10 0 0 _ e em) /=.
  by rewrite addr_ge0 // mulr_ge0 ?addr_ge0 ?sqr_ge0.
have := @C50_trajectories Q 1 1 1 Q (fun a b => a + b) (fun a b => a - b) 0 1 ex_lgr ex_f ex_df false ex_f ex_df (fun=> -1) (fun=> 1) unit (fun=> tt) ex_solve isT ex_K ex_q co ops10 0 0 e.
rewrite run_msh em; cbv zeta => /(_ ex_hN) [_ _ u0 _ [h _]].
have E : o_u out 0 0 = 10%:R.
  rewrite -[o_u out]u0 h; last by rewrite !big_ord_recl big_ord0.
  by rewrite ex_ns [cur_udes _ _]/= mxE mulr1n [mprimal _ _]/= addr0.
by rewrite (vgetE _ (isT : (0 < 1)%N)) (_ : Ordinal _ = 0) ?E //; apply: ord_inj.
Qed.
Example C48_time_case co : ex_new true ex_q = Some co -> msh co.2 = ex_m -> let out := (ex_call true 0 0 co).2 in
  cr_feasible 1 (fun a b : Q => a + b) (fun a b => a - b) 0 1 ex_lgr ex_f ex_df true ex_f ex_df (fun=> -1) (fun=> 1) ex_solve co [::] 0 0 /\
  -1 <= vget (o_u out) 0 <= 1.
Proof.
move=> e em out.
have fe : cr_feasible 1 (fun a b : Q => a + b) (fun a b => a - b) 0 1 ex_lgr ex_f ex_df true ex_f ex_df (fun=> -1) (fun=> 1) ex_solve co [::] 0 0.
  rewrite /cr_feasible em ex_N => r hr; have -> : r = 1%N by clear -hr; lia.
  have [_ r1 _] := ex_rows [::] 0 0 (mprimal (o_sol out)) e em; apply/r1.
  by rewrite /= ?(vgetE _ (isT : (0 < 1)%N)) ?mxE.
split=> //.
have h := @C48_input_partial Q 1 1 1 Q (fun a b => a + b) (fun a b => a - b) 0 1 ex_lgr ex_f ex_df true ex_f ex_df (fun=> -1) (fun=> 1) unit (fun=> tt) ex_solve isT ex_q co e.
by have := h; rewrite em => /(_ ex_hN ex_K [::] 0 0 0%N isT ex_input fe isT).
Qed.
(** A call with x = 1: the program has a feasible point, and every feasible point starts at 1 and moves by the input. *)
Example C74_case co z : ex_new true ex_q = Some co -> msh co.2 = ex_m -> let s := o_qp (ex_call true 0 1 co).2 in
  (forall r, (r < 3)%N -> rowq s z r) <-> [/\ z 0%N = 1, z 1%N = 1 + z 2%N & -1 <= z 2%N <= 1].
Proof.
move=> e em s; have [r0 r1 r2] := ex_rows [::] 0 1 z e em.
have v0 : vget (0 : 'cV[Q]_1) 0 = 0 by rewrite (vgetE _ (isT : (0 < 1)%N)) mxE.
have v1 : vget (1 : 'cV[Q]_1) 0 = 1 by rewrite (vgetE _ (isT : (0 < 1)%N)) mxE.
move: r0 r1 r2; rewrite /= !v0 v1 subr0 !add0r => r0 r1 r2; split=> [h|[h1 h2 h3] [|[|[|r]]] // _].
- have h2 := r2.1 (h 2%N isT); have h0 := r0.1 (h 0%N isT); split=> //; last exact: r1.1 (h 1%N isT).
  by rewrite -h0 h2 addrC subrK.
- by apply/r0; rewrite h1 h2 addrC addKr.
- exact/r1.
exact/r2.
Qed.
