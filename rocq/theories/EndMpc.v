(** The MPC controller together with the QP solver it uses (C86). *)
From mathcomp Require Import all_ssreflect all_algebra zify.
From mathcomp.algebra_tactics Require Import ring.
From Verif Require Import LinAlg QpModel QpSpec QpFacts QpAdmm QpLoop QpProps MeshModel MeshSpec PolyFacts MeshFacts MeshQuad MeshEval MeshProps.
From Verif Require Import SparseModel SparseFacts MeshFunModel MeshFunFacts MeshFunLoops MeshFunDyn MeshFunProps MeshFunTraj NlpModel NlpFacts NlpProps NlpSol.
From Verif Require Import OqpModel OqpFacts OqpProps OqpCost MpcModel MpcHist MpcCost MpcRows EndQp EndAsif.
From Verif Require AsifThms.
Set Implicit Arguments.
Unset Strict Implicit.
Unset Printing Implicit Defensive.
Import Order.TTheory GRing.Theory Num.Theory.
Local Open Scope ring_scope.
Local Arguments muln : simpl never.
Local Arguments bexec : simpl never.
Local Arguments interval_diffmat_unscaled : simpl never.
Local Arguments interval_diffmat : simpl never.

(** * The rows of a program made from an optimal control problem, up to a tolerance *)
Section Near.
Variable F : realFieldType.
Variables Nx Nu Ncr Nce : nat.
Variables (Kmin Kmax : nat) (lgr : nat -> seq F * seq F) (kinc : nat -> F -> F -> nat) (m : mesh F).
Hypotheses (k0 : (0 < Kmin)%N) (km : (Kmin <= Kmax)%N).
Hypothesis rm : reachable Kmin Kmax kinc m.
Hypothesis hN : (\sum_(i < size m) N_colloc_ival m i < uint_mod)%N.
Local Notation N := (N_colloc m).
Local Notation K := (N_colloc_ival m).
Local Notation ocp := (ocp F Nx Nu 1 Ncr Nce).
Local Notation nv := (Nx * (N + 1) + Nu * N)%N.
Local Notation tm tf i := (time Kmin Kmax lgr m tf i).
Local Notation upd p tf xl dxl ul := (@oqp_update F Nx Nu Ncr Nce p Kmin Kmax lgr m tf xl dxl ul).
(** Row r of l <= A z <= u up to t. *)
Definition nrow (s : qpst F) (z : nat -> F) (r : nat) (t : F) : bool :=
  row_near (ol s r) (ou s r) (\sum_(c < nv) val (oA s) r c * z c) t.
Lemma near_sub (l u : ext F) x y t : row_near (ext_sub l x) (ext_sub u x) y t = row_near l u (x + y) t.
Proof using Type.
rewrite /row_near; congr andb; [case: l => //= a|case: u => //= a].
  by rewrite addrAC ler_subl_addl.
by rewrite addrAC ler_subr_addl.
Qed.
Lemma near_eq (v x t : F) : row_near (Fin v) (Fin v) x t = (`|x - v| <= t).
Proof using Type. by rewrite /row_near /= ler_norml [x - v <= _]ler_subl_addl; congr andb; rewrite ler_subr_addr addrC. Qed.

Lemma running_near p tf xl dxl ul s z i k t : inv_cr Nx Nu Ncr m s -> (i < N)%N -> (k < Ncr)%N ->
  let y := txu (tm tf i) (xl (tm tf i)) (ul (tm tf i)) in
  nrow (upd p tf xl dxl ul s) z (Nx * N + (Ncr * i + k)) t =
  row_near (crl p k) (cru p k) (crv p y k + \sum_(b < Nx) val (dcr p y) k (1 + b) * dx_of Nx z i b +
                                            \sum_(b < Nu) val (dcr p y) k (1 + Nx + b) * du_of Nx Nu m z i b) t.
Proof.
move=> inv hi hk y; have hr := blk_lt hi hk.
rewrite /nrow; under eq_bigr => c _ do rewrite (cr_val lgr k0 km hN _ _ _ _ _ inv hr (ltn_ord c)) ref_evalJ // mulrDl.
have [_ -> ->] := cr_row lgr k0 km hN p tf xl dxl ul s 0 hr; rewrite big_split /= refE -/y.
rewrite (sum_in (fun b => val (dcr p y) k (1 + b))) ?(sum_in (fun b => val (dcr p y) k (1 + Nx + b))); last 2 first.
- by rewrite -addnA leq_add2l -mulnSr leq_mul2l hi orbT.
- by apply: leq_trans (leq_addr _ _); rewrite -mulnSr leq_mul2l addn1 ltnS ltnW ?orbT.
by rewrite near_sub ref_evalF // refE -/y (mulnC Ncr) modnMDl modn_small // addrA.
Qed.
Lemma end_near p tf xl dxl ul s z j t : covered m p tf xl s -> (j < Nce)%N -> let e := end_ref tf xl 1 in
  nrow (upd p tf xl dxl ul s) z (Nx * N + Ncr * N + j) t =
    row_near (cel p j) (ceu p j) (cev p e j + \sum_(b < Nx) val (dce p e) j (1 + b) * dx_of Nx z 0 b +
                                              \sum_(b < Nx) val (dce p e) j (1 + Nx + b) * dx_of Nx z N b) t.
Proof.
move=> cov hj e; rewrite /nrow; have N0 : (0 < N)%N := N0 k0 km rm hN.
under eq_bigr => c _ do rewrite (ce_val lgr k0 km rm hN _ _ _ cov hj) mulrDl.
have [_ -> ->] := ce_row lgr k0 km hN p tf xl dxl ul s 0 hj N0; rewrite big_split /= -/e.
rewrite (sum_in (fun b => val (dce p e) j (1 + b))) ?(sum_in (fun b => val (dce p e) j (1 + Nx + b))); last 2 first.
- by apply: leq_trans (leq_addr _ _); rewrite -mulnSr leq_mul2l addn1 leqnn orbT.
- by apply: leq_trans (leq_addr _ _); rewrite add0n leq_pmulr // addn1.
by rewrite near_sub addrA /dx_of muln0.
Qed.
Hypothesis Hl : forall K, (Kmin <= K <= Kmax.+1)%N -> lgr_contract K (lgr K).
Lemma dyn_near p tf xl dxl ul s z I j k t : (I < size m)%N -> (j < K I)%N -> (k < Nx)%N ->
  nrow (upd p tf xl dxl ul s) z (Nx * (N_before m I + j) + k) t =
  (`| \sum_(a < (K I).+1) dx_of Nx z (N_before m I + a) k * mget (interval_diffmat lgr m I) a j -
      tf * lin_dyn Nx Nu Kmin Kmax lgr m true (fun _ _ _ => 0) (fun t x u => dynv p (txu t x u)) (fun t x u => ddyn p (txu t x u)) xl dxl ul tf
             (N_before m I + j) k (dx_of Nx z (N_before m I + j)) (du_of Nx Nu m z (N_before m I + j)) | <= t).
Proof.
move=> hI hj hk.
have hr : (Nx * (N_before m I + j) + k < Nx * N)%N.
  by apply: blk_lt => //; exact: (row_n k0 km rm hN hI hj).
rewrite /nrow.
have D c := upd_dyn_rows p Kmin Kmax lgr tf xl dxl ul s c hr.
rewrite (eq_bigr (fun c : 'I_nv => val (oA (s_dyn p Kmin Kmax lgr m tf xl dxl ul s)) (Nx * (N_before m I + j) + k) c * z c)) => [|c _]; last first.
  by rewrite /val; have [-> _ _] := D c.
have [_ -> ->] := D 0%N.
rewrite /s_dyn (row_sum Nu k0 km Hl rm hN) //.
have [_ e1 e2] := dyn_rowE Nu lgr k0 km hN true (fun _ _ _ => 0) (fun t x u => dynv p (txu t x u)) (fun t x u => ddyn p (txu t x u)) xl dxl ul tf (s_cost p Kmin Kmax lgr m tf xl ul s) 0%N hI hj hk.
move: e1 e2; rewrite !(nbE (ltnW hI)) => -> ->.
rewrite add0r subr0 -(node_glue k0 km Hl rm hN hI (ltnW hj)) -/(tm _ _) near_eq -normrN; congr (`|_| <= t).
move: (dynv _ _ k) (dxl _ k) => f0 d0; move: (lin_dyn _ _ _ _ _ _ _ _ _ _ _ _ _ _ _ _ _) (\sum_(a < _) _) => L S; ring.
Qed.
End Near.

(** * The solver of the controller *)
Section Glue.
Variables (F : realFieldType) (n m : nat).
(** qp_ as an argument of QPSolver::solve, mpc.hpp:491; its sizes are those of ocp_to_qp.hpp:48-58. *)
Definition sqp_of (s : qpst F) : sqp F n m := Sqp (fun i j => oP s i j) (\col_i oq s i) (fun i j => oA s i j) (fun i => ol s i) (fun i => ou s i).
(** QPSolver(prm_.qp) and analyze(qp_), mpc.hpp:420 and 424. *)
Definition mpc_analyze (s : qpst F) : obj F n m := QpModel.analyze (@obj_new F n m).
(** qp_solver_.solve(qp_, warmstart_), mpc.hpp:491.  A call that does not return within [fuel] iterations, or that uses a
    symbolic factorization of another pattern, is given the code Unknown and leaves the object unchanged. *)
Definition mpc_solve (e : env F n m) (prm : QpModel.params F) (fuel : nat) (o : obj F n m) (s : qpst F) (w : option (msol F)) : obj F n m * msol F :=
  if solve_sparse e prm fuel o (sqp_of s) (omap (@guess_of F n m) w) is Some (r, o') then (o', msol_of r) else (o, Msol Unknown (fun=> 0) (fun=> 0)).
Lemma mpc_optimal e prm fuel o s w : mcode (mpc_solve e prm fuel o s w).2 = Optimal ->
  exists r o', [/\ solve_sparse e prm fuel o (sqp_of s) (omap (@guess_of F n m) w) = Some (r, o'), code r = Optimal & mpc_solve e prm fuel o s w = (o', msol_of r)].
Proof. by rewrite /mpc_solve; case es : solve_sparse => [[r o']|//] /= hc; exists r, o'. Qed.
Lemma mpc_reach e prm fuel o s w : reach_s e prm o -> reach_s e prm (mpc_solve e prm fuel o s w).1.
Proof. by move=> ro; rewrite /mpc_solve; case es : solve_sparse => [[r o']|//] /=; exact: rs_solve ro es. Qed.
End Glue.

Section Mpc.
Variable F : realFieldType.
Variables Nx Nu Ncr : nat.
Local Notation X := 'cV[F]_Nx.
Local Notation U := 'cV[F]_Nu.
Variables (Tm : Type) (tplus : Tm -> F -> Tm) (tminus : Tm -> Tm -> F) (tzero : Tm).
Variables (Kmesh : nat) (lgr : nat -> seq F * seq F).
Variables (f : Tm -> X -> U -> nat -> F) (df : Tm -> X -> U -> nat -> nat -> F).
Variables (cr_time : bool) (cr : Tm -> X -> U -> nat -> F) (dcr : Tm -> X -> U -> nat -> nat -> F).
Variables (crl cru : nat -> F).
(** The number of variables and of rows, the parameters of the solver and its environment. *)
Variables (n mm : nat) (e : env F n mm) (qprm : QpModel.params F) (qfuel : nat).
Local Notation S := (obj F n mm).
Local Notation analyze := (@mpc_analyze F n mm).
Local Notation solve := (mpc_solve e qprm qfuel).
Local Notation mobj := (mobj F Nx Nu Tm S).
Local Notation cell := (cell F Nx Nu Tm).
Local Notation mop := (mop F Nx Nu Tm).
Local Notation mocp := (mpc_ocp Ncr tplus tzero f df cr_time cr dcr crl cru).
Local Notation new := (mpc_new Ncr tplus tzero Kmesh lgr f df cr_time cr dcr crl cru analyze).
Local Notation call := (mpc_call Ncr tplus tzero Kmesh lgr f df cr_time cr dcr crl cru solve).
Local Notation run := (mpc_run Ncr tplus tminus tzero Kmesh lgr f df cr_time cr dcr crl cru solve).
Implicit Types (ops : seq mop).
Hypothesis K0 : (0 < Kmesh)%N.
Variables (q : params F) (co : cell * mobj).
Hypothesis co_new : new q = Some co.
Local Notation m := (msh co.2).
Local Notation N := (N_colloc m).
Local Notation nv := (Nx * (N + 1) + Nu * N)%N.
Hypothesis hN : (\sum_(i < size m) N_colloc_ival m i < uint_mod)%N.
Hypothesis en : n = nv.
Hypothesis em : mm = (Nx * N + Ncr * N + Nx)%N.
Hypothesis Hl : forall K, (Kmesh <= K <= Kmesh.+1)%N -> lgr_contract K (lgr K).
Local Notation tf := (ptf q).
Let rm : reachable Kmesh Kmesh (fun _ _ _ => 0%N) m := new_reach _ co_new.
Local Notation out ops t x := (call t x (run ops co).1).2.
Local Notation tm i := (time Kmesh Kmesh lgr m tf i).
Local Notation xd ops := (cur_xdes tminus ops).
Local Notation dxd ops := (cur_dxdes tminus ops).
Local Notation ud ops := (cur_udes tminus ops).
Local Notation zsol ops t x := (mprimal (o_sol (out ops t x))).
Local Notation nr ops t x r T := (nrow Nx Nu m (o_qp (out ops t x)) (zsol ops t x) r T).

Lemma slv_run ops : reach_s e qprm (slv (run ops co).1.2).
Proof.
have G co' : reach_s e qprm (slv co'.2) -> reach_s e qprm (slv (run ops co').1.2); last first.
  apply: G; move: co_new; rewrite /mpc_new; case: mesh_new => [m'|//]; case: int_hess => [gh|//] [<-] /=.
  exact: rs_analyze (rs_new _ _).
elim: ops co' => [//|op ops IH] [c o] io; rewrite run_cons; apply: IH.
by case: op => // t x; exact: mpc_reach.
Qed.
(** The values of the rows at the returned point and the tolerance they imply. *)
Definition mrows ops t x : 'cV[F]_mm := \col_r \sum_(c < nv) val (oA (o_qp (out ops t x))) r c * zsol ops t x c.
Definition mtol ops t x : F := row_tol qprm (linf (mrows ops t x)).
Hypotheses (hs : good_sqrt e) (r0 : 0 < rho_bar qprm) (pf : polish qprm = false) (er : 0 <= eps_rel qprm < 1).
Lemma all_near ops t x r : o_code (out ops t x) = Optimal -> (r < Nx * N + Ncr * N + Nx)%N -> nr ops t x r (mtol ops t x).
Proof.
move=> hc hr; have ro := slv_run ops.
set s := o_qp (out ops t x).
have [r1 [o' [h1 h2 h3]]] : exists r1 o', [/\ solve_sparse e qprm qfuel (slv (run ops co).1.2) (sqp_of n mm s) (omap (@guess_of F n mm) (o_guess (out ops t x))) = Some (r1, o'),
    code r1 = Optimal & o_sol (out ops t x) = msol_of r1].
  by have [r1 [o' [h1 h2 h3]]] := mpc_optimal hc; exists r1, o'; split; [exact: h1|exact: h2|rewrite /= h3].
have E (i : 'I_mm) : (qA (dense_of (sqp_of n mm s)) *m primal r1) i 0 = \sum_(c < nv) val (oA s) i c * zsol ops t x c.
  rewrite mxE -(big_mkord xpredT (fun c => val (oA s) i c * zsol ops t x c)) -en big_mkord; apply: eq_bigr => c _.
  by rewrite h3 /= AsifThms.vgetO mxE.
have hr' : (r < mm)%N by rewrite em.
have := C82_rows_sparse hs r0 pf er ro h1 h2 (Ordinal hr'); rewrite E.
have -> : qA (dense_of (sqp_of n mm s)) *m primal r1 = mrows ops t x by apply/matrixP => i j; rewrite (ord1 j) E [in RHS]mxE.
by [].
Qed.
Lemma nrows_eq s s' z r T : (forall k, [/\ oA s r k = oA s' r k, ol s r = ol s' r & ou s r = ou s' r]) ->
  nrow Nx Nu m s z r T = nrow Nx Nu m s' z r T.
Proof using Type.
move=> h; have [_ e1 e2] := h 0%N; rewrite /nrow e1 e2; congr row_near; apply: eq_bigr => c _.
by rewrite /val; have [-> _ _] := h c.
Qed.
Local Notation xr c := (xdes_rel tplus c).
Local Notation dxr c := (dxdes_rel tplus c).
Local Notation ur c := (udes_rel tplus c).
Local Notation at_time t c := (Cell t (xdes c) (dxdes c) t (udes c)).
Local Notation cupd t x c o := (oqp_update (mocp (wts o) empty t t x) Kmesh Kmesh lgr m tf (xr (at_time t c)) (dxr (at_time t c)) (ur (at_time t c)) (mqp o)).
Lemma xsol ops t x i k : (i <= N)%N -> (k < Nx)%N ->
  vget (nth 0 (o_xs (out ops t x)) i) k = vget (xd ops (tplus t (tm i))) k + dx_of Nx (zsol ops t x) i k.
Proof using K0 Hl co_new hN.
move=> hi hk; have em' : msh (run ops co).1.2 = m by rewrite run_msh.
have EN : N = (\sum_(i < size m) N_colloc_ival m i)%N by have [_ h _] := C26_N_colloc_partial m; rewrite h.
have := C50_trajectories (solve := solve) (tminus := tminus) (ops := ops) K0 Hl t x co_new; rewrite em' => /(_ hN) [_ _ _ _ [_ h]].
by rewrite !(vgetE _ hk) h // -EN.
Qed.
Local Notation usol := (out_u tminus solve K0 co_new hN Hl).
Lemma ival_le I : (I < size m)%N -> (N_before m I + N_colloc_ival m I <= N)%N.
Proof using hN.
have EN : N = nb (N_colloc_ival m) (size m) by have [_ h _] := C26_N_colloc_partial m; rewrite h.
by move=> hI; rewrite -nbE ?(ltnW hI) // EN; have := nb_le (N_colloc_ival m) hI; rewrite nbS.
Qed.
(** The initial state of the returned trajectory is the state that was passed. *)
Theorem C86_initial ops t x k : o_code (out ops t x) = Optimal -> (k < Nx)%N ->
  `|vget (nth 0 (o_xs (out ops t x)) 0) k - vget x k| <= mtol ops t x.
Proof.
move=> hc hk; have N0 : (0 < N)%N := N0 K0 (leqnn _) rm hN.
rewrite xsol // /time.
have [[s1 _ s3 _] _] := C21_nodes_weights Hl K0 (leqnn _) rm.
have -> : nth 0 (all_nodes Kmesh Kmesh lgr m) 0 = 0 by rewrite nth0.
rewrite mulr0.
set c := (run ops co).1.1; set o := (run ops co).1.2.
have [_ _ _ ie _] := inv_run tminus solve K0 co_new hN ops.
have cov : covered m (mocp (wts o) empty t t x) tf (xr (at_time t c)) (mqp o).
  move=> j b hj h; have := ie j b hj h; rewrite /= ; case: ifP => _ /=; first by case: ifP.
  by case: (b < Nx)%N => //=; case: ifP.
have hr : (Nx * N + Ncr * N + k < Nx * N + Ncr * N + Nx)%N by rewrite ltn_add2l.
have [_ _ R _] := out_qp tminus solve K0 co_new hN ops t x.
have := all_near hc hr.
rewrite (@nrows_eq _ (cupd t x c o)) => [|b]; last first.
  by apply: R; rewrite /inr orbC negb_and -!leqNgt leq_addr orbT.
rewrite (end_near lgr K0 (leqnn _) rm hN _ _ _ _ cov hk) near_eq subr0.
rewrite [X in _ + X]big1 ?addr0 => [|b _]; last first.
  by rewrite /val /= (_ : (1 + Nx + b == 1 + k)%N = false) ?mul0r // -addnA eqn_add2l; apply/negbTE; rewrite neq_ltn orbC ltn_addr.
rewrite (bigD1 (Ordinal hk)) //= big1 ?addr0 => [|b bk]; last first.
  by rewrite /val /= eqn_add2l (_ : (b == k :> nat) = false) ?mul0r //; apply/negbTE.
rewrite /val /= eqxx mul1r.
have hk1 : (1 + k < 1 + 2 * Nx + 1)%N by clear -hk; lia.
rewrite (vgetE _ hk1) mxE /= ltn_add2l hk addKn; have [_ e2 _] := run_cell tminus solve ops co_new; rewrite /xdes_rel /= /c e2.
by rewrite addrAC.
Qed.
(** The returned trajectories satisfy the collocation equations of the linearized dynamics. *)
Theorem C86_dynamics ops t x I j k : o_code (out ops t x) = Optimal ->
  (I < size m)%N -> (j < N_colloc_ival m I)%N -> (k < Nx)%N ->
  let n := (N_before m I + j)%N in let T := tplus t (tm n) in
  let dx i b := vget (nth 0 (o_xs (out ops t x)) i) b - vget (xd ops (tplus t (tm i))) b in
  let du i b := vget (nth 0 (o_us (out ops t x)) i) b - vget (ud ops (tplus t (tm i))) b in
  `| \sum_(a < (N_colloc_ival m I).+1) dx (N_before m I + a)%N k * mget (interval_diffmat lgr m I) a j -
     tf * (f T (xd ops T) (ud ops T) k - vget (dxd ops T) k + \sum_(b < Nx) df T (xd ops T) (ud ops T) k b * dx n b +
           \sum_(b < Nu) df T (xd ops T) (ud ops T) k (Nx + b)%N * du n b) | <= mtol ops t x.
Proof.
move=> hc hI hj hk.
set c := (run ops co).1.1; set o := (run ops co).1.2.
have hr : (Nx * (N_before m I + j) + k < Nx * N)%N by apply: blk_lt => //; exact: (row_n K0 (leqnn _) rm hN hI hj).
have hr' : (Nx * (N_before m I + j) + k < Nx * N + Ncr * N + Nx)%N by rewrite -addnA ltn_addr.
have [_ _ R _] := out_qp tminus solve K0 co_new hN ops t x; have [e1 e2 e3] := run_cell tminus solve ops co_new.
pose dx i b := vget (nth 0 (o_xs (out ops t x)) i) b - vget (xd ops (tplus t (tm i))) b.
pose du i b := vget (nth 0 (o_us (out ops t x)) i) b - vget (ud ops (tplus t (tm i))) b.
set nn := (N_before m I + j)%N; set T := tplus t (tm nn); cbv zeta.
have kn : (N_before m I + j < N)%N by exact: (row_n K0 (leqnn _) rm hN hI hj).
have dxE i b : (i <= N)%N -> (b < Nx)%N -> dx i b = dx_of Nx (zsol ops t x) i b.
  by move=> hi hb; rewrite /dx xsol // addrAC subrr add0r.
have duE i b : (i < N)%N -> (b < Nu)%N -> du i b = du_of Nx Nu m (zsol ops t x) i b.
  by move=> hi hb; rewrite /du usol // addrAC subrr add0r.
rewrite (eq_bigr (fun a : 'I_(N_colloc_ival m I).+1 => dx_of Nx (zsol ops t x) (N_before m I + a) k * mget (interval_diffmat lgr m I) a j)) => [|a _]; last first.
  by rewrite -/(dx _ _) dxE //; apply: (leq_trans _ (ival_le hI)); rewrite leq_add2l -ltnS.
rewrite (eq_bigr (fun b : 'I_Nx => df T (xd ops T) (ud ops T) k b * dx_of Nx (zsol ops t x) nn b)) => [|b _]; last by rewrite -/(dx _ _) dxE // ltnW.
rewrite (eq_bigr (fun b : 'I_Nu => df T (xd ops T) (ud ops T) k (Nx + b)%N * du_of Nx Nu m (zsol ops t x) nn b)) => [|b _]; last by rewrite -/(du _ _) duE.
have := all_near hc hr'.
rewrite (@nrows_eq _ (cupd t x c o)) => [|b]; last first.
  by apply: R; rewrite /inr orbC negb_and -!leqNgt -ltnNge hr.
move: (zsol ops t x) (mtol ops t x) => z T0.
rewrite (dyn_near K0 (leqnn _) rm hN Hl _ _ _ _ _ _ _ _ hI hj hk) /lin_dyn subr0 /= txu_t txu_zx txu_zu /xdes_rel /dxdes_rel /udes_rel /= -e1 -e2 -e3.
exact.
Qed.
(** The running constraints, linearized around the trajectories that are set. *)
Lemma run_near ops t x i k : cr_time -> o_code (out ops t x) = Optimal -> (i < N)%N -> (k < Ncr)%N ->
  let T := tplus t (tm i) in
  row_near (Fin (crl k)) (Fin (cru k)) (cr T (xd ops T) (ud ops T) k + \sum_(b < Nx) dcr T (xd ops T) (ud ops T) k b * dx_of Nx (zsol ops t x) i b +
             \sum_(b < Nu) dcr T (xd ops T) (ud ops T) k (Nx + b)%N * du_of Nx Nu m (zsol ops t x) i b) (mtol ops t x).
Proof.
move=> ct hc hi hk; set T := tplus t (tm i); cbv zeta.
set c := (run ops co).1.1; set o := (run ops co).1.2.
have [_ _ ic _ _] := inv_run tminus solve K0 co_new hN ops.
have hr : (Nx * N + (Ncr * i + k) < Nx * N + Ncr * N + Nx)%N.
  by have := blk_lt hi hk; move: (Ncr * i)%N (Ncr * N)%N => a b; clear; lia.
have [_ _ R _] := out_qp tminus solve K0 co_new hN ops t x; have [e1 e2 e3] := run_cell tminus solve ops co_new.
have := all_near hc hr.
rewrite (@nrows_eq _ (cupd t x c o)) => [|b]; last by apply: R; rewrite ct.
move: (zsol ops t x) (mtol ops t x) => z T0.
rewrite (running_near lgr K0 (leqnn _) hN _ _ _ _ _ _ _ ic hi hk) /= txu_t txu_zx txu_zu (ifT _ _ ct) /xdes_rel /udes_rel /= -e1 -e2.
exact.
Qed.
(** An affine constraint holds along the returned trajectories. *)
Theorem C86_running ops t x i k : cr_time -> cr_affine Ncr cr dcr -> o_code (out ops t x) = Optimal -> (i < N)%N -> (k < Ncr)%N ->
  let v := cr (tplus t (tm i)) (nth 0 (o_xs (out ops t x)) i) (nth 0 (o_us (out ops t x)) i) k in
  crl k - mtol ops t x <= v /\ v <= cru k + mtol ops t x.
Proof.
move=> ct [a [A [B [H1 H2]]]] hc hi hk; have := run_near ct hc hi hk; cbv zeta.
set v := cr _ _ _ _ + _ + _; set v' := cr _ _ _ _; suff -> : v' = v by move=> /andP[].
rewrite /v /v' !H1 //.
rewrite [X in _ = _ + X + _](eq_bigr (fun b : 'I_Nx => A (tplus t (tm i)) k b * dx_of Nx (zsol ops t x) i b)) => [|b _]; last first.
  by have [-> //] := H2 (tplus t (tm i)) (xd ops (tplus t (tm i))) (ud ops (tplus t (tm i))) k b hk.
rewrite [X in _ = _ + X](eq_bigr (fun b : 'I_Nu => B (tplus t (tm i)) k b * du_of Nx Nu m (zsol ops t x) i b)) => [|b _]; last first.
  by have [_ -> //] := H2 (tplus t (tm i)) (xd ops (tplus t (tm i))) (ud ops (tplus t (tm i))) k b hk.
rewrite [X in _ + X + _ = _](eq_bigr (fun b : 'I_Nx => A (tplus t (tm i)) k b * vget (xd ops (tplus t (tm i))) b + A (tplus t (tm i)) k b * dx_of Nx (zsol ops t x) i b)) => [|b _]; last first.
  by rewrite (xsol _ _ _ (ltnW hi) (ltn_ord b)) mulrDr.
rewrite [X in _ + X = _](eq_bigr (fun b : 'I_Nu => B (tplus t (tm i)) k b * vget (ud ops (tplus t (tm i))) b + B (tplus t (tm i)) k b * du_of Nx Nu m (zsol ops t x) i b)) => [|b _]; last first.
  by rewrite (usol _ _ _ hi (ltn_ord b)) mulrDr.
rewrite !big_split /=; move: (a _ _) (\sum_(b < Nx) _) (\sum_(b < Nx) _) (\sum_(b < Nu) _) (\sum_(b < Nu) _) => *; ring.
Qed.
(** Bounds on the input that is returned. *)
Theorem C86_input ops t x k : cr_time -> cr_input Ncr cr dcr -> o_code (out ops t x) = Optimal -> (k < Nu)%N ->
  crl k - mtol ops t x <= vget (o_u (out ops t x)) k /\ vget (o_u (out ops t x)) k <= cru k + mtol ops t x.
Proof.
move=> ct ci hc hk; have N0 : (0 < N)%N := N0 K0 (leqnn _) rm hN; have [en' [h1 _]] := ci.
have hk' : (k < Ncr)%N by rewrite en'.
by have := C86_running ct (input_affine ci) hc N0 hk'; cbv zeta; rewrite h1 // (out_u0 tminus solve K0 co_new hN Hl).
Qed.
End Mpc.
