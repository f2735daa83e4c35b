(** Programs of which only the upper part of the Hessian is stored, as ocp_to_qp makes them (C89). *)
From mathcomp Require Import all_ssreflect all_algebra zify.
From mathcomp.algebra_tactics Require Import ring.
From Verif Require Import LinAlg QpModel QpSpec QpFacts QpAdmm QpLoop QpProps QpConv QpCodes EndQp.
From Verif Require Import MeshModel MeshSpec SparseModel SparseFacts MeshFunModel MeshFunFacts MeshFunLoops MeshFunProps MeshFunTraj NlpModel NlpProps.
From Verif Require Import OqpModel OqpFacts OqpProps EndMpc EndRef.
Set Implicit Arguments.
Unset Strict Implicit.
Unset Printing Implicit Defensive.
Import Order.TTheory GRing.Theory Num.Theory.
Local Open Scope ring_scope.
Local Arguments muln : simpl never.

Section Spec.
Variables (F : realFieldType) (n m : nat).
(** The program that a stored program stands for when only the upper part of P counts (qp.hpp:34 and 63). *)
Definition sym_qp (p : qp F n m) : qp F n m := Qp (\matrix_(i, j) if (i <= j)%N then qP p i j else qP p j i) (qq p) (qA p) (ql p) (qu p).
End Spec.

Section Stuck.
Variables (F : realFieldType) (n m : nat).
Variables (e : env F n m) (prm : params F).
Implicit Types (p : qp F n m).
Local Notation tr p s ws := (traj prm p s (Hd prm p s) (start p s ws)).
Lemma sym_upper p : same_upper (sym_qp p) p.
Proof. by split=> // i j ij; rewrite mxE ij. Qed.

Section Run.
Variables (o : obj F n m) (p : qp F n m) (q : qsol F n m) (s : scaling_t F n m).
Hypotheses (hs : good_sqrt e) (r0 : 0 < rho_bar prm) (s0 : 0 < sigma prm) (lok : forall M, ldlt_ok e M).
Hypotheses (ro : reach_d e prm o) (cs : cur_scale e prm o p = Some s).
Hypotheses (cv : convex (sym_qp p)) (kk : kkt (sym_qp p) (primal q) (dual q)).
Hypothesis far : tol_dual prm p (primal q) (dual q) < linf (qP p *m primal q + qq p + (qA p)^T *m dual q).
Lemma stay k : tr p s (Some q) k = start p s (Some q).
Proof.
have [c sx sy] := cur_scale_good hs (reach_d_good hs ro) cs.
have [E _ _] := C04_solution_fixed k c sx sy s0 r0 cv kk.
by rewrite -(C12_iterates_partial prm s (Some q) k (sym_upper p)) E.
Qed.
Lemma no_contra : trivially_infeasible p = false.
Proof. by apply/negbTE/negP => /existsP[i ci]; have [f _ _] := kk; have := between_contra (f i); rewrite ci. Qed.
Lemma no_opt k c : verdict e prm p s (Hd prm p s) (start p s (Some q)) k = Some c -> c <> Optimal.
Proof.
have g := cur_scale_good hs (reach_d_good hs ro) cs; have [c0 sx sy] := g.
have [e1 e2 e3 _] := C01_warmstart p q c0 sx sy.
rewrite /verdict /check_iter !stay e1 e2 e3 /check_stopping.
have -> : check_optimal prm p (primal q) (dual q) (qA p *m primal q) = false.
  by apply/negbTE/nandP; right; rewrite -ltNge addrA.
by case: ifP => _; [move=> [<-]|case: ifP => _; [move=> [<-]|case: ifP => _ // [<-]]].
Qed.
Lemma no_stop k : (exists i, is_posinf (qu p i) = false /\ is_neginf (ql p i) = false) -> has_max_time prm = false ->
  verdict e prm p s (Hd prm p s) (start p s (Some q)) k = None.
Proof.
move=> [i [h1 h2]] ht.
have g := cur_scale_good hs (reach_d_good hs ro) cs; have [c0 sx sy] := g.
have [e1 e2 e3 _] := C01_warmstart p q c0 sx sy.
rewrite /verdict /check_iter !stay e1 e2 e3 /check_stopping !subrr ht.
have c00 j (a : 'cV[F]_j) : cmul a 0 = 0 by apply/colP => i'; rewrite !mxE mulr0.
have -> : check_optimal prm p (primal q) (dual q) (qA p *m primal q) = false.
  by apply/negbTE/nandP; right; rewrite -ltNge addrA.
rewrite /unscale_x /unscale_y !c00 scaler0.
have -> : check_primal_inf prm p 0 = false.
  rewrite /check_primal_inf norm0 mulr0; case: (support _ _ _ _ _) => // a.
  by apply/negbTE; rewrite -leNgt le_maxr norm_ge0.
have -> // : check_dual_inf prm p 0 = false.
apply/negbTE/negP; rewrite /check_dual_inf norm0 mulr0 => /and3P[_ _ /forallP/(_ i)].
by rewrite h1 h2 mulmx0 mxE normr0 ltxx.
Qed.
End Run.

(** Started at the solution of the program that is stood for, when the stored matrix does not make the dual residual
    small there, the solver never answers Optimal. *)
Theorem C89_not_optimal o p (q : qsol F n m) fuel r o' : good_sqrt e -> 0 < rho_bar prm -> 0 < sigma prm -> (forall M, ldlt_ok e M) ->
  reach_d e prm o -> convex (sym_qp p) -> kkt (sym_qp p) (primal q) (dual q) ->
  tol_dual prm p (primal q) (dual q) < linf (qP p *m primal q + qq p + (qA p)^T *m dual q) ->
  solve_dense e prm fuel o p (Some q) = Some (r, o') -> code r <> Optimal.
Proof.
move=> h r0 s0 lok ro cv kk far; rewrite /solve_dense; case cs : cur_scale => [s|//].
rewrite /solve_core /ret0 lok (no_contra kk) -/(Hd prm p s).
case em : (main_loop _ _ _ _ _ _ _ _ _) => [[[k v] rc]|//] /= [<- _] /=.
have [_ _ _ _] := loopP em; case: rc {em} => [c [j _ [_ _ vj]]|//] /=.
exact: (no_opt h r0 s0 ro cs cv kk far vj).
Qed.
(** ... and without limits on iterations and time it never returns, if some row has two finite bounds. *)
Theorem C89_runs_on o p (q : qsol F n m) fuel : good_sqrt e -> 0 < rho_bar prm -> 0 < sigma prm -> (forall M, ldlt_ok e M) ->
  reach_d e prm o -> convex (sym_qp p) -> kkt (sym_qp p) (primal q) (dual q) ->
  tol_dual prm p (primal q) (dual q) < linf (qP p *m primal q + qq p + (qA p)^T *m dual q) ->
  (exists i, is_posinf (qu p i) = false /\ is_neginf (ql p i) = false) -> max_iter prm = None -> has_max_time prm = false ->
  solve_dense e prm fuel o p (Some q) = None.
Proof.
move=> h r0 s0 lok ro cv kk far row mi mt; rewrite /solve_dense; case cs : cur_scale => [s|//].
rewrite /solve_core /ret0 lok (no_contra kk) -/(Hd prm p s).
case em : (main_loop _ _ _ _ _ _ _ _ _) => [[[k v] rc]|//] /=; exfalso.
have [_ _ _ _] := loopP em; case: rc {em} => [c [j _ [_ _]]|[]].
  by rewrite (no_stop h r0 s0 ro cs cv kk far).
by rewrite /at_limit mi.
Qed.
End Stuck.

(** * Costs without mixed second derivatives *)
Section Sep.
Variable F : realFieldType.
Variables Nx Nu Ncr Nce : nat.
Variables (Kmin Kmax : nat) (lgr : nat -> seq F * seq F) (m : mesh F).
Local Notation N := (N_colloc m).
Local Notation nv := (Nx * (N + 1) + Nu * N)%N.
Local Notation ocp := (ocp F Nx Nu 1 Ncr Nce).
Local Notation upd p tf xl dxl ul := (@oqp_update F Nx Nu Ncr Nce p Kmin Kmax lgr m tf xl dxl ul).
(** No mixed second derivatives of the integrand in (x, u) and of theta in (x0, xf). *)
Definition separable (p : ocp) : Prop :=
  (forall z a b, (0 < a < 1 + Nx + Nu)%N -> (0 < b < 1 + Nx + Nu)%N -> a != b -> val (d2int p z) a b = 0) /\
  (forall z a b, (0 < a < 1 + 2 * Nx)%N -> (0 < b < 1 + 2 * Nx)%N -> a != b -> val (d2theta p z) a b = 0).
Local Notation arg i := (argn Nx Nu (2 + Nx * i) (2 + Nx * (N + 1) + Nu * i)).
Local Notation cof i := (cofn Nx Nu (2 + Nx * i) (2 + Nx * (N + 1) + Nu * i)).
Lemma arg_sep i (tau : F) a b : (i < N)%N -> a != b -> cof i tau (2 + a) * cof i tau (2 + b) != 0 ->
  [/\ arg i (2 + a) != arg i (2 + b), (0 < arg i (2 + a) < 1 + Nx + Nu)%N & (0 < arg i (2 + b) < 1 + Nx + Nu)%N].
Proof.
move=> hi ab; have hU : (Nx * i + Nx <= Nx * (N + 1))%N by rewrite -mulnSr leq_mul2l -addn1 leq_add2r (ltnW hi) orbT.
have E c : [/\ (2 + c < 2)%N = false, (2 + c == 0)%N = false & (2 + c == 1)%N = false] by [].
rewrite /cofn /argn; have [-> -> ->] := E a; have [-> -> ->] := E b; case: ifP => ha; last by rewrite mul0r eqxx.
case: ifP => hb; last by rewrite mulr0 eqxx.
move=> _; move: ha hb ab hU; move: (Nx * i)%N (Nx * (N + 1))%N (Nu * i)%N => p1 p2 p3; clear; repeat case: ifP; (split; lia).
Qed.
Lemma sep_diag p tf xl dxl ul s a b : separable p -> (a < nv)%N -> (b < nv)%N -> a != b -> val (oP (upd p tf xl dxl ul s)) a b = 0.
Proof.
move=> [h1 h2] ha hb ab; rewrite cost_P //; case: (ltnP b a) => // ba.
set it := mesh_integrate _ _ _ _ _ _ _ _ _ _ _ _ _.
have -> : val (mvd2F it) (2 + a) (2 + b) = 0.
  set v := vref Nx Nu m 0 tf (lin Kmin Kmax lgr m tf xl) (lin Kmin Kmax lgr m tf ul).
  have [_ _ _ e2 _] := @ref_int F Nx Nu 1 (intv p) (dint p) (d2int p) Kmin Kmax lgr m 0 tf (lin Kmin Kmax lgr m tf xl) (lin Kmin Kmax lgr m tf ul) (w_int s).
  have [_ _ E2] := @intR F Nx Nu 1 (intv p) (dint p) (d2int p) N (all_nodes Kmin Kmax lgr m) (all_weights Kmin Kmax lgr m) v (w_int s).
  have dT0 k : dTn F (2 + k) = 0 by rewrite /dTn /= subr0.
  rewrite /it e2 [LHS]E2; apply: big1 => i _; rewrite big_ord1 leq_add2l ba !dT0 !mul0r !addr0 muln0 add0n.
  set ca := cof i _ _; set cb := cof i _ _; case: (eqVneq (ca * cb) 0) => [E|h].
    by rewrite E mul0r !mulr0.
  have [g1 g2 g3] := arg_sep (ltn_ord i) ab h.
  by rewrite h1 // !mulr0.
have i0 c : in0 Nx c -> (0 < 1 + c < 1 + 2 * Nx)%N by rewrite /in0 => h; clear -h; lia.
have iN c : inN Nx m c -> (0 < 1 + Nx + (c - Nx * N) < 1 + 2 * Nx)%N by rewrite /inN /inr; move: (Nx * N)%N => k h; clear -h; lia.
have -> : (if in0 Nx a && in0 Nx b then val (d2theta p (qend tf xl)) (1 + a) (1 + b) else 0) = 0.
  by case: ifP => // /andP[k1 k2]; apply: h2; [exact: i0|exact: i0|rewrite eqn_add2l].
have -> : (if in0 Nx a && inN Nx m b then val (d2theta p (qend tf xl)) (1 + a) (1 + Nx + (b - Nx * N)) else 0) = 0.
  case: ifP => // /andP[k1 k2]; apply: h2; [exact: i0|exact: iN|].
  by move: k1; rewrite /in0; move: (b - _)%N => k k1; clear -k1; lia.
have -> : (if inN Nx m a && inN Nx m b then val (d2theta p (qend tf xl)) (1 + Nx + (a - Nx * N)) (1 + Nx + (b - Nx * N)) else 0) = 0.
  case: ifP => // /andP[k1 k2]; apply: h2; [exact: iN|exact: iN|].
  by move: k1 k2 ab; rewrite /inN /inr; move: (Nx * N)%N => k; clear; lia.
by rewrite !addr0 !mulr0 addr0.
Qed.
Variables (n mm : nat) (e : env F n mm) (prm : params F).
Hypothesis en : n = nv.
(** The stored program is the one it stands for. *)
Theorem C89_diagonal p tf xl dxl ul s : separable p ->
  let Q := dense_of (@sqp_of F n mm (upd p tf xl dxl ul s)) in sym_qp Q = Q.
Proof.
move=> sp /=; have d a b : (a < n)%N -> (b < n)%N -> a != b -> val (oP (upd p tf xl dxl ul s)) a b = 0 by rewrite en; exact: sep_diag.
move: (upd p tf xl dxl ul s) d => S d.
rewrite /sym_qp /=; congr Qp; apply/matrixP => i j; rewrite !mxE; case: ifP => // ij.
have ne : i != j :> nat by apply/eqP => E; rewrite E leqnn in ij.
by rewrite -[LHS]/(val (oP S) j i) -[RHS]/(val (oP S) i j) !d // eq_sym.
Qed.
(** A solver started at the solution of a program made from such a problem returns it. *)
Theorem C89_separable_partial p tf xl dxl ul s (q : qsol F n mm) fuel : separable p ->
  let Q := @sqp_of F n mm (upd p tf xl dxl ul s) in
  good_sqrt e -> 0 < rho_bar prm -> 0 < sigma prm -> 0 <= eps_abs prm -> 0 <= eps_rel prm -> polish prm = false -> (1 < stop_check_iter prm)%N ->
  (forall M, max_iter prm = Some M -> (1 < M)%N) -> (forall M, ldlt_ok e M) -> (0 < n)%N -> (0 < mm)%N ->
  convex (sym_qp (dense_of Q)) -> kkt (sym_qp (dense_of Q)) (primal q) (dual q) -> (1 < fuel)%N ->
  exists r o, [/\ solve_sparse e prm fuel (@obj_new F n mm) Q (Some q) = Some (r, o), code r = Optimal, primal r = primal q & dual r = dual q].
Proof.
move=> sp Q; rewrite {}/Q C89_diagonal //; move: (upd p tf xl dxl ul s) => S h r0 s0 ea er pf hc hm lok n0 m0 cv kk hf.
have [r [o [E1 E2 E3 E4]]] := C85_returns h r0 s0 ea er pf hc hm lok n0 m0 (rd_new e prm) cv kk hf.
have := sparse_new e prm fuel (@sqp_of F n mm S) (Some q); rewrite E1.
by case: solve_sparse => [[r1 o1]|//] /= [->]; exists r, o1.
Qed.
End Sep.
