(** Theorems on the wrapper of OSQP: C71 (status), C72 (limits), C81 (same problem). *)
From mathcomp Require Import all_ssreflect all_algebra.
From mathcomp.algebra_tactics Require Import ring.
From Verif Require Import LinAlg QpModel QpSpec QpLoop OsqpModel.
Set Implicit Arguments.
Unset Strict Implicit.
Unset Printing Implicit Defensive.
Import Order.TTheory GRing.Theory Num.Theory.
Local Open Scope ring_scope.

Section Props.
Variable F : realFieldType.
Variables n m : nat.
Local Notation oracle := (odata F n m -> osettings F -> option ('cV[F]_n * 'cV[F]_m) -> oout F n m).

(** * C71 *)
(** If OSQP accepts the data and the settings, the status and the solution are those of OSQP: Optimal is returned
    exactly if OSQP has solved the problem, and the statuses of failures exactly if OSQP reports them. *)
Theorem C71_osqp_partial (d : odata F n m) s warm (osqp : oracle) : data_ok d -> settings_ok s ->
  let r := osqp d s (omap (fun w => (primal w, dual w)) warm) in
  exists2 q, solve_qp_osqp d s warm osqp = Some q &
  [/\ code q = Optimal <-> oo_status r = OSOLVED, code q = PrimalInfeasible <-> oo_status r = OPRIMAL_INFEASIBLE,
      code q = DualInfeasible <-> oo_status r = ODUAL_INFEASIBLE &
      [/\ code q = MaxIterations <-> oo_status r = OMAX_ITER_REACHED, code q = MaxTime <-> oo_status r = OTIME_LIMIT_REACHED &
          [/\ niter q = oo_iter r, primal q = oo_x r, dual q = oo_y r & objective q = oo_obj r]]].
Proof.
move=> hd hs r; rewrite /solve_qp_osqp hd hs /=; eexists; first by reflexivity.
by rewrite /= -/r; case: (oo_status r).
Qed.

(** * C72 *)
(** OSQP's limits: time_limit = 0 means no limit. *)
Definition osqp_time_limit (s : osettings F) : option F := if o_time s == 0 then None else Some (o_time s).
Lemma ns_gt0 : 0 < em F 9. Proof. by rewrite /em invr_gt0 exprn_gt0 // ltr0n. Qed.
Theorem C72_time_partial prm (t : option nat) : t != Some 0%N ->
  osqp_time_limit (settings_of prm t) = omap (fun t => t%:R / 10%:R ^+ 9) t.
Proof.
case: t => [[//|t] _|_]; rewrite /osqp_time_limit /settings_of; cbn [o_time omap obind oapp]; last by rewrite eqxx.
by rewrite mulf_eq0 pnatr_eq0 orFb gt_eqF // ns_gt0.
Qed.
(** A positive number of iterations is passed on, and none means the largest number. *)
Theorem C72_iter_partial (prm : params F) t :
  (forall k, max_iter prm = Some k -> o_max_iter (settings_of prm t) = k) /\
  (max_iter prm = None -> o_max_iter (settings_of prm t) = (2 ^ 63).-1).
Proof. by split=> [k|] e; rewrite /settings_of e. Qed.

(** * C81 *)
(** The problem that OSQP solves: its Hessian is the symmetric matrix with this upper triangle. *)
Definition osqp_problem (d : odata F n m) : qp F n m :=
  Qp (\matrix_(i, j) oval (if (i <= j)%N then d_P d i j else d_P d j i)) (d_q d) (\matrix_(i, j) oval (d_A d i j)) (d_l d) (d_u d).
Lemma symU_symm k (M : 'M[F]_k) : symm M -> symU M = M.
Proof.
move=> h; apply/matrixP => i j; rewrite mxE; case: ifP => // _.
by rewrite -[in LHS]h mxE.
Qed.
Theorem C81_sparse (p : sqp F n m) : symm (qP (dense_of p)) ->
  (forall x, feasible (osqp_problem (data_sparse p)) x <-> feasible (dense_of p) x) /\
  (forall x, cost (osqp_problem (data_sparse p)) x = cost (dense_of p) x).
Proof.
move=> h; have -> : osqp_problem (data_sparse p) = dense_of p; last by [].
rewrite /osqp_problem /dense_of /=; congr (Qp _ _ _ _ _).
rewrite -[RHS](symU_symm h); apply/matrixP => i j; rewrite !mxE; case: ifP => [->//|/negbT]; rewrite -ltnNge => /ltnW ->; exact: erefl.
Qed.
(** Dense problems without entries that are tiny but not zero. *)
Definition no_tiny (v : F) : Prop := v = 0 \/ em F 18 < `|v|.
Lemma em18 : em F 6 * em F 12 = em F 18.
Proof. by rewrite /em -invfM -exprD. Qed.
Lemma pruneE v : no_tiny v -> oval (prune (sparse_view v)) = v.
Proof.
rewrite /sparse_view; case: (eqVneq v 0) => [->//|v0] [/eqP|]; first by rewrite (negbTE v0).
by rewrite /prune em18; move=> h; rewrite leNgt h.
Qed.
Theorem C81_dense_partial (p : qp F n m) : symm (qP p) -> (forall i j, no_tiny (qP p i j)) -> (forall i j, no_tiny (qA p i j)) ->
  (forall x, feasible (osqp_problem (data_dense p)) x <-> feasible p x) /\
  (forall x, cost (osqp_problem (data_dense p)) x = cost p x).
Proof.
move=> h tP tA; have -> : osqp_problem (data_dense p) = p; last by [].
case: p h tP tA => P q A l u /= h tP tA; rewrite /osqp_problem /=; congr (Qp _ _ _ _ _); last first.
  by apply/matrixP => i j; rewrite mxE pruneE.
rewrite -[RHS](symU_symm h); apply/matrixP => i j; rewrite !mxE.
case: ifP => [->|/negbT]; first by rewrite pruneE.
by rewrite -ltnNge => /ltnW ->; rewrite pruneE.
Qed.
(** In every case OSQP solves the problem of the upper triangle of P, up to entries of at most 1e-18. *)
Theorem C81_close (p : qp F n m) i j k : let d := osqp_problem (data_dense p) in
  [/\ qq d = qq p, ql d = ql p, qu d = qu p, `|qA d k j - qA p k j| <= em F 18 & `|qP d i j - symU (qP p) i j| <= em F 18].
Proof.
have e0 : 0 <= em F 18 by rewrite ltW ?em_gt0.
have tt (v : F) : `|oval (prune (sparse_view v)) - v| <= em F 18.
  rewrite /sparse_view; case: (eqVneq v 0) => [->|v0] /=; first by rewrite subr0 normr0.
  by rewrite em18; case: ifP => h /=; rewrite ?sub0r ?normrN // subrr normr0.
split=> //; first by rewrite mxE; exact: tt.
rewrite !mxE /=; case: ifP => [ij|/negbT]; first by rewrite ij; exact: tt.
by rewrite -ltnNge => /ltnW ->; exact: tt.
Qed.
End Props.
