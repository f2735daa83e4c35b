(** Property C98: free rows, sparse problems and cases. *)
From Coq Require Import ZArith QArith.
From mathcomp Require Import all_ssreflect all_fingroup all_algebra.
From mathcomp.algebra_tactics Require Import ring.
From Verif Require Import LinAlg QF QpModel QpSpec QpFacts QpAdmm QpLoop QpProps QpConv QpCodes QpCex QpPolish QpSym QpSymLoop QpSymThms QpSymQ.
Set Implicit Arguments.
Unset Strict Implicit.
Unset Printing Implicit Defensive.
Import Order.TTheory GRing.Theory Num.Theory.
Local Open Scope ring_scope.

Section Sparse.
Variables (F : realFieldType) (n m : nat) (e : env F n m) (prm : params F).
(** A new object gives the same answer for a sparse problem and for the dense problem with the same entries. *)
Theorem C98_sparse_dense fuel (p : sqp F n m) ws : solve_qp_sparse e prm fuel p ws = solve_qp e prm fuel (dense_of p) ws.
Proof.
rewrite /solve_qp_sparse /solve_qp /solve_sparse /solve_dense.
case: (cur_scale _ _ _ _) => [t|] //; rewrite (@C05_sparse_dense _ _ _ e prm); last exact: rs_new.
by rewrite /=; case: (solve_core _ _ _ _ _ _ _).
Qed.
Variables (s : {perm 'I_m}) (b : 'I_m -> bool) (r : {perm 'I_n}) (c : 'I_n -> bool).
(** The same for sparse problems, whatever entries are stored. *)
Theorem C98_sparse fuel (p p' : sqp F n m) ws : 0 <= macheps e -> fair e -> good_sqrt e -> symm (qP (dense_of p)) ->
  flips_bounded s b (dense_of p) -> dense_of p' = qmap s b r c (dense_of p) ->
  solve_qp_sparse e prm fuel p' (omap (rmap s b r c) ws) = omap (rmap s b r c) (solve_qp_sparse e prm fuel p ws).
Proof. by move=> e0 fe gs sy fb E; rewrite !C98_sparse_dense E C98_dense. Qed.
End Sparse.

Section Free.
Variable F : realFieldType.
Notation f := (q2f F).
Notation s1 := (Scaling 1 (ones F 1) (ones F 1)).
(** min x, with a row -inf <= x <= inf or -inf <= -x <= inf. *)
Definition pf (a : Q) : qp F 1 1 := p1 F (0#1) (1#1) a NI PI.
Definition flip1 : qp F 1 1 -> qp F 1 1 := qmap 1%g (fun=> true) 1%g (fun=> false).
Lemma flip_pf : flip1 (pf (1#1)) = pf (-1#1).
Proof.
rewrite /flip1 /qmap /pf /p1 /=; congr Qp; apply/matrixP => i j; rewrite !mxE ?perm1 /sg ?expr0 ?expr1 ?mulr1 ?mul1r //.
by rewrite mulN1r -q2fN.
Qed.
Lemma rho_pf a sc po : rho_vec (dprm F sc po) (pf a) s1 = cst F (1#1000000).
Proof. by apply: rho1; rewrite /= /em (q2f_nat F) q2fX -q2fV; exact: q2f_eq. Qed.
Lemma scale_pf (e : env F 1 1) : sqrt e 1 = 1 -> scale e (pf (1#1)) = Some s1 /\ scale e (pf (-1#1)) = Some s1.
Proof.
move=> h; have E : scale e (pf (1#1)) = Some s1 by exact: scale1.
by split=> //; rewrite -flip_pf scale_map E /= /smap /= !pv_ones.
Qed.
Notation stp a := (stepq (0#1) (1#1) a NI PI (1#1000000) (8#5) (1#1000000)).
Lemma stp_pf z : stp (1#1) ((z#1), (0#1), (z#1))%Q = ((Z.sub z 800000 # 1), (0#1), (Z.sub z 800000 # 1))%Q.
Proof.
by rewrite /stepq /xtq q_xt q_w q_x /clampq q_z q_y.
Qed.
Lemma iter_pf k : exists z, iter k (stp (1#1)) ((0#1), (0#1), (0#1))%Q = ((z#1), (0#1), (z#1))%Q.
Proof.
elim: k => [|k [z E]]; first by exists Z0.
by rewrite iterS E stp_pf; eexists.
Qed.
Lemma verdict_pf z : verdictq (0#1) (1#1) (1#1) NI PI ((z#1), (0#1), (z#1))%Q ((Z.sub z 800000 # 1), (0#1), (Z.sub z 800000 # 1))%Q = None.
Proof.
rewrite /verdictq /fst /snd.
have -> : optq (0#1) (1#1) (1#1) (1#1000) (1#1000) (Z.sub z 800000 # 1) (0#1) (Z.sub z 800000 # 1) = false by rewrite /optq andbC.
have -> : pinfq (1#1) NI PI (1#10000) (Qminus (0#1) (0#1)) = false by [].
rewrite q_d.
by [].
Qed.
(** Multiplying a row without bounds by -1 changes the answer: with the default parameters min x with the row -inf <= -x <= inf is reported as
    unbounded after two iterations, and with the row -inf <= x <= inf the solver never returns. *)
Theorem C98_free_refuted : exists p : qp F 1 1, forall e : env F 1 1, (forall M, ldlt_ok e M) -> sqrt e 1 = 1 ->
  (exists r, solve_qp e (dprm F true true) 2 (flip1 p) None = Some r /\ code r = DualInfeasible) /\
  (forall fuel, solve_qp e (dprm F true true) fuel p None = None).
Proof.
exists (pf (1#1)) => e lok sq; have [c1 c2] := scale_pf sq; split.
  rewrite flip_pf /solve_qp /solve_dense /cur_scale -[scaling _]/true c2 -/(Hd (dprm F true true) (pf (-1#1)) s1).
  rewrite (@run2 _ _ _ e (dprm F true true) (pf (-1#1)) s1 _ None DualInfeasible) //.
  - by eexists; split; first reflexivity.
  - by apply: ti1.
  by rewrite start1 -/(Hd (dprm F true true) (pf (-1#1)) s1) (verdictE (rho := (1#1000000))) // rho_pf.
move=> fuel; rewrite /solve_qp /solve_dense /cur_scale -[scaling _]/true c1 /solve_core /ret0 lok.
have -> : trivially_infeasible (pf (1#1)) = false by apply: ti1.
rewrite start1 -/(Hd (dprm F true true) (pf (1#1)) s1).
have G k : main_loop e (dprm F true true) fuel k (pf (1#1)) s1 (Hd (dprm F true true) (pf (1#1)) s1)
    (traj (dprm F true true) (pf (1#1)) s1 (Hd (dprm F true true) (pf (1#1)) s1) (stv F ((0#1), (0#1), (0#1))%Q) k) None = None.
  elim: fuel k => [|fuel IH] k //=.
  have V : check_iter e (dprm F true true) (pf (1#1)) s1
    (traj (dprm F true true) (pf (1#1)) s1 (Hd (dprm F true true) (pf (1#1)) s1) (stv F ((0#1), (0#1), (0#1))%Q) k)
    (traj (dprm F true true) (pf (1#1)) s1 (Hd (dprm F true true) (pf (1#1)) s1) (stv F ((0#1), (0#1), (0#1))%Q) k.+1) k = None.
    rewrite -/(verdict _ _ _ _ _ _ k) (verdictE (rho := (1#1000000))) ?rho_pf // iterS.
    by have [z ->] := iter_pf k; rewrite stp_pf verdict_pf.
  by rewrite [X in check_iter _ _ _ _ _ X]/(traj _ _ _ _ _ k.+1) V; case: ifP => _; exact: (IH k.+1).
by rewrite (G 0%N).
Qed.
(** -1 <= x <= 1 and -1 <= -x <= 1: the same answer, with the sign of the multiplier changed. *)
Example C98_case (e : env F 1 1) : (forall M, ldlt_ok e M) -> (forall k (M : 'M[F]_(1 + k)), pol_ok e M = false) -> sqrt e 1 = 1 -> good_sqrt e ->
  0 <= macheps e -> exists r, [/\ solve_qp e (dprm F true true) 2 (p14 F) None = Some r, code r = Optimal &
  solve_qp e (dprm F true true) 2 (flip1 (p14 F)) None = Some (QSol Optimal (niter r) (primal r) (- dual r) (objective r))].
Proof.
move=> lok pf0 sq gs e0.
have fe : fair e by split=> [Q M _|k k' Q M _]; rewrite ?lok ?pf0.
have [r [E C]] : exists r, solve_qp e (dprm F true true) 2 (p14 F) None = Some r /\ code r = Optimal.
  rewrite /solve_qp /solve_dense /cur_scale -[scaling _]/true (scale1 (P := 0#1) (q := 0#1)) //.
  rewrite (@run2 _ _ _ e (dprm F true true) (p14 F) s1 _ None Optimal) //.
  - by eexists; split; first reflexivity.
  - exact: ti14.
  by rewrite start1 -/(Hd (dprm F true true) (p14 F) s1) (verdictE (rho := (1#10))) // rho14.
exists r; split=> //.
have := @C98_dense F 1 1 e (dprm F true true) 1%g (fun=> true) 1%g (fun=> false) e0 fe 2 (p14 F) None gs.
rewrite E /= => -> //; last by apply/matrixP => i j; rewrite !mxE.
congr Some; rewrite /rmap C; congr QSol; apply: vecP => i; rewrite !mxE perm1 /sg ?expr0 ?expr1 ?mul1r ?mulN1r //.
Qed.
End Free.

(** Factorizations that succeed exactly for nonsingular matrices are fair; two variables and two rows in the other order, one of them with another sign. *)
Section Two.
Variable F : realFieldType.
Lemma orth_unit k k' (Q : 'M[F]_(k', k)) M : orth Q -> (Q *m M *m Q^T \in unitmx) = (M \in unitmx).
Proof.
move=> [q1 q2]; apply/idP/idP => u.
  have E : M *m (Q^T *m invmx (Q *m M *m Q^T) *m Q) = 1%:M.
    have -> : M *m (Q^T *m invmx (Q *m M *m Q^T) *m Q) = Q^T *m (Q *m M *m Q^T *m invmx (Q *m M *m Q^T)) *m Q by rewrite !mulmxA q2 mul1mx.
    by rewrite mulmxV // mulmx1.
  by case/mulmx1_unit: E.
have E : (Q *m M *m Q^T) *m (Q *m invmx M *m Q^T) = 1%:M by rewrite -!mulmxA (mulmxA Q^T Q) q2 mul1mx (mulmxA M) mulmxV // mul1mx.
by case/mulmx1_unit: E.
Qed.
Definition eu : env F 2 2 := Env (fun t => t) (fun M => M \in unitmx) (fun k M => M \in unitmx) (fun=> false) 0.
Lemma eu_fair : fair eu.
Proof. by split=> [Q M|k k' Q M] /orth_unit h /=; rewrite h. Qed.
Definition p22 : qp F 2 2 := Qp (\matrix_(i, j) (1 + (i == j)%:R)) (\col_i 1) (\matrix_(i, j) (i + j)%:R)
  (fun i => if i == 0 then Fin 0 else NegInf) (fun i => if i == 0 then Fin 1 else PosInf).
Example C98_case2 fuel ws : let s := tperm (0 : 'I_2) 1 in let b := fun i : 'I_2 => i == 1 in let c := fun i : 'I_2 => i == 0 in
  solve_qp eu (dprm F true true) fuel (qmap s b s c p22) (omap (rmap s b s c) ws) = omap (rmap s b s c) (solve_qp eu (dprm F true true) fuel p22 ws).
Proof.
move=> s b c; apply: C98_dense => //; [exact: eu_fair| |].
  by apply/matrixP => i j; rewrite !mxE eq_sym.
by move=> i /eqP ->; rewrite /s tpermR /=.
Qed.
End Two.
Print Assumptions C98_dense. Print Assumptions C98_sparse. Print Assumptions C98_free_refuted.
