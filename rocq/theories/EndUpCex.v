(** C89: an optimal control problem with a mixed second derivative in its cost. *)
From Coq Require Import QArith.
From mathcomp Require Import all_ssreflect all_algebra zify.
From mathcomp.algebra_tactics Require Import ring.
From Verif Require Import Calc LinAlg QpModel QpSpec QpFacts QpAdmm QpLoop QpProps QpConv QpCodes QF QpCex QpExamples EndQp EndUp.
From Verif Require Import MeshModel MeshSpec PolyFacts MeshFacts MeshQuad MeshEval MeshProps.
From Verif Require Import SparseModel SparseFacts MeshFunModel MeshFunFacts MeshFunLoops MeshFunDyn MeshFunProps MeshFunTraj NlpModel NlpFacts NlpProps NlpSol.
From Verif Require Import OqpModel OqpFacts OqpProps OqpCost EndAsif EndMpc EndRef EndMpcCases.
Set Implicit Arguments.
Unset Strict Implicit.
Unset Printing Implicit Defensive.
Import Order.TTheory GRing.Theory Num.Theory.
Local Open Scope ring_scope.
Local Arguments muln : simpl never.

Section Cex.
Variable F : realFieldType.
Local Notation ne := (1 + 2 * 1 + 1)%N.
Local Notation f := (q2f F).
Definition i1 : 'I_ne := inord 1.
Definition i2 : 'I_ne := inord 2.
(** theta = x0^2 + c x0 xf + xf^2 - (2 + c) (x0 + xf). *)
Variable c : F.
Definition uth (z : 'cV[F]_ne) : F := let x := z i1 0 in let y := z i2 0 in x * x + c * (x * y) + y * y - (2%:R + c) * (x + y).
Definition udth (z : 'cV[F]_ne) : smat F := fun r k =>
  let x := z i1 0 in let y := z i2 0 in
  if k == 1%N then Some (2%:R * x + c * y - (2%:R + c)) else if k == 2%N then Some (c * x + 2%:R * y - (2%:R + c)) else None.
Definition ud2th (z : 'cV[F]_ne) : smat F := fun a b =>
  if (((a == 1) || (a == 2)) && ((b == 1) || (b == 2)))%N then Some (if a == b then 2%:R else c) else None.
(** Dynamics x' = u, integrand 0, no constraints. *)
Definition ufv (z : 'cV[F]_(1 + 1 + 1)) (k : nat) : F := z (inord 2) 0.
Definition udf (z : 'cV[F]_(1 + 1 + 1)) : smat F := fun r k => if k == 2%N then Some 1 else None.
Definition nof A (z : A) (k : nat) : F := 0.
Definition noj A (z : A) : smat F := fun r k => None.
Definition uocp : ocp F 1 1 1 0 0 := @Ocp F 1 1 1 0 0 uth udth ud2th ufv udf (@noj _) (@nof _) (@noj _) (@noj _) (@nof _) (@noj _) (@noj _)
  (fun=> NegInf) (fun=> PosInf) (@nof _) (@noj _) (@noj _) (fun=> NegInf) (fun=> PosInf).
Lemma coord n (z : 'cV[F]_n) (a k : 'I_n) : deriv (fun s => setc z a s k 0) (z a 0) (k == a)%:R.
Proof.
case: (eqVneq k a) => [->|ne]; first by apply: deriv_ext (deriv_id _) => s; rewrite mxE eqxx.
by apply: deriv_ext (deriv_const (z k 0) _) => s; rewrite mxE (negbTE ne).
Qed.
Lemma e1 (a : 'I_ne) : (i1 == a) = (a == 1 :> nat)%N. Proof. by rewrite -val_eqE /= inordK // eq_sym. Qed.
Lemma e2 (a : 'I_ne) : (i2 == a) = (a == 2 :> nat)%N. Proof. by rewrite -val_eqE /= inordK // eq_sym. Qed.
Lemma setcK n (z : 'cV[F]_n) (a k : 'I_n) : setc z a (z a 0) k 0 = z k 0.
Proof. by rewrite mxE; case: eqP => [->|]. Qed.
Lemma uth_d : end_derivs 1 (fun z _ => uth z) udth ud2th.
Proof.
split=> [z [|//] a _|z [|//] a b _]; rewrite /partial.
  have d1 := coord z a i1; have d2 := coord z a i2.
  apply: deriv_eq (deriv_sub (deriv_add (deriv_add (deriv_mul d1 d1) (deriv_scale c (deriv_mul d1 d2))) (deriv_mul d2 d2)) (deriv_scale (2%:R + c) (deriv_add d1 d2))).
  rewrite !setcK e1 e2 /val /udth; move: (z i1 0) (z i2 0) => x y.
  case: (eqVneq (a : nat) 1%N) => [->|_] /=; first by ring.
  by case: eqP => _ /=; ring.
have d1 := coord z b i1; have d2 := coord z b i2; rewrite muln0 add0n.
rewrite /val /ud2th /udth; case: (eqVneq (a : nat) 1%N) => [->|n1] /=.
  apply: deriv_eq (deriv_sub (deriv_add (deriv_scale 2%:R d1) (deriv_scale c d2)) (deriv_const (2%:R + c) _)).
  rewrite e1 e2; case: (eqVneq (b : nat) 1%N) => [->|_] /=; first by ring.
  by case: (eqVneq (b : nat) 2%N) => _ /=; ring.
case: (eqVneq (a : nat) 2%N) => [->|n2] /=; last exact: deriv_const.
apply: deriv_eq (deriv_sub (deriv_add (deriv_scale c d1) (deriv_scale 2%:R d2)) (deriv_const (2%:R + c) _)).
rewrite e1 e2; case: (eqVneq (b : nat) 1%N) => [->|_] /=; first by ring.
by case: (eqVneq (b : nat) 2%N) => _ /=; ring.
Qed.
Lemma uocp_derivs : ocp_derivs uocp.
Proof.
split=> /=; last 2 first.
- exact: uth_d.
- by split.
- split=> [z [|//] a _|z [|//] a b _]; rewrite /partial.
    apply: deriv_eq (coord z a (inord 2)); rewrite -val_eqE /= inordK // eq_sym /val /udf.
    by case: eqP.
  exact: deriv_const.
- by split=> *; exact: deriv_const.
- by split.
Qed.
Lemma uocp_lin : linear_in_integral uocp 0.
Proof.
move=> x l q el /=; rewrite mul0r addr0 /uth !mxE e1 e2 el; by [].
Qed.

Local Notation m := (bm F).
Local Notation upd := (@oqp_update F 1 1 0 0 uocp 1 1 (@glgr F) m 1 (fun=> 0) (fun _ _ => 0) (fun=> 0)).
Local Opaque mesh_integrate mesh_eval oqp_update oqp_allocate N_colloc.
Lemma m_reach : reachable 1 1 (fun _ _ _ => 0%N) m.
Proof. by exists (Some m), [::]; split=> //; left. Qed.
Lemma nvE : (1 * (N_colloc m + 1) + 1 * N_colloc m)%N = 3%N. Proof. by rewrite bm_N. Qed.
Lemma uqend : qend 1 (fun=> 0 : 'cV[F]_1) i1 0 = 0 /\ qend 1 (fun=> 0 : 'cV[F]_1) i2 0 = 0.
Proof. by rewrite !mxE !inordK //=; split; rewrite (vgetE _ (isT : (0 < 1)%N)) mxE. Qed.
Lemma uq s k : (k < 3)%N -> oq (upd s) k = if (k < 2)%N then - (2%:R + c) else 0.
Proof.
move=> hc; rewrite cost_q ?nvE //.
have [h1 h2] := uqend.
have -> : val (dtheta uocp (qend 1 (fun=> 0))) 0 (1 + 2 * 1) = 0 by [].
rewrite mul0r add0r /in0 /inN /inr bm_N /val /= /udth h1 h2.
case: k hc => [|[|[|//]]] _ /=; rewrite ?mulr0 ?addr0 ?add0r //.
Qed.
Lemma uP s a b : (a < 3)%N -> (b < 3)%N -> val (oP (upd s)) a b =
  if (a == 2)%N || (b == 2)%N || (b < a)%N then 0 else if a == b then 1 else 2%:R^-1 * c.
Proof.
move=> ha hb; rewrite cost_P ?nvE //.
have -> : val (dtheta uocp (qend 1 (fun=> 0))) 0 (1 + 2 * 1) = 0 by [].
rewrite mul0r add0r /in0 /inN /inr bm_N.
have V x y : val (d2theta uocp (qend 1 (fun=> 0))) x y = if (((x == 1) || (x == 2)) && ((y == 1) || (y == 2)))%N then if x == y then 2%:R else c else 0.
  by rewrite /val /= /ud2th; case: ifP.
rewrite !V.
by case: a ha => [|[|[|//]]] _; case: b hb => [|[|[|//]]] _ /=; rewrite ?addr0 ?add0r ?mulr0 ?mulr1 ?mulVf ?pnatr_eq0.
Qed.
Definition uz (i : nat) : F := if (i < 2)%N then 2%:R else 0.
Lemma u_colloc : lin_colloc 1 1 1 1 (@glgr F) m true (fun _ _ _ => 0) (fun t x u => dynv uocp (txu t x u)) (fun t x u => ddyn uocp (txu t x u))
  (fun=> 0) (fun _ _ => 0) (fun=> 0) 1 uz 0 0 0.
Proof.
rewrite /lin_colloc.
have n0 : N_before m 0 = 0%N by [].
have K0 : N_colloc_ival m 0 = 1%N by [].
have h0 : (0 < N_colloc_ival m 0)%N by [].
have pm : is_partition m by split=> //=; rewrite ltr01.
have E := @diffmat_exact F 1 1 (@glgr F) (@glgr_contract F) m pm isT 0 (2%:R)%:P (Ordinal h0) isT.
have sE : (size ((2%:R : F)%:P) <= (N_colloc_ival m 0).+1)%N by apply: leq_trans (size_polyC_leq1 _) _.
move: (E sE); rewrite derivC hornerC => {}E.
rewrite /lin_dyn n0 /dx_of /du_of.
have z2 : uz (1 * (N_colloc m + 1) + 1 * (0 + 0) + 0) = 0 by rewrite bm_N.
rewrite !big_ord1 z2 mulr0 addr0 mul1r subr0 subr0.
have -> : dynv uocp (txu (time 1 1 (glgr F) m 1 (0 + 0)) 0 0) 0 = 0 by rewrite /= /ufv mxE inordK //= (vgetE _ (isT : (0 < 1)%N)) mxE.
have -> : val (ddyn uocp (txu (time 1 1 (glgr F) m 1 (0 + 0)) 0 0)) 0 (1 + 0) = 0 by [].
rewrite mul0r addr0 -[RHS]E; apply: eq_bigr => a _; rewrite hornerC; congr (_ * _).
  by rewrite /uz mul1n add0n addn0 ltn_ord.
by rewrite /mget valK (insubT (fun i => i < N_colloc_ival m 0)%N h0).
Qed.
Lemma u_row s : row_holds 1 1 m (upd s) uz 0.
Proof.
have [_ /(_ _ 0%N)] := @C40_update F 1 1 0 0 uocp 1 1 (@glgr F) (fun _ _ _ => 0%N) m isT isT (@glgr_contract F) m_reach (bm_hN F) 1 (fun=> 0) (fun _ _ => 0) (fun=> 0) s uz.
apply; last by rewrite bm_N.
by move=> [|//] [|//] [|//] _ _ _; exact: u_colloc.
Qed.
Lemma u_fin s : exists v, ol (upd s) 0%N = Fin v /\ ou (upd s) 0%N = Fin v.
Proof.
have hr : (0 < 1 * N_colloc m)%N by rewrite bm_N.
have [_ -> ->] := upd_dyn_rows uocp 1 1 (@glgr F) 1 (fun=> 0) (fun _ _ => 0) (fun=> 0) s 0 hr.
have [_ h1 h2] := dyn_rowE 1 (@glgr F) (isT : (0 < 1)%N) (isT : (1 <= 1)%N) (bm_hN F) true (fun _ _ _ => 0) (fun t x u => dynv uocp (txu t x u)) (fun t x u => ddyn uocp (txu t x u)) (fun=> 0) (fun _ _ => 0) (fun=> 0) 1 (s_cost uocp 1 1 (@glgr F) m 1 (fun=> 0) (fun=> 0) s) 0%N (isT : (0 < size m)%N) (isT : (0 < N_colloc_ival m 0)%N) (isT : (0 < 1)%N).
move: h1 h2; rewrite /nb big_ord0 !mul1n => h1 h2; eexists; split; [exact: h1|exact: h2].
Qed.
Lemma u_sum s v : ol (upd s) 0%N = Fin v -> ou (upd s) 0%N = Fin v -> \sum_(c < 3) val (oA (upd s)) 0 c * uz c = v.
Proof. by move=> l1 u1; have := u_row s; rewrite /row_holds bm_N l1 u1 /between /= -eq_le => /eqP. Qed.

(** A program with these entries. *)
Section Abs.
Variables (S : qpst F) (v : F).
Hypotheses (hq : forall k, (k < 3)%N -> oq S k = if (k < 2)%N then - (2%:R + c) else 0).
Hypothesis hP : forall a b, (a < 3)%N -> (b < 3)%N -> val (oP S) a b =
  if (a == 2)%N || (b == 2)%N || (b < a)%N then 0 else if a == b then 1 else 2%:R^-1 * c.
Hypotheses (hl : ol S 0%N = Fin v) (hu : ou S 0%N = Fin v) (hs : \sum_(c < 3) val (oA S) 0 c * uz c = v).
Definition uw : qsol F 3 1 := QSol Optimal 0 (\col_i uz i) 0 0.
Local Notation Q := (dense_of (@sqp_of F 3 1 S)).
Lemma uPs (i j : 'I_3) : qP Q i j = if (i == 2 :> nat)%N || (j == 2 :> nat)%N || (j < i)%N then 0 else if i == j :> nat then 1 else 2%:R^-1 * c.
Proof. by rewrite mxE -hP. Qed.
Lemma uqs (i : 'I_3) : qq Q i 0 = if (i < 2)%N then - (2%:R + c) else 0.
Proof. by rewrite mxE hq. Qed.
Lemma u_convex : 0 <= c <= 2%:R -> convex (sym_qp Q).
Proof.
move=> /andP[c0 c2]; split=> [|x].
  by apply/matrixP => i j; rewrite !mxE; case: (ltngtP i j) => // /ord_inj ->.
rewrite qf_dot dotE !big_ord_recl big_ord0 !mxE !big_ord_recl !big_ord0.
have E i j : qP (sym_qp Q) i j = if (i <= j)%N then qP Q i j else qP Q j i by rewrite mxE.
rewrite !E !uPs /= !addr0; move: (x 0 0) (x (lift _ _) 0) (x (lift _ (lift _ _)) 0) => a b d.
have -> : a * (1 * a + (2%:R^-1 * c * b + 0 * d)) + (b * (2%:R^-1 * c * a + (1 * b + 0 * d)) + d * (0 * a + (0 * b + 0 * d))) =
  2%:R^-1 * ((2%:R - c) * (a ^+ 2 + b ^+ 2) + c * (a + b) ^+ 2) by field.
by rewrite mulr_ge0 ?invr_ge0 ?ler0n // addr_ge0 // mulr_ge0 ?subr_ge0 ?addr_ge0 ?sqr_ge0.
Qed.
Lemma u_kkt : kkt (sym_qp Q) (primal uw) (dual uw).
Proof.
split=> [i||i].
- rewrite (ord1 i) /= hl hu.
  have -> : (qA (sym_qp Q) *m primal uw) 0 0 = v by rewrite -hs mxE; apply: eq_bigr => k _; rewrite !mxE.
  by rewrite /between /= lexx.
- rewrite mulmx0 addr0; apply/matrixP => i j; rewrite (ord1 j) mxE [X in X + _]mxE !big_ord_recl big_ord0.
  have E k l : (sym_qp Q).(qP) k l = if (k <= l)%N then qP Q k l else qP Q l k by rewrite mxE.
  have -> : qq (sym_qp Q) i 0 = qq Q i 0 by [].
  rewrite !E !uPs uqs !mxE /uz; case: i => [[|[|[|//]]] hi] /=; by field.
- have -> : dual uw i 0 = 0 by rewrite mxE.
  by split; rewrite ltxx.
Qed.
Lemma u_far sc po : c = 1 -> tol_dual (dprm F sc po) Q (primal uw) (dual uw) < linf (qP Q *m primal uw + qq Q + (qA Q)^T *m dual uw).
Proof.
move=> c1; have P1 : qP Q *m primal uw = \col_i (if (i == 0 :> nat)%N then 3%:R else if (i == 1 :> nat)%N then 2%:R else 0).
  apply/matrixP => i j; rewrite (ord1 j) mxE !big_ord_recl big_ord0 !uPs !mxE /uz c1.
  by case: i => [[|[|[|//]]] hi] /=; field.
rewrite mulmx0 addr0 /tol_dual mulmx0 P1.
set a := \col_i _; set b := qq Q.
have t3 : 0 <= 3%:R :> F by rewrite ler0n.
have ha : norm a <= 3%:R.
  by apply/norm_leP => // i; rewrite mxE; case: i => [[|[|[|//]]] hi] /=; rewrite ?normr0 ?ger0_norm ?ler0n ?ler_nat.
have hb : norm b <= 3%:R.
  by apply/norm_leP => // i; rewrite uqs c1 -(natrD _ 2 1); case: ifP => _; rewrite ?normrN ?normr0 ?ger0_norm.
have h1 : 1 <= norm (a + b).
  apply: le_trans (norm_within _ (inord 1)); rewrite mxE uqs c1 -(natrD _ 2 1) mxE !inordK //=.
  by rewrite (_ : 2%:R - 3%:R = -1 :> F) ?normrN ?normr1 //; ring.
have lE k (w : 'cV[F]_k) : linf w = norm w by [].
rewrite !lE norm0.
apply: lt_le_trans h1; set t := Num.max _ _.
have ht : t <= 3%:R by rewrite /t !le_maxl ha hb t3.
have e0 : 0 <= eps_rel (dprm F sc po) by rewrite /= -(q2f0 F) q2f_le.
apply: le_lt_trans (ler_add (lexx _) (ler_wpmul2l e0 ht)) _.
have -> : 3%:R = q2f F (3#1).
  by rewrite /q2f /z2f /= divr1.
by rewrite /= -q2fM -q2fD -(q2f1 F) q2f_lt.
Qed.
End Abs.
End Cex.

Section Thm.
Variable F : realFieldType.
Local Notation m := (bm F).
(** The cost has a mixed second derivative, and the program that ocp_to_qp makes is convex and has a solution.  Started
    there, the solver with its default parameters never returns. *)
Theorem C89_refuted : exists (p : ocp F 1 1 1 0 0) (tf : F) xl dxl ul, [/\ ocp_derivs p, linear_in_integral p 0 &
  forall s, exists q : qsol F 3 1,
    let Q := @sqp_of F 3 1 (@oqp_update F 1 1 0 0 p 1 1 (@glgr F) m tf xl dxl ul s) in
    [/\ convex (sym_qp (dense_of Q)), kkt (sym_qp (dense_of Q)) (primal q) (dual q) &
        forall (e : env F 3 1) fuel sc po, good_sqrt e -> (forall M, ldlt_ok e M) ->
          solve_sparse e (dprm F sc po) fuel (@obj_new F 3 1) Q (Some q) = None]].
Proof.
exists (uocp 1), 1, (fun=> 0), (fun _ _ => 0), (fun=> 0); split; [exact: uocp_derivs|exact: uocp_lin|] => s; exists (uw F).
have [v [hl hu]] := u_fin 1 s; have c2 : 0 <= (1 : F) <= 2%:R by rewrite ler01 ler1n.
move: (@uq _ 1 s) (@uP _ 1 s) hl hu (u_sum hl hu); move: (oqp_update _ _ _ _ _ _ _ _ _ _) => S hq hP hl hu hs.
cbv zeta; split; [exact: u_convex hP c2|exact: u_kkt hq hP hl hu hs|] => e fuel sc po h lok.
have s0 : 0 < sigma (dprm F sc po) by rewrite /= -(q2f0 F) q2f_lt.
have E : solve_dense e (dprm F sc po) fuel (@obj_new F 3 1) (dense_of (@sqp_of F 3 1 S)) (Some (uw F)) = None.
  apply: (C89_runs_on fuel h (dprm_rho F sc po) s0 lok _ (u_convex hP c2) (u_kkt hq hP hl hu hs) (u_far hq hP sc po erefl)) => //.
    exact: rd_new.
  by exists 0; rewrite /= hl hu.
have := sparse_new e (dprm F sc po) fuel (@sqp_of F 3 1 S) (Some (uw F)); rewrite E.
by case: solve_sparse.
Qed.
(** Without the mixed term. *)
Lemma u_sep : separable (uocp (0 : F)).
Proof.
split=> [z a b _ _ _|z a b _ _ ab]; first by [].
by rewrite /val /= /ud2th (negbTE ab); case: ifP.
Qed.
Example C89_case s : let Q := @sqp_of F 3 1 (@oqp_update F 1 1 0 0 (uocp 0) 1 1 (@glgr F) m 1 (fun=> 0) (fun _ _ => 0) (fun=> 0) s) in
  sym_qp (dense_of Q) = dense_of Q /\
  exists r o, [/\ solve_sparse (env0 F true 3 1) (dprm F true false) 2 (@obj_new F 3 1) Q (Some (uw F)) = Some (r, o), code r = Optimal, primal r = primal (uw F) & dual r = dual (uw F)].
Proof.
have en : 3%N = (1 * (N_colloc m + 1) + 1 * N_colloc m)%N by rewrite bm_N.
split; first by apply: (@C89_diagonal F 1 1 0 0 1 1 (@glgr F) m 3 1 en); exact: u_sep.
have [v [hl hu]] := u_fin 0 s.
have c2 : 0 <= (0 : F) <= 2%:R by rewrite lexx ler0n.
have cv := u_convex (@uP _ 0 s) c2; have kk := u_kkt (@uq _ 0 s) (@uP _ 0 s) hl hu (u_sum hl hu).
have p0 a : ~~ Qle_bool a (0#1) -> 0 <= q2f F a by move=> h; apply: ltW; exact: pos01.
have s0 : 0 < sigma (dprm F true false) by rewrite /= -(q2f0 F) q2f_lt.
have hm M : max_iter (dprm F true false) = Some M -> (1 < M)%N by [].
have R := (@C89_separable_partial F 1 1 0 0 1 1 (@glgr F) m 3 1 (env0 F true 3 1) (dprm F true false) en (uocp 0) 1 (fun=> 0) (fun _ _ => 0) (fun=> 0) s (uw F) 2 u_sep
  (@env0_sqrt F true 3 1) (dprm_rho F _ _) s0 (p0 (1#1000) isT) (p0 (1#1000) isT) erefl isT hm (fun=> isT) isT isT cv kk isT).
exact: R.
Qed.
(** One iteration from the solution of the program with the mixed term. *)
Example C89_case' s : let p := dense_of (@sqp_of F 3 1 (@oqp_update F 1 1 0 0 (uocp 1) 1 1 (@glgr F) m 1 (fun=> 0) (fun _ _ => 0) (fun=> 0) s)) in
  exists (q : qsol F 3 1) prm r o, [/\ convex (sym_qp p), kkt (sym_qp p) (primal q) (dual q),
  tol_dual prm p (primal q) (dual q) < linf (qP p *m primal q + qq p + (qA p)^T *m dual q),
  solve_dense (env0 F true 3 1) prm 1 (@obj_new F 3 1) p (Some q) = Some (r, o) & code r = MaxIterations].
Proof.
have [v [hl hu]] := u_fin 1 s.
have c2 : 0 <= (1 : F) <= 2%:R by rewrite ler01 ler1n.
move: (@uq _ 1 s) (@uP _ 1 s) hl hu (u_sum hl hu); move: (oqp_update _ _ _ _ _ _ _ _ _ _) => S hq hP hl hu hs.
cbv zeta; exists (uw F).
pose prm : params F := Params (q2f F (8#5)) (q2f F (1#10)) (q2f F (1#1000000)) false (q2f F (1#1000)) (q2f F (1#1000)) (q2f F (1#10000)) (q2f F (1#10000))
    (Some 1%N) false 25 false 5 (q2f F (1#1000000)).
have kk := u_kkt hq hP hl hu hs.
have ti := no_contra kk.
exists prm; rewrite /solve_dense /cur_scale [scaling prm]/= /solve_core /ret0 [ldlt_ok _ _]/= ti.
have l0 : at_limit prm 0 = false by rewrite /at_limit /= mod0n.
have l1 : at_limit prm 1 by rewrite /at_limit /= modn_small // -{1}(expn0 2) ltn_exp2l.
have c0 : is_check prm 0 = false by rewrite /is_check !mod0n.
rewrite /main_loop l0 [stop_check_iter prm == 0%N]/= c0 l1 [_ || _]/=.
do 2 eexists; split; [exact: u_convex hP c2|exact: kk|exact: (u_far hq hP false false erefl)|reflexivity|by []].
Qed.
Print Assumptions C89_not_optimal.
Print Assumptions C89_runs_on.
Print Assumptions C89_diagonal.
Print Assumptions C89_separable_partial.
End Thm.
Print Assumptions C89_refuted.
