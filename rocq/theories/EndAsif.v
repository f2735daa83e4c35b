(** The active set invariance filter together with the QP solver it uses (C84). *)
From mathcomp Require Import all_ssreflect all_algebra zify.
From mathcomp.algebra_tactics Require Import ring.
From Verif Require Import LinAlg SparseModel QpModel QpSpec QpFacts QpAdmm QpLoop QpProps MeshFunModel NlpModel NlpSol MpcModel
  AsifModel AsifProps AsifThms AsifThms2 AsifThms3 EndQp.
Set Implicit Arguments.
Unset Strict Implicit.
Unset Printing Implicit Defensive.
Import Order.TTheory GRing.Theory Num.Theory.
Local Open Scope ring_scope.
Local Arguments muln : simpl never.

Section Glue.
Variables (F : realFieldType) (n m : nat).
(** The program qp_ as an argument of solve_qp, asif.hpp:94; its sizes are those of asif_func.hpp:80-97. *)
Definition dense_qp (q : dqp F) : qp F n m :=
  Qp (\matrix_(i, j) dP q i j) (\col_i dq q i) (\matrix_(i, j) dA q i j) (fun i => dl q i) (fun i => du q i).
(** QPSolution of the solver as the member warmstart_, and back, asif.hpp:94-96; the solver does not read the iteration
    count and the objective of a guess (qp_solver.hpp:380-391). *)
Definition msol_of (r : qsol F n m) : msol F := Msol (code r) (vget (primal r)) (vget (dual r)).
Definition guess_of (w : msol F) : qsol F n m := QSol (mcode w) 0 (\col_i mprimal w i) (\col_i mdual w i) 0.
(** solve_qp(qp_, prm_.qp, warmstart_), asif.hpp:94.  A call that does not return within [fuel] iterations is given the
    code Unknown, which no call that returns from the loop has. *)
Definition builtin (e : env F n m) (prm : QpModel.params F) (fuel : nat) (q : dqp F) (w : option (msol F)) : msol F :=
  if solve_qp e prm fuel (dense_qp q) (omap guess_of w) is Some r then msol_of r else Msol Unknown (fun=> 0) (fun=> 0).
Lemma builtin_optimal e prm fuel q w : mcode (builtin e prm fuel q w) = Optimal ->
  exists r o', [/\ solve_dense e prm fuel (@obj_new F n m) (dense_qp q) (omap guess_of w) = Some (r, o'), code r = Optimal & builtin e prm fuel q w = msol_of r].
Proof.
rewrite /builtin /solve_qp; case es : solve_dense => [[r o']|//] /= hc; by exists r, o'.
Qed.
End Glue.

Section Asif.
Variable F : realFieldType.
Variables (nx nu nh : nat) (X U : Type).
Variables (xplus : X -> 'cV[F]_nx -> X) (ad : 'cV[F]_nx -> 'M[F]_nx).
Variables (uplus : U -> 'cV[F]_nu -> U) (uminus : U -> U -> 'cV[F]_nu).
Variables (f : X -> U -> 'cV[F]_nx) (dfu : X -> U -> 'M[F]_(nx, nu)).
Variables (prm : fprm F nu U) (fuel : nat).
Local Notation K := (aK (fasif prm)).
Local Notation lim := (flim prm).
Local Notation ni := (bn lim).
Local Notation nn := nu.+1.
Local Notation mm := (K * nh + ni + 1)%N.
Variables (e : env F nn mm) (qprm : QpModel.params F) (qfuel : nat).
Local Notation solve := (builtin e qprm qfuel).
Local Notation call := (filter_call (nh := nh) xplus ad uplus uminus f dfu solve prm fuel).
Local Notation run := (filter_run (nh := nh) xplus ad uplus uminus f dfu solve prm fuel).
Local Notation new := (filter_new F).
Local Notation pb c := (Pbm (fT prm) (cg c) (cu c) (fW prm) lim).
Local Notation DQ := (dense_qp nn mm).

(** z = (mu, d). *)
Definition stack (mu : 'cV[F]_nu) (d : F) : 'cV[F]_nn := \col_i if (i < nu)%N then vget mu i else d.
Lemma stack_row (q : dqp F) mu d (r : 'I_mm) :
  (qA (DQ q) *m stack mu d) r 0 = \sum_(c < nu) dA q r c * mu c 0 + dA q r nu * d.
Proof.
rewrite mxE big_ord_recr /= !mxE /= ltnn; congr (_ + _); apply: eq_bigr => c _.
by rewrite !mxE /= ltn_ord vgetO.
Qed.
Lemma stackK (x : 'cV[F]_nn) : stack (\col_k vget x k) (vget x nu) = x.
Proof.
apply/colP => i; rewrite mxE; case: ifP => hi.
  by rewrite (vgetO _ (Ordinal hi)) mxE /= vgetO.
have -> : i = ord_max by apply: ord_inj => /=; move: hi (ltn_ord i); move: (nat_of_ord i); clear; lia.
exact: (vgetO x ord_max).
Qed.
Lemma feas_stack (q : dqp F) (c : fcallarg F nx nh X U) mu d : feas nh (pb c) (fasif prm) q mu d <-> feasible (DQ q) (stack mu d).
Proof.
split=> [h i|h r hr]; first by rewrite stack_row; apply: (h i (ltn_ord i)).
by have := h (Ordinal hr); rewrite stack_row.
Qed.
(** The values of the rows at (mu, d). *)
Definition rowvals (q : dqp F) (mu : 'cV[F]_nu) (d : F) : 'cV[F]_mm := \col_r (\sum_(c < nu) dA q r c * mu c 0 + dA q r nu * d).
Lemma rowvalsE q mu d : qA (DQ q) *m stack mu d = rowvals q mu d.
Proof. by apply/colP => r; rewrite stack_row mxE. Qed.
Lemma near_eadd (l u : ext F) a v t : row_near (eadd l (- a)) (eadd u (- a)) v t = row_near l u (a + v) t.
Proof.
rewrite /row_near; congr andb; [case: l => //= b|case: u => //= b]; last by rewrite -addrA [- a + t]addrC addrA ler_subr_addl.
by rewrite -addrA [- a - t]addrC addrA ler_subl_addl.
Qed.

Section Program.
Variables (c : fcallarg F nx nh X U) (q0 q : dqp F).
Hypothesis hq : hist nx nu nh X U K ni q0.
Hypothesis eu : asif_update xplus ad uminus f dfu (ch c) (cdht c) (cdhx c) (cbu c) (cdfcl c) (pb c) (fasif prm) fuel q0 = Some q.
(** The objective and its convexity. *)
Lemma PE (i j : 'I_nn) : qP (DQ q) i j = if i == j then (if (i < nu)%N then vget (fW prm) i else arelax (fasif prm)) else 0.
Proof.
have [_ _ c3 _] := hist_clean hq.
have [s1 [sts es]] := update_some eu; have [_ _ _ H _] := update_entries es eu.
rewrite mxE H; case: (eqVneq i j) => [->|ne].
  rewrite eqxx andbb; case: ifP => // h1; rewrite andbb; case: ifP => // /negP [].
  by move: h1 (ltn_ord j); move: (nat_of_ord j); clear; lia.
have ne' : (nat_of_ord i == j) = false by apply/negbTE.
rewrite ne' c3 ?ne' //; case: ifP => // _; case: ifP => // /andP[/eqP a /eqP b]; by rewrite a b eqxx in ne'.
Qed.
Lemma qfE mu d : qf (qP (DQ q)) (stack mu d) = \sum_(k < nu) fW prm k 0 * mu k 0 ^+ 2 + arelax (fasif prm) * d ^+ 2.
Proof.
have h (i : 'I_nn) : (qP (DQ q) *m stack mu d) i 0 = qP (DQ q) i i * stack mu d i 0.
  rewrite mxE (bigD1 i) //= big1 ?addr0 // => j ne; by rewrite PE eq_sym (negbTE ne) mul0r.
rewrite qf_dot dotE big_ord_recr /= h PE eqxx /= ltnn mxE /= ltnn; congr (_ + _); last by rewrite expr2; ring.
apply: eq_bigr => k _; rewrite h PE eqxx /= ltn_ord vgetO mxE /= ltn_ord vgetO expr2; ring.
Qed.
Lemma qE : qq (DQ q) = 0.
Proof.
have [_ _ _ c4] := hist_clean hq.
have [s1 [sts es]] := update_some eu; have [_ _ _ _ H] := update_entries es eu.
by apply/colP => i; rewrite !mxE H c4 if_same.
Qed.
Lemma costE mu d : cost (DQ q) (stack mu d) = 2%:R^-1 * (\sum_(k < nu) fW prm k 0 * mu k 0 ^+ 2 + arelax (fasif prm) * d ^+ 2).
Proof. by rewrite /cost qfE qE dot0l addr0. Qed.
Lemma convexE : (forall k, 0 <= fW prm k 0) -> 0 <= arelax (fasif prm) -> convex (DQ q).
Proof.
move=> W0 a0; split; first by apply/matrixP => i j; rewrite mxE !PE eq_sym; case: eqVneq => // ->.
by move=> x; rewrite -[x]stackK qfE; apply: addr_ge0; [apply: sumr_ge0 => k _|]; rewrite mulr_ge0 ?sqr_ge0.
Qed.
End Program.

Section Last.
Variables (cs : seq (fcallarg F nx nh X U)) (s : fst_ F) (outs : seq (fout F U)) (c : fcallarg F nx nh X U) (s' : fst_ F) (out : fout F U).
Hypotheses (er : run cs new = Some (s, outs)) (ec : call c s = Some (s', out)) (ho : fo_code out = Optimal).
Hypotheses (gs : good_sqrt e) (r0 : 0 < rho_bar qprm) (pf : polish qprm = false) (er1 : 0 <= eps_rel qprm < 1).
Local Notation p := (pb c).
Local Notation q := (fo_qp out).
(** The correction of the input and the relaxation that the solver returned, the dual variables, and the tolerance. *)
Definition o_mu : 'cV[F]_nu := \col_k mprimal (fo_sol out) k.
Definition o_d : F := mprimal (fo_sol out) nu.
Definition o_y : 'cV[F]_mm := \col_r mdual (fo_sol out) r.
Definition o_tol : F := row_tol qprm (linf (rowvals q o_mu o_d)).
Lemma code_sol : fo_code out = mcode (fo_sol out).
Proof. by move: ec; rewrite /filter_call; case: asif_update => // q' [_ <-]. Qed.
Lemma solved : exists r o', [/\ solve_dense e qprm qfuel (@obj_new F nn mm) (DQ q) (omap (guess_of nn mm) (fo_guess out)) = Some (r, o'),
  code r = Optimal, primal r = stack o_mu o_d & dual r = o_y].
Proof.
have [_ _ es _] := last_call er ec; have := ho; rewrite code_sol es => /builtin_optimal [r [o' [h1 h2 h3]]].
exists r, o'; split=> //; first by rewrite /o_mu /o_d es h3 stackK.
by apply/colP => i; rewrite mxE es h3 /= vgetO.
Qed.
Lemma sol_rows r : (r < mm)%N -> row_near (dl q r) (du q r) (\sum_(i < nu) dA q r i * o_mu i 0 + dA q r nu * o_d) o_tol.
Proof.
move=> hr; have [rr [o' [h1 h2 h3 _]]] := solved.
have := C82_rows gs r0 pf er1 (rd_new e qprm) h1 h2 (Ordinal hr).
by rewrite h3 stack_row rowvalsE.
Qed.
(** * C84: bounds of the input and the relaxation *)
Theorem C84_bounds : (forall mu, uminus (uplus (cu c) mu) (bc lim) = uminus (cu c) (bc lim) + mu) ->
  (forall i : 'I_ni, row_near (bl lim i) (bu_ lim i) ((bA lim *m uminus (fo_u out) (bc lim)) i 0) o_tol) /\ - o_tol <= o_d.
Proof.
move=> hu; have [hq eu _ ->] := last_call er ec; have [c1 c2 _ _] := hist_clean hq.
have [s1 [sts es]] := update_some eu; have [_ H [H3 H4 H5 H6] _ _] := update_entries es eu; split.
  move=> i; rewrite hu -/o_mu.
  have hr : (K * nh + i < mm)%N by rewrite -addnA ltn_add2l addn1 ltnS ltnW.
  have := sol_rows hr; have [a1 a2 a3 a4] := H i (ltn_ord i); rewrite a3 a4 near_eadd a2 c1 // mul0r addr0.
  congr (is_true (row_near _ _ _ _)); rewrite vgetO mulmxDr [in RHS]mxE; congr (_ + _); rewrite [in RHS]mxE; apply: eq_bigr => k _.
  by rewrite a1 // /mget !valK.
have hr : (K * nh + ni < mm)%N by rewrite addn1.
have := sol_rows hr; rewrite H4 H5 H6 /row_near /= andbT mul1r sub0r big1 ?add0r // => k _.
by rewrite H3 // c2 // mul0r.
Qed.
(** Barrier rows hold after adding the tolerance to the relaxation. *)
Lemma sol_barrier k (j : 'I_nh) : (k < K)%N -> arow q o_mu (o_d + o_tol) (k * nh + j).
Proof.
move=> hk; have [hq eu _ _] := last_call er ec.
have [s1 [sts es]] := update_some eu; have [H _ _ _ _] := update_entries es eu.
have [a1 a2 a3 a4] := H k j hk (ltn_ord j).
have hr : (k * nh + j < mm)%N.
  have := leq_mul2r nh k.+1 K; rewrite hk orbT mulSn => e1.
  by have := ltn_ord j; move: e1; move: (nat_of_ord j) => j'; clear; lia.
have := sol_rows hr; rewrite /arow a2 a3 a4 /row_near /between /= !andbT !mul1r ler_subl_addr.
by rewrite addrA.
Qed.
Theorem C84_barrier n0 : (0 < n0)%N -> fT prm / K%:R <= n0%:R * adt (fasif prm) -> (n0 < fuel)%N ->
  0 < fT prm -> (0 < K)%N -> 0 < adt (fasif prm) ->
  (forall mu, f (cg c) (uplus (cu c) mu) = f (cg c) (cu c) + dfu (cg c) (cu c) *m mu) ->
  exists n t x S idx, [/\ propagated xplus ad (fun t x => f x (cbu c t x)) (cdfcl c) (cg c) n t x S,
    forall k, (k < K)%N -> (idx k <= n)%N /\ tau p (fasif prm) * k%:R <= t (idx k) < tau p (fasif prm) * k%:R + dtv p (fasif prm) &
    forall k (j : 'I_nh), (k < K)%N ->
      let i := idx k in
      0 <= cdht c (t i) (x i) j 0 + (cdhx c (t i) (x i) *m S i *m f (cg c) (fo_u out)) j 0
           + aalpha (fasif prm) * ch c (t i) (x i) j 0 + o_d + o_tol].
Proof.
move=> n1 hn hf T0 K0 dt0 ha; have [_ eu _ euo] := last_call er ec.
have [n [t [x [S [idx [q' [h1 h2 h3 h4]]]]]]] :=
  C52_rows (p := p) (prm := fasif prm) xplus ad (uplus := uplus) uminus (ch c) (cdht c) (cdhx c) (cbu c) (cdfcl c) T0 dt0 K0 (fqp s) n1 hn hf ha.
exists n, t, x, S, idx; split; [exact: h1|exact: h2|]; move=> k j hk; have := sol_barrier j hk.
by move: h3; rewrite eu euo -/o_mu => -[eq]; rewrite [X in arow X]eq (h4 k j o_mu (o_d + o_tol) hk) addrA.
Qed.
(** * C84: the cost is minimal up to the tolerances *)
Definition wcost (mu : 'cV[F]_nu) (d : F) : F := 2%:R^-1 * (\sum_(k < nu) fW prm k 0 * mu k 0 ^+ 2 + arelax (fasif prm) * d ^+ 2).
Theorem C84_cost : (forall k, 0 <= fW prm k 0) -> 0 <= arelax (fasif prm) ->
  forall mu' d', feas nh p (fasif prm) q mu' d' ->
  wcost o_mu o_d <= wcost mu' d' + tol_dual qprm (DQ q) (stack o_mu o_d) o_y * (\sum_k `|mu' k 0 - o_mu k 0| + `|d' - o_d|)
                                 + o_tol * norm1 o_y.
Proof.
move=> W0 a0 mu' d' /feas_stack hf; have [r [o' [h1 h2 h3 h4]]] := solved.
have [hq eu _ _] := last_call er ec; have cv := convexE hq eu W0 a0.
have [z hz] := C02_optimal_dense gs r0 pf (rd_new e qprm) h1 h2; have := approx_gap cv hz hf.
have [_ w _ _] := hz.
rewrite h3 h4 !(costE hq eu) -!/(wcost _ _) => hg; apply: le_trans hg _; apply: ler_add.
  rewrite ler_add2l le_eqVlt; apply/orP; left; apply/eqP; congr (_ * _).
  rewrite /norm1 big_ord_recr /= !mxE /= ltnn; congr (_ + _); apply: eq_bigr => k _.
  by rewrite !mxE /= ltn_ord !vgetO mxE.
apply: ler_wpmul2r; first exact: norm1_ge0.
by have := row_tol_ok er1 w; rewrite h3 rowvalsE; apply; rewrite addn1.
Qed.
(** An input that is safe without relaxation is changed only within the tolerances. *)
Theorem C84_safe : (forall k, 0 <= fW prm k 0) -> 0 <= arelax (fasif prm) -> feas nh p (fasif prm) q 0 0 ->
  wcost o_mu o_d <= tol_dual qprm (DQ q) (stack o_mu o_d) o_y * (\sum_k `|o_mu k 0| + `|o_d|) + o_tol * norm1 o_y.
Proof.
move=> W0 a0 hf; have := C84_cost W0 a0 hf.
rewrite {2}/wcost big1 ?expr0n ?mulr0 ?addr0 ?mulr0 ?add0r ?sub0r ?normrN => [|k _]; last by rewrite mxE expr0n mulr0.
by under eq_bigr do rewrite mxE sub0r normrN.
Qed.
End Last.

(** * C85 for filters: as long as the inputs are safe they are returned unchanged *)
Definition zero_sol (w : msol F) : Prop := (forall k, mprimal w k = 0) /\ (forall k, mdual w k = 0).
Definition zero_guess (g : option (msol F)) : Prop := if g is Some w then zero_sol w else True.
Section Safe.
Hypotheses (gs : good_sqrt e) (r0 : 0 < rho_bar qprm) (sg : 0 < sigma qprm) (ea : 0 <= eps_abs qprm) (er1 : 0 <= eps_rel qprm).
Hypotheses (pf : polish qprm = false) (sc : (1 < stop_check_iter qprm)%N) (mi : forall N, max_iter qprm = Some N -> (1 < N)%N).
Hypotheses (lok : forall M, ldlt_ok e M) (qf2 : (1 < qfuel)%N).
Hypotheses (W0 : forall k, 0 <= fW prm k 0) (a0 : 0 <= arelax (fasif prm)).
Lemma safe_call c s s' out : hist nx nu nh X U K ni (fqp s) -> zero_guess (fwarm s) -> call c s = Some (s', out) ->
  feas nh (pb c) (fasif prm) (fo_qp out) 0 0 -> [/\ zero_guess (fwarm s'), fo_code out = Optimal & zero_sol (fo_sol out)].
Proof.
move=> hq zg; rewrite /filter_call; case eu : asif_update => [q|//] [<- <-] /= hf.
have cv := convexE hq eu W0 a0.
have z0 : stack 0 0 = 0 by apply/colP => i; rewrite !mxE /vget /mget; case: ifP => // _; do 2 (case: insub => //= ?); rewrite mxE.
pose w : qsol F nn mm := QSol Optimal 0 0 0 0.
have hk : kkt (DQ q) (primal w) (dual w).
  rewrite /=; split; first by rewrite -z0; apply/(feas_stack _ c).
    by rewrite !mulmx0 (qE hq eu) !addr0.
  by move=> i; rewrite !mxE /multiplier ltxx.
have [r [o' [h1 h2 h3 h4]]] := C85_returns gs r0 sg ea er1 pf sc mi lok (ltn0Sn nu) (n := nn) (m := mm) (ltac:(by rewrite addn1)) (rd_new e qprm) cv hk qf2.
have eb : builtin e qprm qfuel q (fwarm s) = msol_of r.
  rewrite /builtin /solve_qp; have -> : solve_dense e qprm qfuel (obj_new F nn mm) (DQ q) (omap (guess_of nn mm) (fwarm s)) = Some (r, o').
    rewrite -h1 solve_none //; case: (fwarm s) zg => [v [v1 v2]|//] /=; apply: solve_none; apply/colP => i; by rewrite !mxE ?v1 ?v2.
  by [].
have zs : zero_sol (builtin e qprm qfuel q (fwarm s)).
  by rewrite eb; split=> k /=; rewrite ?h3 ?h4 /vget /mget; do 2 (case: insub => //= ?); rewrite mxE.
by split=> //; rewrite eb /= h2 // -eb.
Qed.
Lemma safe_run cs s s' outs (c : fcallarg F nx nh X U) : hist nx nu nh X U K ni (fqp s) -> zero_guess (fwarm s) -> run cs s = Some (s', outs) ->
  (forall out, List.In out outs -> feas nh (pb c) (fasif prm) (fo_qp out) 0 0) -> zero_guess (fwarm s').
Proof.
elim: cs s outs => [|d cs IH] s outs hq hz /=; first by case=> <-.
case ec : (call d s) => [[s1 out]|//]; case er : (run cs s1) => [[s2 outs']|//] [es <-] ha; rewrite es in er.
have hq1 : hist nx nu nh X U K ni (fqp s1) by apply: (@run_hist F nx nu nh X U xplus ad uplus uminus f dfu solve prm fuel [:: d] s s1 [:: out]) => //=; rewrite ec.
have [z1 _ _] := safe_call hq hz ec (ha out (or_introl erefl)).
by apply: IH hq1 z1 er _ => o ho; apply: ha; right.
Qed.
Theorem C85_filter cs s outs c s' out : run cs new = Some (s, outs) -> call c s = Some (s', out) ->
  (forall o, List.In o (out :: outs) -> feas nh (pb c) (fasif prm) (fo_qp o) 0 0) ->
  fo_code out = Optimal /\ fo_u out = uplus (cu c) 0.
Proof.
move=> er ec ha; have hq : hist nx nu nh X U K ni (fqp s) by apply: run_hist er; exact: Hnew.
have zg : zero_guess (fwarm s) by apply: (safe_run _ _ er (c := c)) => //; [exact: Hnew|move=> o ho; apply: ha; right].
have [_ h2 [h3 _]] := safe_call hq zg ec (ha out (or_introl erefl)); split=> //.
have [_ _ _ ->] := last_call er ec; congr uplus; by apply/colP => k; rewrite !mxE h3.
Qed.
End Safe.
End Asif.
