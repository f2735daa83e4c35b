(** C01-C16 for the QP solver: the theorems that hold. *)
From mathcomp Require Import all_ssreflect all_algebra.
From mathcomp.algebra_tactics Require Import ring.
From Verif Require Import LinAlg QpModel QpSpec QpFacts QpAdmm QpLoop.
Set Implicit Arguments.
Unset Strict Implicit.
Unset Printing Implicit Defensive.
Import Order.TTheory GRing.Theory Num.Theory.
Local Open Scope ring_scope.

Section Props.
Variables (F : realFieldType) (n m : nat).
Variables (e : env F n m) (prm : params F).
Implicit Types (p : qp F n m) (s : scaling_t F n m) (o : obj F n m).
Notation spb s p := (scaled_problem (s_c s) (s_x s) (s_y s) p).

(** * C01 *)
Lemma ones_good : good_scaling (Scaling 1 (ones F n) (ones F m)).
Proof. by split=> /=; [exact: ltr01|exact: pos_ones|exact: pos_ones]. Qed.
Lemma cur_scale_good o p s : good_sqrt e -> good_scaling (o_s o) -> cur_scale e prm o p = Some s -> good_scaling s.
Proof. by rewrite /cur_scale => h g; case: ifP => _ => [/(scale_good h)|[<-]]. Qed.
Lemma solve_dense_obj fuel o p ws r o' : solve_dense e prm fuel o p ws = Some (r, o') ->
  exists2 s, cur_scale e prm o p = Some s &
    solve_core e prm fuel p s (Hd prm p s) ws = Some r /\ o' = Obj s (o_h o) (o_cmp o) (o_pat o).
Proof.
rewrite /solve_dense; case: (cur_scale e prm o p) => [s|] //.
case E : (solve_core _ _ _ _ _ _ _) => [r'|] // [<- <-]; by exists s.
Qed.
Lemma reach_d_good o : good_sqrt e -> reach_d e prm o -> good_scaling (o_s o).
Proof.
move=> h; elim=> [|o' _ _|o0 fuel p ws r o' _ g /solve_dense_obj[s cs [_ ->]]].
- exact: ones_good.
- exact: ones_good.
- exact: cur_scale_good cs.
Qed.

(** The factors in use in any solve are positive. *)
Theorem C01_positive o p s : good_sqrt e -> reach_d e prm o -> cur_scale e prm o p = Some s ->
  [/\ 0 < s_c s, forall i, 0 < s_x s i 0 & forall i, 0 < s_y s i 0].
Proof. by move=> h ro cs; have [c x y] := cur_scale_good h (reach_d_good h ro) cs; split. Qed.

Lemma ext_timesE t (b : ext F) : ext_times t b = ext_scale t b.
Proof. by case: b. Qed.
Lemma spb_feas s p x : good_scaling s -> feasible (spb s p) x <-> feasible p (cmul (s_x s) x).
Proof.
move=> [_ _ sy]; have E i : (qA (spb s p) *m x) i 0 = s_y s i 0 * (qA p *m cmul (s_x s) x) i 0.
  by rewrite /= -!mulmxA diag_cmul diag_cmul mxE.
by split=> h i; have := h i; rewrite E /= !ext_timesE between_scale.
Qed.
Lemma diag_dot k (d : 'cV[F]_k) u v : dot (diag_mx d^T *m u) v = dot u (diag_mx d^T *m v).
Proof. by rewrite !diag_cmul dot_cmul. Qed.
Lemma spb_cost s p x : cost (spb s p) x = s_c s * cost p (cmul (s_x s) x).
Proof.
rewrite /cost /= qfZ dotZl diag_dot diag_cmul.
have -> : qf (diag_mx (s_x s)^T *m qP p *m diag_mx (s_x s)^T) x = qf (qP p) (cmul (s_x s) x).
  by rewrite -[X in X *m qP p]tr_diag_mx qf_congr diag_cmul.
by rewrite mulrDr; congr (_ + _); rewrite mulrCA.
Qed.
Lemma spb_grad s p x y : good_scaling s ->
  qP (spb s p) *m x + qq (spb s p) + (qA (spb s p))^T *m y =
  s_c s *: cmul (s_x s) (qP p *m cmul (s_x s) x + qq p + (qA p)^T *m ((s_c s)^-1 *: cmul (s_y s) y)).
Proof.
move=> [c _ _] /=; have c0 := lt0r_neq0 c.
rewrite -scalemxAl -scalemxAr -!mulmxA diag_cmul !trmx_mul !tr_diag_mx -!mulmxA !diag_cmul.
by rewrite !cmulDr cmulZr !scalerDr scalerA mulfV // scale1r.
Qed.
Lemma spb_kkt s p x y : good_scaling s ->
  kkt (spb s p) x y <-> kkt p (cmul (s_x s) x) ((s_c s)^-1 *: cmul (s_y s) y).
Proof.
move=> g; have [c sx sy] := g.
have E i : (qA (spb s p) *m x) i 0 = s_y s i 0 * (qA p *m cmul (s_x s) x) i 0.
  by rewrite /= -!mulmxA diag_cmul diag_cmul mxE.
have G : qP (spb s p) *m x + qq (spb s p) + (qA (spb s p))^T *m y = 0 <->
         qP p *m cmul (s_x s) x + qq p + (qA p)^T *m ((s_c s)^-1 *: cmul (s_y s) y) = 0.
  rewrite spb_grad //; move: (_ + _ + _) => w; split=> [h|->]; last by rewrite cmul0r scaler0.
  have h1 : cmul (s_x s) w = 0.
    by apply: (scalerI (lt0r_neq0 c)); rewrite h scaler0.
  by rewrite -(cmulVK w sx) h1 cmul0r.
have M i : multiplier (ql (spb s p) i) (qu (spb s p) i) ((qA (spb s p) *m x) i 0) (y i 0) <->
  multiplier (ql p i) (qu p i) ((qA p *m cmul (s_x s) x) i 0) (((s_c s)^-1 *: cmul (s_y s) y) i 0).
  rewrite E !mxE; have {1}-> : y i 0 = (s_c s / s_y s i 0) * ((s_c s)^-1 * (s_y s i 0 * y i 0)).
    by rewrite mulrA -mulrA mulrACA mulfV ?lt0r_neq0 // mul1r mulKf // lt0r_neq0.
  by rewrite /= !ext_timesE; apply: mult_scale => //; rewrite divr_gt0.
have Fe := spb_feas p x g; split=> -[h1 h2 h3]; split.
- by apply/Fe.
- by apply/G.
- by move=> i; apply/M.
- by apply/Fe.
- by apply/G.
- by move=> i; apply/M.
Qed.

(** The scaled problem is equivalent to the user's. *)
Theorem C01_equivalent s p : 0 < s_c s -> (forall i, 0 < s_x s i 0) -> (forall i, 0 < s_y s i 0) ->
  [/\ forall x, feasible (spb s p) x <-> feasible p (unscale_x s x),
      forall x, cost (spb s p) x = s_c s * cost p (unscale_x s x),
      forall x, optimal (spb s p) x <-> optimal p (unscale_x s x) &
      forall x y, kkt (spb s p) x y <-> kkt p (unscale_x s x) (unscale_y s y)].
Proof.
move=> c sx sy; have g : good_scaling s by [].
split; [by move=> x; exact: spb_feas|by move=> x; exact: spb_cost| |by move=> x y; exact: spb_kkt].
move=> x; split=> -[/(spb_feas p x g) f h]; split=> //.
- move=> v fv; have := h (cmul (cinv (s_x s)) v); rewrite !spb_cost ler_pmul2l // cmulKV //; apply.
  by apply/spb_feas; rewrite // cmulKV.
- by move=> v /(spb_feas p v g) fv; rewrite !spb_cost ler_pmul2l //; apply: h.
Qed.

(** Warm starts are scaled by the inverse of the map applied to results. *)
Theorem C01_warmstart s p (w : qsol F n m) : 0 < s_c s -> (forall i, 0 < s_x s i 0) -> (forall i, 0 < s_y s i 0) ->
  [/\ unscale_x s (it_x (start p s (Some w))) = primal w,
      unscale_y s (it_y (start p s (Some w))) = dual w,
      unscale_z s (it_z (start p s (Some w))) = qA p *m primal w &
      forall x y k ob c, it_x (start p s (Some (QSol c k (unscale_x s x) (unscale_y s y) ob))) = x /\
                         it_y (start p s (Some (QSol c k (unscale_x s x) (unscale_y s y) ob))) = y].
Proof.
move=> c sx sy; split=> /=; rewrite /unscale_x /unscale_y /unscale_z ?cmulKV ?cmulVK //.
  by rewrite cmulZr scalerA mulVf ?lt0r_neq0 // scale1r cmulKV.
move=> x y _ _ _; rewrite cmulVK // cmulZr scalerA mulfV ?lt0r_neq0 // scale1r cmulVK //.
Qed.

(** The solver with scaling s iterates on p exactly as without scaling on the scaled problem. *)
Lemma scaledP_spb s p : scaledP p s = qP (spb s p).
Proof.
rewrite /= -mulmxA mul_diagl mul_diagr; apply/matrixP => i j; rewrite !mxE.
by gen_entries; move: (s_c s) => c; ring.
Qed.
Lemma scaledA_spb s p : scaledA p s = qA (spb s p).
Proof.
by rewrite /= -mulmxA mul_diagl mul_diagr; apply/matrixP => i j; rewrite !mxE mulrA.
Qed.
Notation s1 := (Scaling 1 (ones F n) (ones F m)).
Lemma scaledP_1 p : scaledP p s1 = qP p.
Proof. by apply/matrixP => i j; rewrite !mxE /= ?mxE !mul1r mulr1. Qed.
Lemma scaledA_1 p : scaledA p s1 = qA p.
Proof. by apply/matrixP => i j; rewrite !mxE /= ?mxE !mul1r mulr1. Qed.
Lemma rho_spb s p : good_scaling s -> rho_vec prm p s = rho_vec prm (spb s p) s1.
Proof.
move=> [_ _ sy]; apply: vecP => i; rewrite !mxE /= ?mxE.
case: (ql p i) => [|a|]; case: (qu p i) => [|b|] //=.
by rewrite -mulrBr normrM gtr0_norm // mul1r.
Qed.
Definition step_gen (a : F) (rho : 'cV[F]_m) (pp : 'cV[F]_(n + m)) (cl : 'cV[F]_m -> 'cV[F]_m) (v : xyz F n m) : xyz F n m :=
  let ac := 1 - a in
  let z' := cl (a *: cmul (cinv rho) (dsubmx pp) + ac *: cmul (cinv rho) (it_y v) + it_z v) in
  XYZ (a *: usubmx pp + ac *: it_x v) (ac *: it_y v + a *: dsubmx pp + cmul rho (it_z v) - cmul rho z') z'.
Lemma step_genE s p Hs v : admm_step prm p s Hs v =
  step_gen (alpha prm) (rho_vec prm p s) (invmx Hs *m admm_rhs prm p s v)
    (fun w => \col_i clamp (ext_scale (s_y s i 0) (ql p i)) (ext_scale (s_y s i 0) (qu p i)) (w i 0)) v.
Proof. by []. Qed.
Lemma step_gen_ext a rho pp cl1 cl2 v : cl1 =1 cl2 -> step_gen a rho pp cl1 v = step_gen a rho pp cl2 v.
Proof. by move=> h; rewrite /step_gen h. Qed.
Theorem C01_iterates s p Hs v : 0 < s_c s -> (forall i, 0 < s_x s i 0) -> (forall i, 0 < s_y s i 0) ->
  admm_step prm p s Hs v = admm_step prm (spb s p) s1 Hs v /\
  fill_dense prm p s = fill_dense prm (spb s p) s1.
Proof.
move=> c sx sy; have g : good_scaling s by [].
split; last first.
  by rewrite /fill_dense -rho_spb // scaledP_spb scaledA_spb scaledP_1 scaledA_1.
have R : admm_rhs prm p s v = admm_rhs prm (spb s p) s1 v.
  by rewrite /admm_rhs rho_spb //= diag_cmul scale1r cmul1.
rewrite 2!step_genE R rho_spb //; apply: step_gen_ext => w.
apply: vecP => i; rewrite !mxE /= !ext_timesE.
by case: (ql p i) => [|a|]; case: (qu p i) => [|b|] //=; rewrite !mul1r.
Qed.

(** * The result of a call *)
Lemma coreP fuel p s Hs ws r : solve_core e prm fuel p s Hs ws = Some r ->
  exists2 t, main_loop e prm fuel 0 p s Hs (start p s ws) (ret0 e p Hs) = Some t & r = finish e prm p s t.
Proof. by rewrite /solve_core; case: (main_loop _ _ _ _ _ _ _ _ _) => [t|] // [<-]; exists t. Qed.
Lemma not_trivial p : trivially_infeasible p = false -> forall i, contradictory (ql p i) (qu p i) = false.
Proof. by move/negbT/existsPn => h i; apply/negbTE. Qed.
Notation tr p s Hs ws := (traj prm p s Hs (start p s ws)).

(** Verdict Optimal comes from the test in some iteration j, the last one. *)
Lemma core_optimal fuel p s Hs ws r : solve_core e prm fuel p s Hs ws = Some r -> code r = Optimal ->
  [/\ ldlt_ok e Hs, trivially_infeasible p = false &
    exists2 j, r = finish e prm p s (j.+1, tr p s Hs ws j.+1, Some Optimal) &
      [/\ is_check prm j & check_optimal prm p (unscale_x s (it_x (tr p s Hs ws j.+1)))
        (unscale_y s (it_y (tr p s Hs ws j.+1))) (unscale_z s (it_z (tr p s Hs ws j.+1)))]].
Proof.
move=> /coreP[[[k v] rc] hl ->] /= hc; have {hc} rcE : rc = Some Optimal.
  by case: rc hc {hl} => [c|] //=; case: c.
rewrite rcE in hl *; move: hl; rewrite /ret0; case: ifP => lok; last by rewrite loop_done.
case: ifP => ti; first by rewrite loop_done.
have -> : start p s ws = tr p s Hs ws 0 by [].
move=> /loopP[_ -> _ _ [j -> [_ cj vj]]]; split=> //; exists j => //; split=> //.
move: vj; rewrite /verdict /check_iter.
case E : (check_stopping _ _ _ _ _ _ _) => [c|]; last by case: ifP.
move=> [hc]; rewrite hc in E; move: E; rewrite /check_stopping.
by case: ifP => //; case: ifP => //; case: ifP.
Qed.

(** * C02 *)
Lemma approx_of_check p x y z : check_optimal prm p x y z ->
  within (qA p *m x - z) (tol_primal prm p x z) /\ within (qP p *m x + qq p + (qA p)^T *m y) (tol_dual prm p x y).
Proof. by case/andP => h1 h2; split; apply: norm_le_within => //; rewrite -addrA. Qed.
Lemma core_approx fuel p s Hs ws r : 0 < rho_bar prm -> good_scaling s -> polish prm = false ->
  solve_core e prm fuel p s Hs ws = Some r -> code r = Optimal ->
  exists z, approx_kkt p (primal r) (dual r) z (tol_primal prm p (primal r) z) (tol_dual prm p (primal r) (dual r)).
Proof.
move=> r0 g pf hs hc; have [_ ti [j -> [cj ck]]] := core_optimal hs hc.
have [c sx sy] := g; set v := traj _ _ _ _ _ _ in ck *.
have cn : cone (sl' p s) (su' p s) v by apply: step_cone' => //; exact: not_trivial.
move: (v) ck cn => {}v ck cn; rewrite /finish pf /=.
exists (unscale_z s (it_z v)); have [t1 t2] := approx_of_check ck; split=> // i.
- have [b _] := cn i; move: b; rewrite mxE [X in between _ _ (X * _)]mxE -[X in between (sl' _ _ _) _ X -> _](mulVKf (lt0r_neq0 (sy i))).
  by rewrite between_scale.
- have [_ h] := cn i; rewrite !mxE /=.
  have := mult_scale (ql p i) (qu p i) ((s_y s i 0)^-1 * it_z v i 0) ((s_c s)^-1 * (s_y s i 0 * it_y v i 0))
    (sy i) (divr_gt0 c (sy i)).
  case=> H _; apply: H; rewrite mulVKf ?lt0r_neq0 //.
  by rewrite mulrA -mulrA mulrACA mulfV ?lt0r_neq0 // mul1r mulKf // lt0r_neq0.
Qed.
Theorem C02_optimal_dense fuel o p ws r o' : good_sqrt e -> 0 < rho_bar prm -> polish prm = false ->
  reach_d e prm o -> solve_dense e prm fuel o p ws = Some (r, o') -> code r = Optimal ->
  exists z, approx_kkt p (primal r) (dual r) z (tol_primal prm p (primal r) z) (tol_dual prm p (primal r) (dual r)).
Proof.
move=> h r0 pf ro /solve_dense_obj[s cs [hs _]]; apply: core_approx hs => //.
exact: cur_scale_good (reach_d_good h ro) cs.
Qed.

(** * C03 *)
Lemma convex_grad p x v : convex p -> dot (qP p *m x + qq p) (v - x) <= cost p v - cost p x.
Proof.
move=> [sy ps]; have := ps (v - x); rewrite /cost !qf_dot => h.
rewrite -subr_ge0; have -> : 2%:R^-1 * dot v (qP p *m v) + dot (qq p) v - (2%:R^-1 * dot x (qP p *m x) + dot (qq p) x)
  - dot (qP p *m x + qq p) (v - x) = 2%:R^-1 * dot (v - x) (qP p *m (v - x)).
  rewrite mulmxBr !(dotDl, dotDr, dotNl, dotNr).
  have -> : dot v (qP p *m x) = dot x (qP p *m v) by rewrite dotMr sy dotC.
  rewrite [dot (qP p *m x) v]dotMl sy [dot (qP p *m x) x]dotC; by field.
by rewrite mulr_ge0 // invr_ge0 ler0n.
Qed.
(** Approximate KKT points are nearly optimal. *)
Lemma approx_gap p x y z rp rd v : convex p -> approx_kkt p x y z rp rd -> feasible p v ->
  cost p x <= cost p v + rd * norm1 (v - x) + rp * norm1 y.
Proof.
move=> cv [bz hp hd hm] fv; have := convex_grad x v cv.
have -> : qP p *m x + qq p = (qP p *m x + qq p + (qA p)^T *m y) - (qA p)^T *m y by rewrite addrK.
rewrite dotBl -dotMr => h.
have h1 : - (rd * norm1 (v - x)) <= dot (qP p *m x + qq p + (qA p)^T *m y) (v - x).
  by rewrite ler_oppl; apply: le_trans (ler_norm _) _; rewrite normrN; exact: dot_within.
have h2 : dot y (qA p *m (v - x)) <= rp * norm1 y.
  have -> : qA p *m (v - x) = (qA p *m v - z) - (qA p *m x - z).
    by rewrite mulmxBr opprB addrA subrK.
  rewrite dotBr ler_subl_addr; apply: (@le_trans _ _ 0).
    rewrite dotE -oppr_ge0 -sumrN sumr_ge0 // => i _; rewrite oppr_ge0 [X in _ * X]mxE [X in _ * (_ + X)]mxE.
    exact: mult_ineq (hm i) (fv i).
  rewrite dotC -ler_subl_addr sub0r; apply: le_trans (ler_norm _) _; rewrite normrN; exact: dot_within.
rewrite -addrA -ler_subl_addl; apply: (@le_trans _ _ (- (cost p v - cost p x))).
  by rewrite opprB.
rewrite ler_oppl; apply: le_trans h; rewrite opprD; exact: ler_sub.
Qed.
Lemma approx_exact p x y : approx_kkt p x y (qA p *m x) 0 0 <-> kkt p x y.
Proof.
split=> [[h1 _ h2 h3]|[h1 h2 h3]].
  split=> //; apply: vecP => i; have := h2 i; rewrite normr_le0 => /eqP ->; by rewrite mxE.
by split=> // i; rewrite ?subrr ?h2 mxE normr0.
Qed.
Theorem C03_near_optimal fuel o p ws r o' : good_sqrt e -> 0 < rho_bar prm -> polish prm = false ->
  reach_d e prm o -> solve_dense e prm fuel o p ws = Some (r, o') -> code r = Optimal -> convex p ->
  exists2 z : 'cV[F]_m, (forall i, between (ql p i) (qu p i) (z i 0)) &
    forall v, feasible p v ->
      cost p (primal r) <= cost p v + tol_dual prm p (primal r) (dual r) * norm1 (v - primal r)
                                    + tol_primal prm p (primal r) z * norm1 (dual r).
Proof.
move=> h r0 pf ro hs hc cv; have [z hz] := C02_optimal_dense h r0 pf ro hs hc.
by exists z => [|v fv]; [case: hz|exact: approx_gap hz fv].
Qed.
(** Zero residuals: a global minimiser. *)
Theorem C03_kkt_optimal p x y : convex p -> kkt p x y -> optimal p x.
Proof.
move=> cv k; have [f _ _] := k; split=> // v fv.
have := approx_gap cv (proj2 (approx_exact p x y) k) fv.
by rewrite !mul0r !addr0.
Qed.

(** * C05 *)
Theorem C05_nonsingular s p : 0 < s_c s -> (forall i, 0 < s_x s i 0) -> (forall i, 0 < s_y s i 0) ->
  0 < sigma prm -> 0 < rho_bar prm -> psd (symU (qP p)) ->
  symU (fill_dense prm p s) \in unitmx /\
  forall b : 'cV[F]_(n + m), exists2 t, symU (fill_dense prm p s) *m t = b & forall t', symU (fill_dense prm p s) *m t' = b -> t' = t.
Proof.
move=> c sx sy s0 r0 ps; have hu : Hd prm p s \in unitmx by apply: Hd_unit => //; split.
split=> // b; exists (invmx (Hd prm p s) *m b); first by rewrite mulKVmx.
by move=> t' <-; rewrite mulKmx.
Qed.
Definition clean (o : obj F n m) := o_cmp o = false -> forall r c, o_h o r c = None.
Lemma fill_sparse_dense o (p : sqp F n m) s : clean o ->
  symU (sp_mx (fill_sparse prm (o_cmp o) (o_h o) p s)) = symU (fill_dense prm (dense_of p) s).
Proof.
move=> cl; apply: symU_ext => r c rc; rewrite mxE /fill_sparse.
have O : oval (if o_cmp o then omap (fun=> 0) (o_h o r c) else o_h o r c) = 0.
  by case E : (o_cmp o); [case: (o_h o r c)|rewrite cl].
move: O rc; case: (split_ordP r) => i ->; case: (split_ordP c) => j ->; move=> O rc.
- rewrite block_mxEul !mxE; move: O; case: (sP p i j) => [v|] O.
    rewrite /= in rc; rewrite rc.
    by case: (eqVneq i j) => _ /=; rewrite ?mulr1n ?mulr0n ?addr0; [congr (_ + _)|]; ring.
  by case: (eqVneq i j) => _ /=; rewrite O mulr0 mul0r ?mulr1n ?mulr0n ?addr0.
- rewrite block_mxEur !mxE; case: (sA p j i) => [v|] /=; first by ring.
  by rewrite O mulr0 mul0r.
- by move: rc; rewrite /= leqNgt ltn_addr.
- rewrite block_mxEdr !mxE; case: (eqVneq i j) => _ /=; rewrite ?mulr1n ?mulr0n //.
  by rewrite invrN mulN1r.
Qed.

Lemma solve_sparse_core fuel o (p : sqp F n m) ws r o' : clean o -> solve_sparse e prm fuel o p ws = Some (r, o') ->
  exists2 s, cur_scale e prm o (dense_of p) = Some s &
    [/\ solve_core e prm fuel (dense_of p) s (Hd prm (dense_of p) s) ws = Some r,
        pattern_ok (o_pat o) (fill_sparse prm (o_cmp o) (o_h o) p s) &
        o' = Obj s (fill_sparse prm (o_cmp o) (o_h o) p s) true
                 (Some (odflt (pattern (fill_sparse prm (o_cmp o) (o_h o) p s)) (o_pat o)))].
Proof.
move=> cl; rewrite /solve_sparse; case: (cur_scale _ _ _ _) => [s|] //.
rewrite fill_sparse_dense //; case: ifP => // po.
by case E : (solve_core _ _ _ _ _ _ _) => [r'|] // [<- <-]; exists s.
Qed.
Lemma reach_s_clean o : reach_s e prm o -> clean o.
Proof.
elim=> [|o' _ _|o0 fuel p ws r o' _ cl /(solve_sparse_core cl)[s _ [_ _ ->]]] //.
Qed.
Lemma reach_s_good o : good_sqrt e -> reach_s e prm o -> good_scaling (o_s o).
Proof.
move=> h; elim=> [|o' _ _|o0 fuel p ws r o' ro g /(solve_sparse_core (reach_s_clean ro))[s cs [_ _ ->]]].
- exact: ones_good.
- exact: ones_good.
- exact: cur_scale_good cs.
Qed.
(** Sparse and dense problems give the same system, whatever was solved before. *)
Theorem C05_sparse_dense o (p : sqp F n m) s : reach_s e prm o ->
  symU (sp_mx (fill_sparse prm (o_cmp o) (o_h o) p s)) = symU (fill_dense prm (dense_of p) s).
Proof. by move=> ro; apply: fill_sparse_dense; exact: reach_s_clean. Qed.
Theorem C02_optimal_sparse fuel o (ps : sqp F n m) ws r o' : good_sqrt e -> 0 < rho_bar prm -> polish prm = false ->
  reach_s e prm o -> solve_sparse e prm fuel o ps ws = Some (r, o') -> code r = Optimal ->
  let p := dense_of ps in
  exists z, approx_kkt p (primal r) (dual r) z (tol_primal prm p (primal r) z) (tol_dual prm p (primal r) (dual r)).
Proof.
move=> h r0 pf ro /(solve_sparse_core (reach_s_clean ro))[s cs [hs _ _]]; apply: core_approx hs => //.
exact: cur_scale_good (reach_s_good h ro) cs.
Qed.

(** * C13 *)
Lemma reach_d_ones o : scaling prm = false -> reach_d e prm o -> o_s o = s1.
Proof.
move=> sc; elim=> [|o' _ _|o0 fuel p ws r o' _ g /solve_dense_obj[s cs [_ ->]]] //=.
by move: cs; rewrite /cur_scale sc g => -[].
Qed.
Lemma reach_s_ones o : scaling prm = false -> reach_s e prm o -> o_s o = s1.
Proof.
move=> sc; elim=> [|o' _ _|o0 fuel p ws r o' ro g /(solve_sparse_core (reach_s_clean ro))[s cs [_ _ ->]]] //=.
by move: cs; rewrite /cur_scale sc g => -[].
Qed.
Theorem C13_history_dense fuel o p ws : reach_d e prm o ->
  omap fst (solve_dense e prm fuel o p ws) = omap fst (solve_dense e prm fuel (@obj_new F n m) p ws).
Proof.
move=> ro; rewrite /solve_dense; have -> : cur_scale e prm o p = cur_scale e prm (@obj_new F n m) p.
  by rewrite /cur_scale; case: ifP => // sc; rewrite (reach_d_ones sc ro).
by case: (cur_scale _ _ _ _) => // s; case: (solve_core _ _ _ _ _ _ _).
Qed.
Lemma cur_scale_s o p : reach_s e prm o -> cur_scale e prm o p = cur_scale e prm (@obj_new F n m) p.
Proof. by move=> ro; rewrite /cur_scale; case: ifP => // sc; rewrite (reach_s_ones sc ro). Qed.
Lemma clean_new : clean (@obj_new F n m).
Proof. by []. Qed.
(** Sparse problems: if the symbolic analysis is the right one the result is that of a fresh object. *)
Theorem C13_history_sparse_partial fuel o (p : sqp F n m) ws r o' : reach_s e prm o ->
  solve_sparse e prm fuel o p ws = Some (r, o') ->
  omap fst (solve_sparse e prm fuel (@obj_new F n m) p ws) = Some r.
Proof.
move=> ro /(solve_sparse_core (reach_s_clean ro))[s cs [hs _ _]].
rewrite /solve_sparse -(cur_scale_s _ ro) cs (fill_sparse_dense (o := @obj_new F n m)).
  by rewrite -/(Hd prm (dense_of p) s) hs.
exact: clean_new.
Qed.
Definition patH (cP : 'I_n -> 'I_n -> bool) (cA : 'I_m -> 'I_n -> bool) (r c : 'I_(n + m)) : bool :=
  match split r, split c with
  | inl i, inl j => (i == j) || cP i j
  | inl i, inr j => cA j i
  | inr i, inr j => i == j
  | inr _, inl _ => false
  end.
Lemma fill_pat cmp (h : spmat F n m) (p : sqp F n m) s cP cA (r c : 'I_(n + m)) : structure p cP cA -> (r <= c)%N ->
  (pattern h r c -> patH cP cA r c) -> pattern (fill_sparse prm cmp h p s) r c = patH cP cA r c.
Proof.
move=> [h1 h2] rc; rewrite /pattern /fill_sparse /patH.
have O : (if (if cmp then omap (fun=> 0) (h r c) else h r c) is Some _ then true else false) =
         (if h r c is Some _ then true else false) by case: cmp; case: (h r c).
move: O rc; case: (split_ordP r) => i ->; case: (split_ordP c) => j -> O rc.
- rewrite -h1; rewrite /= in rc; case: (eqVneq i j) => _ //=; case: (sP p i j) => [v|] /=; first by rewrite rc.
  by move=> H; rewrite O; apply/negbTE/negP => /H.
- rewrite -h2; case: (sA p j i) => [v|] //= H; by rewrite O; apply/negbTE/negP => /H.
- by move: rc; rewrite /= leqNgt ltn_addr.
- case: (eqVneq i j) => _ //= H; by rewrite O; apply/negbTE/negP => /H.
Qed.
Lemma reach_same_s cP cA o : reach_same e prm cP cA o -> reach_s e prm o.
Proof. by elim=> [|o' _|o0 fuel p ws r o' _ h _]; [exact: rs_new|exact: rs_analyze|exact: rs_solve]. Qed.
Lemma reach_same_pat cP cA o : reach_same e prm cP cA o ->
  (forall r c : 'I_(n + m), (r <= c)%N -> pattern (o_h o) r c -> patH cP cA r c) /\
  (forall q, o_pat o = Some q -> forall r c : 'I_(n + m), (r <= c)%N -> q r c = patH cP cA r c).
Proof.
elim=> [|o' _ [_ h]|o0 fuel p ws r o' ro [h1 h2] st] //.
case/(solve_sparse_core (reach_s_clean (reach_same_s ro))) => s cs [_ _ ->] /=; split.
  by move=> r1 c1 rc; rewrite (@fill_pat _ _ _ _ cP cA) //; apply: h1.
move=> q [<-] r1 c1 rc; case: (o_pat o0) h2 => [q0|] /= h2; first exact: h2.
by apply: fill_pat => //; apply: h1.
Qed.
Theorem C13_history_sparse_same_structure fuel o (p : sqp F n m) ws cP cA : reach_same e prm cP cA o -> structure p cP cA ->
  omap fst (solve_sparse e prm fuel o p ws) = omap fst (solve_sparse e prm fuel (@obj_new F n m) p ws).
Proof.
move=> ro st; have rs := reach_same_s ro; have [h1 h2] := reach_same_pat ro.
rewrite /solve_sparse -(cur_scale_s _ rs); case: (cur_scale _ _ _ _) => //= s.
rewrite fill_sparse_dense; last exact: reach_s_clean.
rewrite (fill_sparse_dense (o := @obj_new F n m)); last exact: clean_new.
have -> : pattern_ok (o_pat o) (fill_sparse prm (o_cmp o) (o_h o) p s).
  rewrite /pattern_ok; case E : (o_pat o) => [q|] //; apply/forallP => r; apply/forallP => c; apply/implyP => rc.
  by rewrite (h2 _ E r c rc) (@fill_pat _ _ _ _ cP cA) //; apply: h1.
by case: (solve_core _ _ _ _ _ _ _).
Qed.
End Props.
