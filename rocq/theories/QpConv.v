(** C04 and C06: fixed points and convergence of the QP iteration. *)
From mathcomp Require Import all_ssreflect all_algebra.
From mathcomp.algebra_tactics Require Import ring.
From Verif Require Import LinAlg QpModel QpSpec QpFacts QpAdmm QpLoop QpProps.
Set Implicit Arguments.
Unset Strict Implicit.
Unset Printing Implicit Defensive.
Import Order.TTheory GRing.Theory Num.Theory.
Local Open Scope ring_scope.

Lemma le_sum1 (F : realFieldType) k (f : 'I_k -> F) i : (forall j, 0 <= f j) -> f i <= \sum_j f j.
Proof. by move=> h; rewrite (bigD1 i) //= ler_addl sumr_ge0 // => j _; exact: h. Qed.

Section Fixed.
Variables (F : realFieldType) (n m : nat).
Variables (e : env F n m) (prm : params F).
Implicit Types (p : qp F n m) (s : scaling_t F n m) (o : obj F n m) (v w : xyz F n m).
Notation spb s p := (scaled_problem (s_c s) (s_x s) (s_y s) p).
Notation tr p s ws := (traj prm p s (Hd prm p s) (start p s ws)).

Lemma symU_id k (M : 'M[F]_k) : symm M -> symU M = M.
Proof. by move=> h; apply: symU_symm. Qed.
Lemma spb_symm s p : symm (qP p) -> symm (qP (spb s p)).
Proof.
move=> h; apply/matrixP => i j; rewrite -scaledP_spb !mxE.
have -> : qP p j i = qP p i j by rewrite -[in RHS]h mxE.
by gen_entries; move: (s_c s) => c; ring.
Qed.
Lemma sP_spb s p : symm (qP p) -> sP' p s = qP (spb s p).
Proof. by move=> h; rewrite /sP' scaledP_spb symU_id //; exact: spb_symm. Qed.
Lemma sq_spb s p : sq' p s = qq (spb s p).
Proof. by rewrite /= diag_cmul. Qed.
Lemma sA_spb s p : sA' p s = qA (spb s p).
Proof. exact: scaledA_spb. Qed.
Lemma sl_spb s p i : sl' p s i = ql (spb s p) i.
Proof. by rewrite [RHS]ext_timesE. Qed.
Lemma su_spb s p i : su' p s i = qu (spb s p) i.
Proof. by rewrite [RHS]ext_timesE. Qed.

Notation sol p s := (sol_state (sP' p s) (sq' p s) (sA' p s) (sl' p s) (su' p s)).
Lemma sol_kkt p s w : symm (qP p) -> good_scaling s -> sol p s w -> kkt p (unscale_x s (it_x w)) (unscale_y s (it_y w)).
Proof.
move=> sy g [c ez gr]; apply/spb_kkt => //; split.
- by move=> i; have [b _] := c i; move: b; rewrite ez sl_spb su_spb sA_spb.
- by rewrite -sP_spb // -sq_spb -sA_spb.
- by move=> i; have [_ b] := c i; move: b; rewrite ez sl_spb su_spb sA_spb.
Qed.
Lemma kkt_sol p s x y : symm (qP p) -> good_scaling s -> kkt p (unscale_x s x) (unscale_y s y) ->
  sol p s (XYZ x y (sA' p s *m x)).
Proof.
move=> sy g /spb_kkt-/(_ g) [f gr mu]; split=> //=.
- by move=> i; rewrite sl_spb su_spb sA_spb; split; [exact: f|exact: mu].
- by rewrite sP_spb // sq_spb sA_spb.
Qed.

(** The step is determined by the solution of the linear system. *)
Lemma half_unique p s v xt nu : Hd prm p s \in unitmx -> 0 < rho_bar prm ->
  half (sP' p s) (sq' p s) (sA' p s) (sigma prm) (rho' prm p s) v xt nu -> psol prm p s v = col_mx xt nu.
Proof.
move=> hu r0 [h1 h2]; rewrite /psol.
have -> : admm_rhs prm p s v = Hd prm p s *m col_mx xt nu; last by rewrite mulKmx.
rewrite Hd_mul h1 /admm_rhs; congr col_mx.
have rp := rho_pos p s r0; rewrite -/(rho' prm p s).
have -> : nu = cmul (rho' prm p s) (sA' p s *m xt - it_z v) + it_y v by rewrite h2 subrK.
rewrite cmulDr cmulVK //; move: (cmul _ _) => a; move: (sA' p s *m xt) => b; vring.
Qed.
Lemma step_unique p s v v' xt nu : Hd prm p s \in unitmx -> 0 < rho_bar prm ->
  srel prm p s v v' xt nu -> admm_step prm p s (Hd prm p s) v = v'.
Proof.
move=> hu r0 st; have [h ex [w ew [ez ey]]] := st.
have := step_link v hu r0; rewrite (half_unique hu r0 h) col_mxKu col_mxKd.
case=> [_ ex' [w' ew' [ez' ey']]]; move: ex' ez' ey'; rewrite ew' -ew => ex' ez' ey'.
move: (admm_step _ _ _ _ _) ex' ez' ey' => [x y z] /= -> -> ->.
by case: (v') ex ez ey => x1 y1 z1 /= -> -> ->.
Qed.

(** A solution, given as warm start, is not moved. *)
Lemma start_sol p s (q : qsol F n m) : symm (qP p) -> good_scaling s -> kkt p (primal q) (dual q) ->
  sol p s (start p s (Some q)).
Proof.
move=> sy g k; have [c sx sy'] := g; have [e1 e2 _ _] := C01_warmstart p q c sx sy'.
have -> : start p s (Some q) =
  XYZ (it_x (start p s (Some q))) (it_y (start p s (Some q))) (sA' p s *m it_x (start p s (Some q))).
  rewrite /=; congr XYZ; rewrite /sA' scaledA_spb /= -!mulmxA !diag_cmul cmulKV //.
by apply: kkt_sol; rewrite // e1 e2.
Qed.
Theorem C04_solution_fixed p s (q : qsol F n m) k : 0 < s_c s -> (forall i, 0 < s_x s i 0) -> (forall i, 0 < s_y s i 0) ->
  0 < sigma prm -> 0 < rho_bar prm -> convex p -> kkt p (primal q) (dual q) ->
  [/\ tr p s (Some q) k = start p s (Some q), unscale_x s (it_x (tr p s (Some q) k)) = primal q &
      unscale_y s (it_y (tr p s (Some q) k)) = dual q].
Proof.
move=> c sx sy s0 r0 [sm ps] kk; have g : good_scaling s by [].
have hu : Hd prm p s \in unitmx by apply: Hd_unit => //; rewrite symU_id.
have st := start_sol sm g kk.
have E : tr p s (Some q) k = start p s (Some q).
  elim: k => [|k IH] //; rewrite /traj iterS -/(traj _ _ _ _ _ k) IH.
  exact: (step_unique hu r0 (sol_step (sigma prm) (alpha prm) (rho_pos p s r0) st)).
by rewrite E; have [e1 e2 _ _] := C01_warmstart p q c sx sy.
Qed.
Theorem C04_fixed_solution p s v : 0 < s_c s -> (forall i, 0 < s_x s i 0) -> (forall i, 0 < s_y s i 0) ->
  0 < sigma prm -> 0 < rho_bar prm -> alpha prm != 0 -> convex p ->
  (forall i, contradictory (ql p i) (qu p i) = false) ->
  admm_step prm p s (Hd prm p s) v = v -> kkt p (unscale_x s (it_x v)) (unscale_y s (it_y v)) /\
    unscale_z s (it_z v) = qA p *m unscale_x s (it_x v).
Proof.
move=> c sx sy s0 r0 a0 [sm ps] nc fx; have g : good_scaling s by [].
have hu : Hd prm p s \in unitmx by apply: Hd_unit => //; rewrite symU_id.
have cn : cone (sl' p s) (su' p s) v by rewrite -fx; exact: step_cone'.
have st := step_link v hu r0; rewrite fx in st.
have so := fixed_sol (rho_pos p s r0) a0 cn st; split; first exact: sol_kkt so.
by have [_ -> _] := so; rewrite /unscale_z /sA' scaledA_spb /= -!mulmxA !diag_cmul cmulVK.
Qed.

(** Started at a solution the solver returns it. *)
Theorem C04_solve_returns o p (q : qsol F n m) fuel r o' : good_sqrt e -> 0 < rho_bar prm -> 0 < sigma prm ->
  0 <= eps_abs prm -> 0 <= eps_rel prm -> polish prm = false ->
  reach_d e prm o -> convex p -> kkt p (primal q) (dual q) ->
  solve_dense e prm fuel o p (Some q) = Some (r, o') ->
  ldlt_ok e (Hd prm p (o_s o')) ->
  [/\ primal r = primal q, dual r = dual q & code r = Optimal \/ code r = MaxIterations].
Proof.
move=> h r0 s0 ea er pf ro cv kk /solve_dense_obj[s cs [hs ->]] /= lok.
have g := cur_scale_good h (reach_d_good h ro) cs; have [c sx sy] := g.
move: hs => /coreP[[[k v] rc] hl ->]; move: hl; rewrite /ret0 lok.
have -> : trivially_infeasible p = false.
  apply/negbTE/negP => /existsP[i ci]; have [f _ _] := kk.
  by have := between_contra (f i); rewrite ci.
have {1}-> : start p s (Some q) = tr p s (Some q) 0 by [].
move=> /loopP[_ -> _ _ hrc]; have [_ e1 e2] := C04_solution_fixed k c sx sy s0 r0 cv kk.
rewrite /finish pf; have -> : (if rc is Some Optimal then false else false) = false by case: (rc) => [[]|].
rewrite /= e1 e2; split=> //; case: rc hrc => [r1|]; last by right.
case=> j _ [_ _]; have [_ f1 f2] := C04_solution_fixed j.+1 c sx sy s0 r0 cv kk.
have [f3 _ _] := C04_solution_fixed j.+1 c sx sy s0 r0 cv kk.
have [_ _ f4 _] := C01_warmstart p q c sx sy.
rewrite /verdict /check_iter f1 f2 f3 f4 => hv; left; move: hv.
have -> : forall a b, check_stopping prm p (primal q) (dual q) (qA p *m primal q) a b = Some Optimal; last by case.
move=> a b; rewrite /check_stopping.
have -> : check_optimal prm p (primal q) (dual q) (qA p *m primal q) => //.
have [_ gr _] := kk; rewrite /check_optimal subrr addrA gr !norm0.
by rewrite !addr_ge0 // mulr_ge0 // le_maxr !norm_ge0 ?orbT.
Qed.

(** * C06 *)
Definition scaled_iter s x y z : xyz F n m :=
  XYZ (cmul (cinv (s_x s)) x) (s_c s *: cmul (cinv (s_y s)) y) (cmul (s_y s) z).
Definition sdist p s v x y : F :=
  let w := scaled_iter s x y (qA p *m x) in
  wdist2 (sigma prm) (rho_vec prm p s) (it_x v) (it_z v) (it_y v) (it_x w) (it_z w) (it_y w).
Lemma gap_wdist p s v w : gap (sigma prm) (rho' prm p s) v w =
  wdist2 (sigma prm) (rho_vec prm p s) (it_x v) (it_z v) (it_y v) (it_x w) (it_z w) (it_y w).
Proof.
rewrite /gap /dist2 /wdist2 /shadow -/(rho' prm p s) !dotE; move: (rho' prm p s) => rh; congr (_ * _ + _).
  by apply: eq_bigr => i _; rewrite !mxE -expr2.
by apply: eq_bigr => i _; rewrite !mxE; gen_entries; ring.
Qed.
Lemma kkt_scaled p s x y : symm (qP p) -> good_scaling s -> kkt p x y -> sol p s (scaled_iter s x y (qA p *m x)).
Proof.
move=> sm g kk.
exact: (@start_sol p s (QSol Optimal 0 x y 0)).
Qed.

Variables (p : qp F n m) (s : scaling_t F n m).
Hypotheses (c0 : 0 < s_c s) (sx0 : forall i, 0 < s_x s i 0) (sy0 : forall i, 0 < s_y s i 0).
Hypotheses (sg0 : 0 < sigma prm) (r0 : 0 < rho_bar prm) (a0 : 0 < alpha prm) (a2 : alpha prm < 2%:R).
Hypothesis cv : convex p.
Variables (xs : 'cV[F]_n) (ys : 'cV[F]_m).
Hypothesis kk : kkt p xs ys.
Let g : good_scaling s. Proof. by []. Qed.
Let hu : Hd prm p s \in unitmx. Proof. by apply: Hd_unit => //; rewrite symU_id; case: cv. Qed.
Let nc i : contradictory (ql p i) (qu p i) = false.
Proof. by apply/negbTE/negP => ci; have [f _ _] := kk; have := between_contra (f i); rewrite ci. Qed.
Let nc' i : contradictory (sl' p s i) (su' p s i) = false.
Proof. by rewrite contra_scale. Qed.
Let ps : psd (sP' p s). Proof. by apply: sP_psd => //; rewrite symU_id; case: cv. Qed.
Let so : sol p s (scaled_iter s xs ys (qA p *m xs)).
Proof. by apply: kkt_scaled => //; case: cv. Qed.
Variable ws : option (qsol F n m).
Let v k := tr p s ws k.+1.
Let v_run : run (sP' p s) (sq' p s) (sA' p s) (sl' p s) (su' p s) (sigma prm) (alpha prm) (rho' prm p s)
  v (fun k => usubmx (psol prm p s (v k))) (fun k => dsubmx (psol prm p s (v k))).
Proof. by move=> k; exact: step_link. Qed.
Let cone0 : cone (sl' p s) (su' p s) (v 0%N). Proof. exact: step_cone'. Qed.

(** From the first iterate on, the distance to any solution does not increase. *)
Theorem C06_distance k : sdist p s (tr p s ws k.+2) xs ys <= sdist p s (tr p s ws k.+1) xs ys.
Proof.
rewrite /sdist -!gap_wdist.
apply: le_trans (run_decrease ps (rho_pos p s r0) a0 v_run nc' cone0 k so) _.
rewrite ler_subl_addr ler_addl !mulr_ge0 //; [exact: ltW|by rewrite subr_ge0 ltW|].
by apply: dist2_ge0 => //; exact: rho_pos.
Qed.

(** Residuals in the user's variables. *)
Definition resp w : 'cV[F]_m := qA p *m unscale_x s (it_x w) - unscale_z s (it_z w).
Definition resd w : 'cV[F]_n := qP p *m unscale_x s (it_x w) + qq p + (qA p)^T *m unscale_y s (it_y w).
Lemma respE w i : presid (sA' p s) w i 0 = s_y s i 0 * resp w i 0.
Proof.
rewrite /presid /sA' scaledA_spb /= -!mulmxA !diag_cmul.
have -> : s_y s i 0 * resp w i 0 = cmul (s_y s) (resp w) i 0 by rewrite [RHS]mxE.
by rewrite /resp /unscale_z /unscale_x cmulBr cmulKV // cmulA.
Qed.
Lemma resdE w i : dresid (sP' p s) (sq' p s) (sA' p s) w i 0 = s_c s * s_x s i 0 * resd w i 0.
Proof.
rewrite /dresid sP_spb; last by case: cv.
by rewrite sq_spb /sA' scaledA_spb spb_grad // mxE mxE mulrA.
Qed.
Theorem C06_rate : exists2 C, 0 < C & forall k,
  (forall i, k.+1%:R * (resp (tr p s ws k.+1) i 0) ^+ 2 <= C * sdist p s (tr p s ws 1) xs ys) /\
  (forall i, k.+1%:R * (resd (tr p s ws k.+1) i 0) ^+ 2 <= C * sdist p s (tr p s ws 1) xs ys).
Proof.
have rp := rho_pos p s r0.
have [C C0 hC] := resid_bound (sP' p s) (sq' p s) (sA' p s) sg0 rp.
pose T := 1 + (\sum_i (s_y s i 0) ^- 2 + \sum_i (s_c s * s_x s i 0) ^- 2).
have p1 i : 0 < (s_y s i 0) ^- 2 by rewrite invr_gt0 exprn_gt0.
have p2 i : 0 < (s_c s * s_x s i 0) ^- 2 by rewrite invr_gt0 exprn_gt0 // mulr_gt0.
have T1 i : (s_y s i 0) ^- 2 <= T.
  apply: (@le_trans _ _ (\sum_i (s_y s i 0) ^- 2)); first by apply: le_sum1 => j; exact: ltW.
  rewrite /T addrCA ler_addl; apply: addr_ge0; [exact: ler01|apply: sumr_ge0 => j _; exact: ltW].
have T2 i : (s_c s * s_x s i 0) ^- 2 <= T.
  apply: (@le_trans _ _ (\sum_i (s_c s * s_x s i 0) ^- 2)); first by apply: (@le_sum1 _ _ (fun i => (s_c s * s_x s i 0) ^- 2)) => j; exact: ltW.
  rewrite /T addrA addrC ler_addl; apply: addr_ge0; [exact: ler01|apply: sumr_ge0 => j _; exact: ltW].
have T0 : 0 < T by rewrite ltr_paddr ?ltr01 //; apply: addr_ge0; apply: sumr_ge0 => j _; exact: ltW.
have be : 0 < alpha prm * (2%:R - alpha prm) by rewrite mulr_gt0 // subr_gt0.
exists (T * (C / (alpha prm * (2%:R - alpha prm)))); first by rewrite mulr_gt0 // divr_gt0.
move=> k; have := run_rate ps sg0 rp a0 a2 v_run nc' cone0 k so.
rewrite gap_wdist -/(sdist p s (v 0%N) xs ys).
have st := v_run k; have [hf _ _] := st; have [b1 b2] := hC _ _ _ hf.
move: b1 b2; rewrite -/(disp (sA' p s) (sigma prm) (rho' prm p s) v (fun k => usubmx (psol prm p s (v k))) k).
have := dist2_ge0 sg0 rp (usubmx (psol prm p s (v k)) - it_x (v k)) (sA' p s *m usubmx (psol prm p s (v k)) - it_z (v k)).
rewrite -/(disp (sA' p s) (sigma prm) (rho' prm p s) v (fun k => usubmx (psol prm p s (v k))) k).
move: (disp _ _ _ _ _ _) => D D0 b1 b2 hr.
have K0 : 0 <= k.+1%:R :> F by rewrite ler0n.
have key t a : 0 < a -> t ^+ 2 * a ^+ 2 <= C * D -> a ^- 2 <= T ->
  k.+1%:R * t ^+ 2 <= T * (C / (alpha prm * (2%:R - alpha prm))) * sdist p s (v 0%N) xs ys.
  move=> a_gt h ht.
  have h1 : t ^+ 2 <= T * (C * D).
    have a2' : 0 < a ^+ 2 by rewrite exprn_gt0.
    have -> : t ^+ 2 = a ^- 2 * (t ^+ 2 * a ^+ 2) by rewrite mulrC mulfK // gt_eqF.
    by apply: ler_pmul => //; [rewrite ltW // invr_gt0|rewrite mulr_ge0 // ?sqr_ge0 // ltW].
  apply: (@le_trans _ _ (T * (C / (alpha prm * (2%:R - alpha prm))) * (k.+1%:R * (alpha prm * (2%:R - alpha prm) * D)))).
    have -> : T * (C / (alpha prm * (2%:R - alpha prm))) * (k.+1%:R * (alpha prm * (2%:R - alpha prm) * D))
      = k.+1%:R * (T * (C * D)).
      move: (alpha prm * (2%:R - alpha prm)) be => b b0; have b0' := lt0r_neq0 b0; by field.
    exact: ler_wpmul2l.
  by apply: ler_wpmul2l => //; rewrite ltW // mulr_gt0 // divr_gt0.
split=> i.
- apply: (key _ (s_y s i 0)) => //.
  by apply: le_trans (b1 i); rewrite respE exprMn mulrC.
- apply: (key _ (s_c s * s_x s i 0)) => //; first by rewrite mulr_gt0.
  by apply: le_trans (b2 i); rewrite resdE [in X in _ <= X]exprMn mulrC.
Qed.
End Fixed.

Section Vanish.
Variables (F : archiFieldType) (n m : nat).
Variables (e : env [realFieldType of F] n m) (prm : params [realFieldType of F]).
Implicit Types (p : qp [realFieldType of F] n m) (s : scaling_t [realFieldType of F] n m).
Notation tr p s ws := (traj prm p s (Hd prm p s) (start p s ws)).

Theorem C06_residuals_vanish p s (xs : 'cV[F]_n) (ys : 'cV[F]_m) ws (eps : F) :
  0 < s_c s -> (forall i, 0 < s_x s i 0) -> (forall i, 0 < s_y s i 0) ->
  0 < sigma prm -> 0 < rho_bar prm -> 0 < alpha prm -> alpha prm < 2%:R -> convex p -> kkt p xs ys -> 0 < eps ->
  exists K, forall k, (K <= k)%N ->
    within (qA p *m unscale_x s (it_x (tr p s ws k)) - unscale_z s (it_z (tr p s ws k))) eps /\
    within (qP p *m unscale_x s (it_x (tr p s ws k)) + qq p + (qA p)^T *m unscale_y s (it_y (tr p s ws k))) eps.
Proof.
move=> c0 sx0 sy0 sg0 r0 a0 a2 cv kk e0.
have [C C0 hC] := C06_rate c0 sx0 sy0 sg0 r0 a0 a2 cv kk ws.
move: (sdist _ _ _ _ _ _) hC => D hC.
pose B := `|C * D / eps ^+ 2|; have hB := archi_boundP (normr_ge0 (C * D / eps ^+ 2)).
exists (Num.bound B).+1 => -[|k] //; rewrite ltnS => kB.
have e2 : 0 < eps ^+ 2 by rewrite exprn_gt0.
have kb : C * D < k.+1%:R * eps ^+ 2.
  rewrite -ltr_pdivr_mulr //; apply: le_lt_trans (ler_norm _) _; apply: lt_le_trans hB _.
  by rewrite ler_nat ltnW.
have key (t : F) : k.+1%:R * t ^+ 2 <= C * D -> `|t| <= eps.
  move=> h; rewrite -[eps]gtr0_norm // -ler_sqr ?nnegrE ?normr_ge0 // !real_normK ?num_real //.
  have := le_lt_trans h kb; rewrite ltr_pmul2l ?ltr0n //; exact: ltW.
have [h1 h2] := hC k; split=> i; apply: key; [exact: h1|exact: h2].
Qed.

Lemma check_late w sc K : (1 < w)%N -> (1 < sc)%N -> exists2 j, (K <= j)%N & ((j %% w) %% sc == 1)%N.
Proof.
move=> w1 s1; exists (K * w + 1)%N; last by rewrite modnMDl !modn_small.
by rewrite addn1 ltnW // ltnS leq_pmulr // ltnW.
Qed.
(** A solve of a convex problem that has a primal-dual solution terminates. *)
Theorem C06_terminates o p (xs : 'cV[F]_n) (ys : 'cV[F]_m) ws : good_sqrt e -> reach_d e prm o ->
  0 < sigma prm -> 0 < rho_bar prm -> 0 < alpha prm -> alpha prm < 2%:R -> 0 < eps_abs prm -> 0 <= eps_rel prm ->
  (1 < stop_check_iter prm)%N -> convex p -> kkt p xs ys -> (0 < n)%N -> (0 < m)%N ->
  exists fuel r o', solve_dense e prm fuel o p ws = Some (r, o').
Proof.
move=> h ro sg0 r0 a0 a2 ea er sc cv kk n0 m0.
have [s cs] : exists s, cur_scale e prm o p = Some s.
  rewrite /cur_scale; case: ifP => _; last by exists (o_s o).
  rewrite /scale n0 m0; move: 10%N => k10; by eexists.
have g := cur_scale_good h (reach_d_good h ro) cs; have [c0 sx0 sy0] := g.
rewrite /solve_dense cs.
suff [fuel hf] : exists fuel, main_loop e prm fuel 0 p s (Hd prm p s) (start p s ws) (ret0 e p (Hd prm p s)) <> None.
  exists fuel; rewrite /solve_core -/(Hd prm p s); case: (main_loop _ _ _ _ _ _ _ _ _) hf => [t|] // _.
  by do 2 eexists.
rewrite /ret0; case: ifP => _; last by exists 0%N; rewrite loop_done.
case: ifP => _; first by exists 0%N; rewrite loop_done.
have [K hK] := C06_residuals_vanish ws c0 sx0 sy0 sg0 r0 a0 a2 cv kk ea.
have [j Kj cj] := check_late K (isT : (1 < w32)%N) sc.
apply: (@loop_ends _ _ _ e prm p s (Hd prm p s) (start p s ws) j) => //; first by rewrite -lt0n ltnW.
have [h1 h2] := hK j.+1 (leqW Kj).
rewrite /verdict /check_iter /check_stopping.
have -> : check_optimal prm p (unscale_x s (it_x (tr p s ws j.+1)))
        (unscale_y s (it_y (tr p s ws j.+1))) (unscale_z s (it_z (tr p s ws j.+1))) => //.
move: (tr p s ws j.+1) h1 h2 => v h1 h2.
rewrite /check_optimal addrA; apply/andP; split.
  by apply: (@le_trans _ _ (eps_abs prm)); [apply/norm_leP; rewrite ?(ltW ea)|rewrite ler_addl mulr_ge0 // le_maxr norm_ge0].
by apply: (@le_trans _ _ (eps_abs prm)); [apply/norm_leP; rewrite ?(ltW ea)|rewrite ler_addl mulr_ge0 // le_maxr norm_ge0].
Qed.
End Vanish.
