(** The solver of QpModel: positive scaling, the linear system, the iteration as the abstract ADMM step on
    the scaled problem, and the main loop as a run of it. *)
From mathcomp Require Import all_ssreflect all_algebra.
From mathcomp.algebra_tactics Require Import ring.
From Verif Require Import LinAlg QpModel QpSpec QpFacts QpAdmm.
Set Implicit Arguments.
Unset Strict Implicit.
Unset Printing Implicit Defensive.
Import Order.TTheory GRing.Theory Num.Theory.
Local Open Scope ring_scope.

Lemma em_gt0 (F : realFieldType) k : 0 < em F k.
Proof. by rewrite /em invr_gt0 exprn_gt0 // ltr0Sn. Qed.

Section Blocks.
Variables (F : realFieldType) (a b : nat).
Lemma symU_block (B : 'M[F]_a) (C : 'M[F]_(a, b)) (E : 'M[F]_(b, a)) (D : 'M[F]_b) :
  symU (block_mx B C E D) = block_mx (symU B) C C^T (symU D).
Proof.
apply/matrixP => i j; rewrite [LHS]mxE.
case: (split_ordP i) => i' ->; case: (split_ordP j) => j' -> /=.
- by rewrite !block_mxEul mxE.
- by rewrite ltnW ?ltn_addr // !block_mxEur.
- by rewrite leqNgt ltn_addr //= block_mxEur block_mxEdl mxE.
- by rewrite leq_add2l !block_mxEdr mxE.
Qed.
Lemma symU_diag k (d : 'rV[F]_k) : symU (diag_mx d) = diag_mx d.
Proof. by apply: symU_symm; apply/matrixP => i j; rewrite !mxE eq_sym; case: eqP => // ->. Qed.
Lemma symUD k (M N : 'M[F]_k) : symU (M + N) = symU M + symU N.
Proof. by apply/matrixP => i j; rewrite !mxE; case: ifP. Qed.
Lemma symU_scalar k (t : F) : symU (t%:M : 'M[F]_k) = t%:M.
Proof. by rewrite -diag_const_mx symU_diag. Qed.
Lemma symU0 k : symU (0 : 'M[F]_k) = 0.
Proof. by apply/matrixP => i j; rewrite !mxE; case: ifP. Qed.
Lemma mul_diagl k j (d : 'cV[F]_k) (M : 'M[F]_(k, j)) : diag_mx d^T *m M = \matrix_(r, c) (d r 0 * M r c).
Proof. by apply/matrixP => r c; rewrite mul_diag_mx !mxE. Qed.
Lemma mul_diagr k j (d : 'cV[F]_j) (M : 'M[F]_(k, j)) : M *m diag_mx d^T = \matrix_(r, c) (M r c * d c 0).
Proof. by apply/matrixP => r c; rewrite mul_mx_diag !mxE. Qed.
Lemma diag_cmul k (d v : 'cV[F]_k) : diag_mx d^T *m v = cmul d v.
Proof. by rewrite mul_diagl; apply: vecP => i; rewrite !mxE. Qed.
End Blocks.

Section Link.
Variables (F : realFieldType) (n m : nat) (e : env F n m) (prm : params F).
Implicit Types (p : qp F n m) (s : scaling_t F n m) (v : xyz F n m).

Definition good_scaling s : Prop := [/\ 0 < s_c s, pos (s_x s) & pos (s_y s)].

(** * Scaling *)
Lemma unit0_gt0 k (w : 'cV[F]_k) : (forall i, 0 <= w i 0) -> pos (unit0 w).
Proof. by move=> h i; rewrite mxE; case: eqP => [_|/eqP n0]; rewrite ?ltr01 // lt_neqAle eq_sym n0 h. Qed.
Lemma apply_inc_pos k (inc w : 'cV[F]_k) : good_sqrt e -> pos w -> pos (apply_inc e inc w).
Proof.
move=> h w0 i; rewrite mxE mulr_gt0 // h // invr_gt0 lt_maxr em_gt0 orbT //.
Qed.
Lemma scale_loop_good k p s : good_sqrt e -> good_scaling s -> good_scaling (scale_loop e k p s).
Proof.
move=> h; elim: k s => [|k IH] s [c x y] /=.
  by split=> //; apply: apply_inc_pos.
have g : good_scaling (scale_round e p s) by split=> //; apply: apply_inc_pos.
by case: ifP => _ //; apply: IH.
Qed.
Lemma cost_scale_gt0 p : 0 < cost_scale p.
Proof. by rewrite /cost_scale div1r invr_gt0 lt_maxr em_gt0. Qed.
Lemma scale_good p s : good_sqrt e -> scale e p = Some s -> good_scaling s.
Proof.
rewrite /scale => h; case: ifP => // _; move: 10%N => k H; have <- : scale_loop e k p (Scaling (cost_scale p) (ones F n) (ones F m)) = s by case: H.
apply: scale_loop_good => //.
by split; [exact: cost_scale_gt0|exact: pos_ones|exact: pos_ones].
Qed.

(** * The scaled data *)
Section Scaled.
Variables (p : qp F n m) (s : scaling_t F n m).
Definition sP' : 'M[F]_n := symU (scaledP p s).
Definition sq' : 'cV[F]_n := s_c s *: cmul (s_x s) (qq p).
Definition sA' : 'M[F]_(m, n) := scaledA p s.
Definition sl' i := ext_scale (s_y s i 0) (ql p i).
Definition su' i := ext_scale (s_y s i 0) (qu p i).
Definition rho' := rho_vec prm p s.
Definition Hd := symU (fill_dense prm p s).

Lemma rho_pos : 0 < rho_bar prm -> pos rho'.
Proof.
move=> r0 i; rewrite mxE /rho_row; case: (ql p i) => [|a|] //; case: (qu p i) => [|b|] //.
  exact: em_gt0.
by case: ifP => _ //; rewrite mulr_gt0 // exprn_gt0 // ltr0Sn.
Qed.
Lemma HdE : Hd = block_mx (sP' + (sigma prm)%:M) sA'^T sA' (- diag_mx (cinv rho')^T).
Proof.
rewrite /Hd /fill_dense symU_block symUD symU_scalar trmxK symU_diag; congr block_mx.
by apply/matrixP => i j; rewrite !mxE; case: eqP => [->|_]; rewrite ?mulr1n ?mulr0n ?invrN ?oppr0.
Qed.
Lemma sP_qf x : qf sP' x = s_c s * qf (symU (qP p)) (cmul (s_x s) x).
Proof.
have -> : sP' = s_c s *: (diag_mx (s_x s)^T *m symU (qP p) *m diag_mx (s_x s)^T).
  rewrite -mulmxA mul_diagl; apply/matrixP => i j; rewrite mxE [in RHS]mxE mul_diagr !mxE.
  by case: ifP => _; ring.
rewrite qfZ -[X in X *m symU _]tr_diag_mx qf_congr diag_cmul.
by congr (_ * qf _ _); rewrite ?trmxK.
Qed.
Lemma sP_psd : good_scaling s -> psd (symU (qP p)) -> psd sP'.
Proof. by move=> [c _ _] h x; rewrite sP_qf mulr_ge0 // ltW. Qed.

Lemma Hd_mul (a : 'cV[F]_n) (b : 'cV[F]_m) :
  Hd *m col_mx a b = col_mx (sP' *m a + sigma prm *: a + sA'^T *m b) (sA' *m a - cmul (cinv rho') b).
Proof.
rewrite HdE mul_block_col mulmxDl mul_scalar_mx; congr col_mx.
by rewrite mulNmx diag_cmul.
Qed.
Lemma Hd_unit : good_scaling s -> 0 < sigma prm -> 0 < rho_bar prm -> psd (symU (qP p)) -> Hd \in unitmx.
Proof.
move=> g s0 r0 h; have rp := rho_pos r0; apply: unit_inj => v.
rewrite -[v]vsubmxK; move: (usubmx v) (dsubmx v) => a b; rewrite Hd_mul -[0]vsubmxK => /eq_col_mx[].
rewrite !linear0 => E1 E2.
have Eb : cmul (cinv rho') b = sA' *m a by apply/esym/eqP; rewrite -subr_eq0 E2.
have Q : dot a (sP' *m a) + sigma prm * dot a a + dot b (cmul (cinv rho') b) = 0.
  by rewrite Eb (dotMr sA') (dotC (_ *m b) a) -dotZr -!dotDr E1 dot0r.
have Q1 : 0 <= dot a (sP' *m a) by rewrite -qf_dot; exact: sP_psd.
have Q2 : 0 <= sigma prm * dot a a by rewrite mulr_ge0 ?dot_ge0 // ltW.
have Q3 : 0 <= dot b (cmul (cinv rho') b) by apply: dotw_ge0; exact: pos_inv.
move/eqP: Q; rewrite paddr_eq0 ?addr_ge0 // paddr_eq0 // => /andP[/andP[_ qa] /eqP qb].
move: qa; rewrite mulf_eq0 (gt_eqF s0) /= dot_eq0 => /eqP ->.
by rewrite (dotw_eq0 (pos_inv rp) qb) col_mx0.
Qed.

Definition psol v := invmx Hd *m admm_rhs prm p s v.
Definition srel := step_rel sP' sq' sA' sl' su' (sigma prm) (alpha prm) rho'.
Lemma step_link v : Hd \in unitmx -> 0 < rho_bar prm ->
  srel v (admm_step prm p s Hd v) (usubmx (psol v)) (dsubmx (psol v)).
Proof.
move=> hu r0; have rp := rho_pos r0.
have : Hd *m psol v = admm_rhs prm p s v by rewrite /psol mulKVmx.
rewrite -{1}[psol v]vsubmxK Hd_mul /admm_rhs -/rho' => /eq_col_mx[E1 E2].
have E3 : cmul rho' (sA' *m usubmx (psol v) - it_z v) = dsubmx (psol v) - it_y v.
  have -> : sA' *m usubmx (psol v) - it_z v = cmul (cinv rho') (dsubmx (psol v) - it_y v).
    rewrite cmulBr; have -> : sA' *m usubmx (psol v)
      = it_z v - cmul (cinv rho') (it_y v) + cmul (cinv rho') (dsubmx (psol v)) by rewrite -E2 subrK.
    move: (cmul (cinv rho') (it_y v)) (cmul (cinv rho') (dsubmx (psol v))) => x y; vring.
  by rewrite cmulKV.
split=> //=; rewrite -/(psol v).
  by vring.
exists (shadow rho' v + alpha prm *: (sA' *m usubmx (psol v) - it_z v)) => //.
have Ew : alpha prm *: cmul (cinv rho') (dsubmx (psol v)) + (1 - alpha prm) *: cmul (cinv rho') (it_y v) + it_z v
  = shadow rho' v + alpha prm *: (sA' *m usubmx (psol v) - it_z v).
  have -> : sA' *m usubmx (psol v) - it_z v = cmul (cinv rho') (dsubmx (psol v) - it_y v).
    by rewrite -E3 cmulVK.
  by rewrite /shadow cmulBr; move: (cmul _ _) (cmul _ _) => x y; vring.
rewrite -/rho' Ew; split; first by apply: vecP => i; rewrite !mxE.
move: (\col_i _) => z'; rewrite cmulBr -Ew !cmulDr !cmulZr !cmulKV //.
by move: (cmul _ _) (cmul _ _) => x y; vring.
Qed.

(** Facts about the step that need no linear algebra. *)
Lemma step_cone' Hs v : 0 < rho_bar prm -> (forall i, contradictory (ql p i) (qu p i) = false) -> good_scaling s ->
  cone sl' su' (admm_step prm p s Hs v).
Proof.
move=> r0 c [_ _ sy] i /=; have rp := rho_pos r0; rewrite -/rho'.
set w := _ + _ + it_z v.
have -> : ((1 - alpha prm) *: it_y v + alpha prm *: dsubmx (invmx Hs *m admm_rhs prm p s v) + cmul rho' (it_z v)
  - cmul rho' (\col_j clamp (ext_scale (s_y s j 0) (ql p j)) (ext_scale (s_y s j 0) (qu p j)) (w j 0)))
  = cmul rho' (w - \col_j clamp (sl' j) (su' j) (w j 0)).
  by rewrite cmulBr /w !cmulDr !cmulZr !cmulKV //; move: (cmul _ _) (cmul _ _) => x y; vring.
move: (w) (rp i) => {}w; rewrite !mxE => ri; have ci : contradictory (sl' i) (su' i) = false by rewrite contra_scale.
split; first exact: clamp_between.
by apply: mult_pos => //; exact: clamp_mult.
Qed.
End Scaled.

(** * The main loop *)
Section Loop.
Variables (p : qp F n m) (s : scaling_t F n m) (Hs : 'M[F]_(n + m)) (v0 : xyz F n m).
Definition traj j := iter j (admm_step prm p s Hs) v0.
Definition verdict j := check_iter e prm p s (traj j) (traj j.+1) j.

Lemma loopP fuel k k' v' rc' : main_loop e prm fuel k p s Hs (traj k) None = Some (k', v', rc') ->
  [/\ (k <= k')%N, v' = traj k', forall j, (k <= j < k')%N -> at_limit prm j = false,
      forall j, (k <= j)%N -> (j.+1 < k')%N -> is_check prm j -> verdict j = None &
      match rc' with
      | None => at_limit prm k' /\ (forall j, (k <= j < k')%N -> is_check prm j -> verdict j = None)
      | Some r => exists2 j, k' = j.+1 & [/\ (k <= j)%N, is_check prm j & verdict j = Some r]
      end].
Proof.
elim: fuel k => [|fuel IH] k /=; rewrite orbF; case: ifP => [lim|nlim].
- move=> [<- <- <-]; split=> //.
  + by move=> j /andP[/leq_ltn_trans h /h]; rewrite ltnn.
  + by move=> j kj /ltnW; rewrite ltnNge kj.
  + by split=> // j /andP[/leq_ltn_trans h /h]; rewrite ltnn.
- by case: ifP.
- move=> [<- <- <-]; split=> //.
  + by move=> j /andP[/leq_ltn_trans h /h]; rewrite ltnn.
  + by move=> j kj /ltnW; rewrite ltnNge kj.
  + by split=> // j /andP[/leq_ltn_trans h /h]; rewrite ltnn.
- case: ifP => // sc0; have -> : admm_step prm p s Hs (traj k) = traj k.+1 by [].
  have := erefl (verdict k); rewrite {1}/verdict.
  case ck : (is_check prm k); last first.
    move=> _ /IH[h1 h2 h3 h4 h5]; split=> //; first exact: ltnW.
    + by move=> j /andP[]; rewrite leq_eqVlt => /orP[/eqP <- //|kj jk]; apply: h3; rewrite kj.
    + by move=> j; rewrite leq_eqVlt => /orP[/eqP <-|kj] jk; [rewrite ck|apply: h4].
    + case: rc' h5 {IH} => [r [j -> [kj cj vj]]|[lim h]].
        by exists j => //; split=> //; exact: ltnW.
      by split=> // j /andP[]; rewrite leq_eqVlt => /orP[/eqP <-|kj] jk; rewrite ?ck //; apply: h; rewrite kj.
  case E : (check_iter _ _ _ _ _ _ _) => [r|] EV.
    have -> : main_loop e prm fuel k.+1 p s Hs (traj k.+1) (Some r) = Some (k.+1, traj k.+1, Some r).
      by case: (fuel) => [|f] /=; rewrite orbT.
    move=> [<- <- <-]; split=> //.
    + by move=> j /andP[kj]; rewrite ltnS => jk; rewrite (_ : j = k) //; apply/eqP; rewrite eqn_leq kj jk.
    + by move=> j kj; rewrite ltnS => /(leq_ltn_trans kj); rewrite ltnn.
    + by exists k.
  move=> /IH[h1 h2 h3 h4 h5]; split=> //; first exact: ltnW.
  + by move=> j /andP[]; rewrite leq_eqVlt => /orP[/eqP <- //|kj jk]; apply: h3; rewrite kj.
  + by move=> j; rewrite leq_eqVlt => /orP[/eqP <-|kj] jk //; apply: h4.
  + case: rc' h5 {IH} => [r [j -> [kj cj vj]]|[lim h]].
      by exists j => //; split=> //; exact: ltnW.
    by split=> // j /andP[]; rewrite leq_eqVlt => /orP[/eqP <-|kj] jk //; apply: h; rewrite kj.
Qed.

(** A verdict, once due, ends the loop. *)
Lemma loop_ends j : stop_check_iter prm != 0%N -> is_check prm j -> verdict j <> None ->
  forall k, (k <= j)%N -> exists fuel, main_loop e prm fuel k p s Hs (traj k) None <> None.
Proof.
move=> sc cj vj k; move: {2}(j - k)%N (erefl (j - k)%N) => d; elim: d k => [|d IH] k dk kj.
  have -> : k = j by apply/eqP; rewrite eqn_leq kj -subn_eq0 dk.
  exists 1%N => /=; rewrite orbF; case: ifP => // _; rewrite (negbTE sc) cj -/(verdict j).
  by case: (verdict j) vj => [r|] // _; rewrite orbT.
have kj' : (k < j)%N by rewrite -subn_gt0 dk.
have [|//|fuel hf] := IH k.+1; first by rewrite subnS dk.
case E : (verdict k) => [r|].
  case ck : (is_check prm k).
    exists 1%N => /=; rewrite orbF; case: ifP => // _; rewrite (negbTE sc) ck -/(verdict k) E.
    by rewrite orbT.
  exists fuel.+1 => /=; rewrite orbF; case: ifP => // _; rewrite (negbTE sc) ck //.
exists fuel.+1 => /=; rewrite orbF; case: ifP => // _; rewrite (negbTE sc).
by case: ifP => //; rewrite -/(verdict k) E.
Qed.
Lemma loop_done fuel k v r : main_loop e prm fuel k p s Hs v (Some r) = Some (k, v, Some r).
Proof. by case: fuel => [|f] /=; rewrite orbT. Qed.
End Loop.
End Link.
