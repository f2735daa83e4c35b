(** Property C98: the order and the orientation of the rows and of the variables of a QP do not matter.  Algebra and iteration. *)
From mathcomp Require Import all_ssreflect all_fingroup all_algebra.
From mathcomp.algebra_tactics Require Import ring.
From Verif Require Import LinAlg QF QpModel QpSpec QpFacts QpAdmm QpLoop.
Set Implicit Arguments.
Unset Strict Implicit.
Unset Printing Implicit Defensive.
Import Order.TTheory GRing.Theory Num.Theory.
Local Open Scope ring_scope.

(** * Signed permutations *)
Section Signed.
Variable F : realFieldType.
Definition sg (b : bool) : F := (-1) ^+ b.
Lemma sg2 b : sg b * sg b = 1. Proof. by case: b; rewrite /sg /= ?expr0 ?expr1 ?mulr1 ?mulrNN ?mulr1. Qed.
Lemma sg_norm b : `|sg b| = 1. Proof. by rewrite /sg normrX normrN1 expr1n. Qed.
Lemma sg_norml b x : `|sg b * x| = `|x|. Proof. by rewrite normrM sg_norm mul1r. Qed.
(** Entry i of the new vector is entry s i of the old one, with a changed sign if b i. *)
Definition sv k (s : {perm 'I_k}) (b : 'I_k -> bool) (v : 'cV[F]_k) : 'cV[F]_k := \col_i (sg (b i) * v (s i) 0).
Definition pv k (s : {perm 'I_k}) (v : 'cV[F]_k) : 'cV[F]_k := \col_i v (s i) 0.
Definition sm k l (s : {perm 'I_k}) b (r : {perm 'I_l}) c (M : 'M[F]_(k, l)) : 'M[F]_(k, l) :=
  \matrix_(i, j) (sg (b i) * sg (c j) * M (s i) (r j)).
(** The same as products with an orthogonal matrix, not necessarily square. *)
Definition smx k k' (f : 'I_k' -> 'I_k) (b : 'I_k' -> bool) : 'M[F]_(k', k) := \matrix_(i, j) (sg (b i) *+ (j == f i)).
Lemma smxE k k' l (f : 'I_k' -> 'I_k) b (M : 'M[F]_(k, l)) i j : (smx f b *m M) i j = sg (b i) * M (f i) j.
Proof. by rewrite mxE (bigD1 (f i)) //= big1 ?addr0 => [|a ai]; rewrite !mxE ?eqxx ?(negbTE ai) ?mulr0n ?mul0r. Qed.
Lemma smxTE k k' l (f : 'I_k' -> 'I_k) b (M : 'M[F]_(l, k)) i j : (M *m (smx f b)^T) i j = sg (b j) * M i (f j).
Proof. by rewrite -[M]trmxK -trmx_mul mxE smxE [in RHS]mxE. Qed.
Definition orth k k' (Q : 'M[F]_(k', k)) := Q *m Q^T = 1%:M /\ Q^T *m Q = 1%:M.
Lemma smx_orth k k' (f : 'I_k' -> 'I_k) g b : cancel f g -> cancel g f -> orth (smx f b).
Proof.
move=> fg gf; split; apply/matrixP => i j.
  rewrite smxE !mxE (inj_eq (can_inj fg)); case: eqP => [->|_]; rewrite ?mulr1n ?mulr0n ?mulr0 ?sg2 //.
rewrite !mxE (bigD1 (g i)) //= big1 => [|a ai]; rewrite !mxE ?gf ?eqxx ?mulr1n.
  by rewrite addr0 eq_sym; case: eqP => _; rewrite ?mulr1n ?mulr0n ?mulr0 ?sg2.
by rewrite -(inj_eq (can_inj gf)) eq_sym fg (negbTE ai) mulr0n mul0r.
Qed.
Lemma perm_orth k (s : {perm 'I_k}) b : orth (smx s b).
Proof. by apply: (@smx_orth _ _ _ (s^-1)%g) => i; rewrite ?permK ?permKV. Qed.
Lemma svE k (s : {perm 'I_k}) b v : sv s b v = smx s b *m v.
Proof. by apply: vecP => i; rewrite smxE mxE. Qed.
Lemma smE k l (s : {perm 'I_k}) b (r : {perm 'I_l}) c (M : 'M[F]_(k, l)) : sm s b r c M = smx s b *m M *m (smx r c)^T.
Proof. by apply/matrixP => i j; rewrite smxTE smxE mxE mulrA [X in _ = X * _]mulrC. Qed.
Lemma sm_tr k l (s : {perm 'I_k}) b (r : {perm 'I_l}) c (M : 'M[F]_(k, l)) : (sm s b r c M)^T = sm r c s b M^T.
Proof. by apply/matrixP => i j; rewrite !mxE [X in X * _]mulrC. Qed.
Lemma sm_mul k l (s : {perm 'I_k}) b (r : {perm 'I_l}) c (M : 'M[F]_(k, l)) v : sm s b r c M *m sv r c v = sv s b (M *m v).
Proof. by rewrite smE !svE -!mulmxA (mulmxA (smx r c)^T) (perm_orth r c).2 mul1mx. Qed.
Lemma orth_inv k k' (Q : 'M[F]_(k', k)) (M : 'M[F]_k) : orth Q -> invmx (Q *m M *m Q^T) = Q *m invmx M *m Q^T.
Proof.
move=> [q1 q2]; case mu : (M \in unitmx).
  have E : (Q *m M *m Q^T) *m (Q *m invmx M *m Q^T) = 1%:M.
    by rewrite -!mulmxA (mulmxA Q^T Q) q2 mul1mx (mulmxA M) mulmxV // mul1mx.
  have [u _] := mulmx1_unit E; by rewrite -[RHS](mulKmx u) E mulmx1.
rewrite /invmx mu; case: ifP => // u.
suff : M \in unitmx by rewrite mu.
have := mulmxV u; set N := invmx _ => E.
have : M *m (Q^T *m N *m Q) = 1%:M; last by case/mulmx1_unit.
have -> : M *m (Q^T *m N *m Q) = Q^T *m (Q *m M *m Q^T *m N) *m Q by rewrite !mulmxA q2 mul1mx.
by rewrite E mulmx1.
Qed.
(** * Norms, products *)
Lemma bigmax_perm k (s : {perm 'I_k}) (f g : 'I_k -> F) : (forall i, g i = f (s i)) -> \big[Num.max/0]_i g i = \big[Num.max/0]_i f i.
Proof.
move=> h; apply/eqP; rewrite eq_le !bigmax_le !bigmax_ge0 /=; apply/andP; split; apply/forallP => i.
  by rewrite h; have := lexx (\big[Num.max/0]_i f i); rewrite bigmax_le => /andP[_ /forallP]; apply.
have := lexx (\big[Num.max/0]_i g i); rewrite bigmax_le => /andP[_ /forallP /(_ ((s^-1)%g i))]; by rewrite h permKV.
Qed.
Lemma sv_norm k (s : {perm 'I_k}) b v : norm (sv s b v) = norm v.
Proof. by apply: (bigmax_perm (s := s)) => i; rewrite mxE sg_norml. Qed.
Lemma pv_norm k (s : {perm 'I_k}) v : norm (pv s v) = norm v.
Proof. by apply: (bigmax_perm (s := s)) => i; rewrite mxE. Qed.
Lemma cmul_sv k (s : {perm 'I_k}) b a v : cmul (pv s a) (sv s b v) = sv s b (cmul a v).
Proof. by apply: vecP => i; rewrite !mxE; ring. Qed.
Lemma cinv_pv k (s : {perm 'I_k}) (v : 'cV[F]_k) : cinv (pv s v) = pv s (cinv v).
Proof. by apply: vecP => i; rewrite !mxE. Qed.
Lemma svD k (s : {perm 'I_k}) b v w : sv s b (v + w) = sv s b v + sv s b w.
Proof. by rewrite !svE mulmxDr. Qed.
Lemma svN k (s : {perm 'I_k}) b v : sv s b (- v) = - sv s b v.
Proof. by rewrite !svE mulmxN. Qed.
Lemma svZ k (s : {perm 'I_k}) b t v : sv s b (t *: v) = t *: sv s b v.
Proof. by rewrite !svE -scalemxAr. Qed.
Lemma sv0 k (s : {perm 'I_k}) b : sv s b 0 = 0.
Proof. by rewrite svE mulmx0. Qed.
Lemma sv_dot k (s : {perm 'I_k}) b v w : (sv s b v)^T *m sv s b w = v^T *m w.
Proof. by rewrite !svE trmx_mul -mulmxA (mulmxA _ _ w) (perm_orth s b).2 mul1mx. Qed.
Lemma pv_ones k (s : {perm 'I_k}) : pv s (ones F k) = ones F k.
Proof. by apply: vecP => i; rewrite !mxE. Qed.
(** * Bounds *)
Definition ext_neg (x : ext F) : ext F := match x with NegInf => PosInf | Fin a => Fin (- a) | PosInf => NegInf end.
Definition lo (b : bool) (l u : ext F) := if b then ext_neg u else l.
Definition up (b : bool) (l u : ext F) := if b then ext_neg l else u.
Lemma ext_neg_scale s x : ext_scale s (ext_neg x) = ext_neg (ext_scale s x).
Proof. by case: x => //= a; rewrite mulrN. Qed.
Lemma contra_flip b l u : contradictory (lo b l u) (up b l u) = contradictory l u.
Proof. by case: b => //; case: l => [|a|]; case: u => [|a2|] //=; rewrite /contradictory /=; rewrite ?opprK 1?addrC. Qed.
Lemma lo_neginf b l u : is_neginf (lo b l u) = if b then is_posinf u else is_neginf l.
Proof. by case: b => //; case: u. Qed.
Lemma up_posinf b l u : is_posinf (up b l u) = if b then is_neginf l else is_posinf u.
Proof. by case: b => //; case: l. Qed.
Lemma ext_val_neg x : ext_val (ext_neg x) = - ext_val x.
Proof. by case: x => //=; rewrite oppr0. Qed.
Lemma clamp_flip b l u v : contradictory l u = false -> clamp (lo b l u) (up b l u) (sg b * v) = sg b * clamp l u v.
Proof.
case: b; rewrite /sg /= ?expr0 ?mul1r // expr1 !mulN1r /lo /up /clamp.
case: l => [|a|]; case: u => [|a'|] //= h; rewrite ?oppr_max ?oppr_min ?opprK //.
move/negbT: h; rewrite -leNgt subr_ge0 => h; rewrite oppr_max max_minl; congr Num.min.
by apply/esym/max_idPl; rewrite ler_opp2.
Qed.
End Signed.

(** * The transformed problem *)
Section Map.
Variables (F : realFieldType) (n m : nat) (e : env F n m) (prm : params F).
Variables (s : {perm 'I_m}) (b : 'I_m -> bool) (r : {perm 'I_n}) (c : 'I_n -> bool).
(** Row i of the new problem is row s i of the old one, multiplied by -1 if b i; variable j is variable r j, with the opposite sign if c j. *)
Definition qmap (p : qp F n m) : qp F n m :=
  Qp (sm r c r c (qP p)) (sv r c (qq p)) (sm s b r c (qA p))
     (fun i => lo (b i) (ql p (s i)) (qu p (s i))) (fun i => up (b i) (ql p (s i)) (qu p (s i))).
Definition smap (t : scaling_t F n m) : scaling_t F n m := Scaling (s_c t) (pv r (s_x t)) (pv s (s_y t)).
Definition vmap (v : xyz F n m) : xyz F n m := XYZ (sv r c (it_x v)) (sv s b (it_y v)) (sv s b (it_z v)).
(** The answer to the new problem: the same point in the new order, with multipliers in the new order. *)
Definition rmap (w : qsol F n m) : qsol F n m := QSol (code w) (niter w) (sv r c (primal w)) (sv s b (dual w)) (objective w).
Implicit Types (p : qp F n m) (t : scaling_t F n m).
Notation S := (smx F r c).
Notation T := (smx F s b).

Lemma unit0_pv k (q : {perm 'I_k}) (v : 'cV[F]_k) : unit0 (pv q v) = pv q (unit0 v).
Proof. by apply: vecP => i; rewrite !mxE. Qed.
Lemma x_inc_map p t : x_inc (qmap p) (smap t) = pv r (x_inc p t).
Proof.
rewrite /x_inc -unit0_pv; congr unit0; apply: vecP => j; rewrite !mxE; congr Num.max.
  by apply: (bigmax_perm (s := r)) => i; rewrite !mxE !normrM !sg_norm !mul1r.
by apply: (bigmax_perm (s := s)) => i; rewrite !mxE !normrM !sg_norm !mul1r.
Qed.
Lemma y_inc_map p t : y_inc (qmap p) (smap t) = pv s (y_inc p t).
Proof.
rewrite /y_inc -unit0_pv; congr unit0; apply: vecP => i; rewrite !mxE.
by apply: (bigmax_perm (s := r)) => j; rewrite !mxE !normrM !sg_norm !mul1r.
Qed.
Lemma apply_inc_pv k (q : {perm 'I_k}) (v w : 'cV[F]_k) : apply_inc e (pv q v) (pv q w) = pv q (apply_inc e v w).
Proof. by apply: vecP => i; rewrite !mxE. Qed.
Lemma pvB1 k (q : {perm 'I_k}) (v : 'cV[F]_k) : pv q v - ones F k = pv q (v - ones F k).
Proof. by apply: vecP => i; rewrite !mxE. Qed.
Lemma spread_map p t : spread (qmap p) (smap t) = spread p t.
Proof. by rewrite /spread x_inc_map y_inc_map !pvB1 !pv_norm. Qed.
Lemma scale_round_map p t : scale_round e (qmap p) (smap t) = smap (scale_round e p t).
Proof. by rewrite /scale_round x_inc_map y_inc_map !apply_inc_pv. Qed.
Lemma scale_loop_map k p t : scale_loop e k (qmap p) (smap t) = smap (scale_loop e k p t).
Proof.
elim: k t => [|k IH] t /=; rewrite scale_round_map // spread_map.
by case: ifP => _ //; rewrite IH.
Qed.
Lemma cost_scale_map p : cost_scale (qmap p) = cost_scale p.
Proof.
rewrite /cost_scale /= sv_norm; congr (_ / Num.max _ (Num.max (_ / _) _)).
rewrite [RHS](reindex_inj (@perm_inj _ r)); apply: eq_bigr => j _; rewrite /cost_cols !mxE.
by rewrite (bigmax_perm (s := r) (f := fun i => `|qP p i (r j)|)) // => i; rewrite !mxE !normrM !sg_norm !mul1r.
Qed.
Lemma scale_map p : scale e (qmap p) = omap smap (scale e p).
Proof.
rewrite /scale; case: ifP => // _; rewrite -[RHS]/(Some (smap _)) -scale_loop_map cost_scale_map.
by rewrite /smap /= !pv_ones.
Qed.
Lemma scaledP_map p t : scaledP (qmap p) (smap t) = S *m scaledP p t *m S^T.
Proof. by rewrite -smE; apply/matrixP => i j; rewrite !mxE /=; gen_entries; ring. Qed.
Lemma scaledA_map p t : scaledA (qmap p) (smap t) = T *m scaledA p t *m S^T.
Proof. by rewrite -smE; apply/matrixP => i j; rewrite !mxE /=; gen_entries; ring. Qed.
Lemma rho_row_flip d sy l u : rho_row prm sy (lo d l u) (up d l u) = rho_row prm sy l u.
Proof. by case: d => //; case: l => [|a|]; case: u => [|a'|] //=; rewrite opprK addrC. Qed.
Lemma rho_map p t : rho_vec prm (qmap p) (smap t) = pv s (rho_vec prm p t).
Proof. by apply: vecP => i; rewrite !mxE rho_row_flip. Qed.
Definition Q2 : 'M[F]_(n + m) := block_mx S 0 0 T.
Lemma Q2_orth : orth Q2.
Proof.
have [s1 s2] := perm_orth F r c; have [t1 t2] := perm_orth F s b.
by split; rewrite /Q2 tr_block_mx !trmx0 mulmx_block !mulmx0 !mul0mx !addr0 !add0r ?s1 ?s2 ?t1 ?t2 -scalar_mx_block.
Qed.
Lemma symm_scaled p t : symm (qP p) -> symm (scaledP p t).
Proof. by move=> h; apply/matrixP => i j; rewrite !mxE -[in LHS]h mxE; ring. Qed.
Lemma symm_map p : symm (qP p) -> symm (qP (qmap p)).
Proof. by move=> h; rewrite /symm /= sm_tr h. Qed.
Lemma Hd_map p t : symm (qP p) -> Hd prm (qmap p) (smap t) = Q2 *m Hd prm p t *m Q2^T.
Proof.
move=> h; rewrite !HdE /sP' /sA' /rho' rho_map !symU_symm; try by apply: symm_scaled => //; exact: symm_map.
rewrite scaledP_map scaledA_map /Q2 tr_block_mx !trmx0 !mulmx_block !mulmx0 !mul0mx !addr0 !add0r; congr block_mx.
- by rewrite mulmxDr mulmxDl; congr (_ + _); rewrite mul_mx_scalar -scalemxAl (perm_orth F r c).1 scalemx1.
- by rewrite !trmx_mul trmxK mulmxA.
- apply/matrixP => i j; rewrite cinv_pv [RHS]smxTE smxE !mxE (inj_eq perm_inj).
  by case: eqP => [->|_]; rewrite ?mulr1n ?mulr0n ?oppr0 ?mulr0 // mulrA sg2 mul1r.
Qed.
Lemma start_map p t ws : start (qmap p) (smap t) (omap rmap ws) = vmap (start p t ws).
Proof.
case: ws => [w|]; rewrite /start /vmap /=; last by rewrite !sv0.
by rewrite !cinv_pv sm_mul !cmul_sv svZ.
Qed.
Lemma rhs_map p t v : admm_rhs prm (qmap p) (smap t) (vmap v) = Q2 *m admm_rhs prm p t v.
Proof.
rewrite /admm_rhs /Q2 mul_block_col !mul0mx addr0 add0r /= rho_map cinv_pv !cmul_sv -!svE.
by rewrite !svD !svN !svZ.
Qed.
Definition no_contra p := trivially_infeasible p = false.
Lemma contra_map p : trivially_infeasible (qmap p) = trivially_infeasible p.
Proof.
apply/existsP/existsP => -[i h]; first by exists (s i); move: h; rewrite /= contra_flip.
by exists ((s^-1)%g i); rewrite /= contra_flip permKV.
Qed.
Lemma step_map p t v : symm (qP p) -> good_scaling t -> no_contra p ->
  admm_step prm (qmap p) (smap t) (Hd prm (qmap p) (smap t)) (vmap v) = vmap (admm_step prm p t (Hd prm p t) v).
Proof.
move=> h [_ _ g] nc; rewrite /admm_step rhs_map Hd_map // (orth_inv _ Q2_orth) -!mulmxA (mulmxA Q2^T) Q2_orth.2 mul1mx.
move: (invmx _ *m _) => pp; rewrite rho_map cinv_pv /Q2 -[pp]vsubmxK mul_block_col !mul0mx addr0 add0r.
rewrite !col_mxKu !col_mxKd -!svE; move: (usubmx pp) (dsubmx pp) => p1 p2; rewrite /vmap /=.
have E w : \col_i clamp (ext_scale (pv s (s_y t) i 0) (lo (b i) (ql p (s i)) (qu p (s i))))
    (ext_scale (pv s (s_y t) i 0) (up (b i) (ql p (s i)) (qu p (s i)))) (sv s b w i 0) =
  sv s b (\col_i clamp (ext_scale (s_y t i 0) (ql p i)) (ext_scale (s_y t i 0) (qu p i)) (w i 0)).
  apply: vecP => i; rewrite !mxE -clamp_flip; last first.
    by rewrite contra_scale //; move/existsPn: (negbT nc) => /(_ (s i)) /negbTE.
  by congr clamp; case: (b i) => //=; rewrite ext_neg_scale.
rewrite !cmul_sv -!svZ -!svD E.
by congr XYZ; rewrite ?svD ?svN ?svZ -?cmul_sv.
Qed.
End Map.
