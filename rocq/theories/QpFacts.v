(** Vectors, clamping and multipliers; the scaled problem. *)
From mathcomp Require Import all_ssreflect all_algebra.
From mathcomp.algebra_tactics Require Import ring.
From Verif Require Import LinAlg QpModel QpSpec.
Set Implicit Arguments.
Unset Strict Implicit.
Unset Printing Implicit Defensive.
Import Order.TTheory GRing.Theory Num.Theory.
Local Open Scope ring_scope.

Lemma vecP (F : realFieldType) k (v w : 'cV[F]_k) : (forall i, v i 0 = w i 0) -> v = w.
Proof. by move=> h; apply/matrixP => i j; rewrite ord1. Qed.
(** Linear identities between vectors, entry by entry. *)
Ltac gen_entries :=
  repeat match goal with |- context [fun_of_matrix ?M ?i ?j] =>
    let x := fresh "x" in move: (fun_of_matrix M i j) => x end.
Ltac vring := apply: vecP => ?; rewrite !mxE; gen_entries; ring.

Section Ext.
Variable F : realFieldType.
Implicit Types (l u : ext F).

Lemma between_contra l u v : between l u v -> contradictory l u = false.
Proof.
case/andP; rewrite /contradictory; case: l => [|a|] //=; case: u => [|b|] //= h1 h2.
by rewrite subr_lt0; apply/negbTE; rewrite -leNgt (le_trans h1 h2).
Qed.
Lemma clamp_between l u v : contradictory l u = false -> between l u (clamp l u v).
Proof.
rewrite /between /contradictory /clamp; case: l => [|a|] //=; case: u => [|b|] //= H.
- by rewrite le_minl lexx orbT.
- move/negbT: H; rewrite subr_lt0 -leNgt => ab.
  by rewrite le_minr le_maxr lexx orbT ab /= le_minl lexx orbT.
- by rewrite le_maxr lexx orbT.
Qed.
Lemma clamp_mult l u v : contradictory l u = false -> multiplier l u (clamp l u v) (v - clamp l u v).
Proof.
rewrite /multiplier /contradictory /clamp; case: l => [|a|] //=; case: u => [|b|] //= H.
- rewrite subr_gt0 subr_lt0; case: (leP v b) => vb; first by rewrite ltxx.
  by split=> // h; move: (lt_trans h vb); rewrite ltxx.
- by rewrite subrr ltxx.
- move/negbT: H; rewrite subr_lt0 -leNgt => ab; rewrite subr_gt0 subr_lt0.
  case: (leP v a) => va.
    by rewrite min_l // ltNge va.
  case: (leP v b) => vb; first by rewrite ltxx.
  by split=> // h; move: (lt_trans h vb); rewrite ltxx.
- rewrite subr_gt0 subr_lt0; case: (leP v a) => va; last by rewrite ltxx.
  by rewrite ltNge va.
Qed.
Lemma clamp_id l u v : between l u v -> clamp l u v = v.
Proof.
case/andP; rewrite /clamp; case: l => [|a|] //=; case: u => [|b|] //= h1 h2.
- by rewrite min_l.
- by rewrite max_l // min_l.
- by rewrite max_l.
Qed.
Lemma mult_ineq l u z y w : multiplier l u z y -> between l u w -> y * (w - z) <= 0.
Proof.
move=> [hp hn] /andP[b1 b2]; case: (ltrgt0P y) => y0.
- by move: b2; rewrite (hp y0) /= => b2; rewrite pmulr_rle0 // subr_le0.
- by move: b1; rewrite (hn y0) /= => b1; rewrite nmulr_rle0 // subr_ge0.
- by rewrite y0 mul0r.
Qed.
Lemma mult_mono l u z y z' y' : between l u z -> between l u z' ->
  multiplier l u z y -> multiplier l u z' y' -> 0 <= (y - y') * (z - z').
Proof.
move=> b b' h h'; have h1 := mult_ineq h b'; have h2 := mult_ineq h' b.
have -> : (y - y') * (z - z') = - (y * (z' - z)) + - (y' * (z - z')) by ring.
by rewrite addr_ge0 // oppr_ge0.
Qed.
(** Clamping recovers the pair (z, y) from z + y. *)
Lemma clamp_sum l u z y : between l u z -> multiplier l u z y -> clamp l u (z + y) = z.
Proof.
move=> b h; have c := between_contra b.
have b' := clamp_between (z + y) c; have h' := clamp_mult (z + y) c.
move: (clamp l u (z + y)) b' h' => w b' h'.
have := mult_mono b b' h h'.
have -> : (y - (z + y - w)) * (z - w) = - (z - w) ^+ 2 by ring.
by rewrite oppr_ge0 => H; apply/esym/eqP; rewrite -subr_eq0 -sqrf_eq0 eq_le H sqr_ge0.
Qed.
(** Scaling by s > 0. *)
Lemma between_scale s l u v : 0 < s -> between (ext_scale s l) (ext_scale s u) (s * v) = between l u v.
Proof. by move=> s0; rewrite /between; case: l => [|a|]; case: u => [|b|] //=; rewrite ?ler_pmul2l. Qed.
Lemma contra_scale s l u : 0 < s -> contradictory (ext_scale s l) (ext_scale s u) = contradictory l u.
Proof.
move=> s0; rewrite /contradictory; case: l => [|a|]; case: u => [|b|] //=.
by rewrite -mulrBr pmulr_rlt0.
Qed.
Lemma mult_scale s t l u z y : 0 < s -> 0 < t ->
  multiplier (ext_scale s l) (ext_scale s u) (s * z) (t * y) <-> multiplier l u z y.
Proof.
move=> s0 t0; have s1 := lt0r_neq0 s0.
have E b : ext_scale s b = Fin (s * z) <-> b = Fin z.
  by case: b => [|a|] //=; split=> [[/(mulfI s1) ->]|[->]].
by rewrite /multiplier pmulr_rgt0 // pmulr_rlt0 //; split=> -[h1 h2]; split=> h; apply/E; [apply: h1|apply: h2|apply: h1|apply: h2].
Qed.
(** A positive multiple of a multiplier is one. *)
Lemma mult_pos t l u z y : 0 < t -> multiplier l u z y -> multiplier l u z (t * y).
Proof. by move=> t0 [h1 h2]; split; rewrite ?pmulr_rgt0 ?pmulr_rlt0. Qed.
Lemma mult0 l u z : multiplier l u z 0.
Proof. by split; rewrite ltxx. Qed.
End Ext.

Section Vec.
Variable F : realFieldType.
Variable k : nat.
Implicit Types (a b v w : 'cV[F]_k) (t : F).

Lemma bigmax_le (I : finType) (f : I -> F) t : (\big[Num.max/0]_i f i <= t) = (0 <= t) && [forall i, f i <= t].
Proof.
apply/idP/andP => [h|[t0 /forallP h]].
  have H : forall i, f i <= \big[Num.max/0]_i f i.
    move=> i; have := mem_index_enum i; elim: (index_enum I) => // a r IH; rewrite inE big_cons.
    by case/orP => [/eqP <-|/IH h']; rewrite le_maxr ?lexx // h' orbT.
  have H0 : 0 <= \big[Num.max/0]_i f i by elim/big_rec: _ => // i x _ hx; rewrite le_maxr hx orbT.
  by split; [exact: le_trans H0 h|apply/forallP => i; exact: le_trans (H i) h].
by elim/big_rec: _ => // i x _ hx; rewrite le_maxl h hx.
Qed.
Lemma bigmax_ge0 (I : finType) (f : I -> F) : 0 <= \big[Num.max/0]_i f i.
Proof. by elim/big_rec: _ => // i x _ hx; rewrite le_maxr hx orbT. Qed.
Lemma norm_ge0 v : 0 <= norm v.
Proof. exact: bigmax_ge0. Qed.
Lemma norm_leP v t : 0 <= t -> (norm v <= t) <-> within v t.
Proof. by move=> t0; rewrite /norm bigmax_le t0 /=; split=> [/forallP|h] //; apply/forallP. Qed.
Lemma norm_within v : within v (norm v).
Proof. by apply/norm_leP => //; exact: norm_ge0. Qed.
Lemma norm_le_within v t : norm v <= t -> within v t.
Proof. by move=> h i; apply: le_trans h; exact: norm_within. Qed.
Lemma norm0 : norm (0 : 'cV[F]_k) = 0.
Proof. by apply/le_anti; rewrite norm_ge0 andbT; apply/norm_leP => // i; rewrite mxE normr0. Qed.
Lemma norm_eq0 v : norm v = 0 -> v = 0.
Proof. by move=> h; apply: vecP => i; have := norm_within v i; rewrite h normr_le0 => /eqP ->; rewrite mxE. Qed.

Lemma cmulC a b : cmul a b = cmul b a.
Proof. by apply: vecP => i; rewrite !mxE mulrC. Qed.
Lemma cmulA a b c : cmul a (cmul b c) = cmul (cmul a b) c.
Proof. by apply: vecP => i; rewrite !mxE mulrA. Qed.
Lemma cmulDr a v w : cmul a (v + w) = cmul a v + cmul a w.
Proof. by apply: vecP => i; rewrite !mxE mulrDr. Qed.
Lemma cmulNr a v : cmul a (- v) = - cmul a v.
Proof. by apply: vecP => i; rewrite !mxE mulrN. Qed.
Lemma cmulBr a v w : cmul a (v - w) = cmul a v - cmul a w.
Proof. by rewrite cmulDr cmulNr. Qed.
Lemma cmulZr t a v : cmul a (t *: v) = t *: cmul a v.
Proof. by apply: vecP => i; rewrite !mxE mulrCA. Qed.
Lemma cmul0r a : cmul a 0 = 0.
Proof. by apply: vecP => i; rewrite !mxE mulr0. Qed.
Definition pos v := forall i, 0 < v i 0.
Lemma cmulVK a v : pos a -> cmul (cinv a) (cmul a v) = v.
Proof. by move=> h; apply: vecP => i; rewrite !mxE mulKf // gt_eqF. Qed.
Lemma cmulKV a v : pos a -> cmul a (cmul (cinv a) v) = v.
Proof. by move=> h; apply: vecP => i; rewrite !mxE mulVKf // gt_eqF. Qed.
Lemma pos_inv a : pos a -> pos (cinv a).
Proof. by move=> h i; rewrite mxE invr_gt0. Qed.
Lemma pos_ones : pos (ones F k).
Proof. by move=> i; rewrite mxE ltr01. Qed.
Lemma cmul1 v : cmul (ones F k) v = v.
Proof. by apply: vecP => i; rewrite !mxE mul1r. Qed.
Lemma cinv1 : cinv (ones F k) = ones F k.
Proof. by apply: vecP => i; rewrite !mxE invr1. Qed.
Lemma dot_cmul a v w : dot v (cmul a w) = dot (cmul a v) w.
Proof. by rewrite !dotE; apply: eq_bigr => i _; rewrite !mxE mulrCA mulrA. Qed.
Lemma dotw_ge0 a v : pos a -> 0 <= dot v (cmul a v).
Proof.
move=> h; rewrite dotE sumr_ge0 // => i _; rewrite mxE mulrCA mulr_ge0 //.
  exact/ltW/h.
by rewrite -expr2 sqr_ge0.
Qed.
Lemma dotw_eq0 a v : pos a -> dot v (cmul a v) = 0 -> v = 0.
Proof.
move=> h; rewrite dotE => /eqP; rewrite psumr_eq0 => [/allP H|i _].
  apply: vecP => i; have := H i (mem_index_enum _); rewrite !mxE mulrCA mulf_eq0.
  by rewrite (gt_eqF (h i)) /= -expr2 sqrf_eq0 => /eqP.
by rewrite mxE mulrCA mulr_ge0 ?(ltW (h i)) // -expr2 sqr_ge0.
Qed.
Lemma norm1_ge0 v : 0 <= norm1 v.
Proof. by rewrite sumr_ge0. Qed.
Lemma dot_within v w t : within v t -> `|dot v w| <= t * norm1 w.
Proof.
move=> h; rewrite dotE; apply: le_trans (ler_norm_sum _ _ _) _.
by rewrite mulr_sumr ler_sum // => i _; rewrite normrM ler_wpmul2r.
Qed.
Lemma unit_inj (M : 'M[F]_k) : (forall v, M *m v = 0 -> v = 0) -> M \in unitmx.
Proof.
move=> h; rewrite -unitmx_tr unitmxE unitfE; apply/negP => /det0P [v v0 e].
have := h v^T; rewrite -(inj_eq trmx_inj) trmx0 in v0; rewrite -[M]trmxK -trmx_mul e trmx0 => /(_ erefl) E.
by move: v0; rewrite E eqxx.
Qed.
Lemma symU_symm (M : 'M[F]_k) : symm M -> symU M = M.
Proof. by move=> s; apply/matrixP => i j; rewrite mxE; case: ifP => // _; rewrite -{1}s mxE. Qed.
Lemma symU_sym (M : 'M[F]_k) : symm (symU M).
Proof.
apply/matrixP => i j; rewrite !mxE; case: (ltngtP (i : nat) j) => // /val_inj -> //.
Qed.
Lemma symU_ext (M N : 'M[F]_k) : (forall i j : 'I_k, (i <= j)%N -> M i j = N i j) -> symU M = symU N.
Proof.
move=> h; apply/matrixP => i j; rewrite !mxE; case: leqP => ij; first exact: h.
by apply: h; exact: ltnW.
Qed.
End Vec.
