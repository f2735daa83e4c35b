(** Property C94: what polishing does when the active rows are the right ones. *)
From Coq Require Import QArith.
From mathcomp Require Import all_ssreflect all_algebra.
From mathcomp.algebra_tactics Require Import ring.
From Verif Require Import LinAlg QF QpModel QpSpec QpFacts QpAdmm QpLoop QpProps QpConv QpCodes QpCex QpExamples.
Set Implicit Arguments.
Unset Strict Implicit.
Unset Printing Implicit Defensive.
Import Order.TTheory GRing.Theory Num.Theory.
Local Open Scope ring_scope.

(** Refinement with the perturbed saddle point matrix is a proximal point method. *)
Section Saddle.
Variable F : realFieldType.
Variables n k : nat.
Variables (P : 'M[F]_n) (A : 'M[F]_(k, n)) (d : F) (h : 'cV[F]_(n + k)).
Hypotheses (psP : psd P) (d0 : 0 < d).
Definition sad : 'M[F]_(n + k) := block_mx P A^T A 0.
Definition sgn : 'M[F]_(n + k) := block_mx 1%:M 0 0 (- 1%:M).
Definition sadp : 'M[F]_(n + k) := sad + d *: sgn.
Lemma sgn_sym : sgn^T = sgn.
Proof. by rewrite /sgn tr_block_mx !trmx0 linearN /= !trmx1. Qed.
Lemma sgn2 : sgn *m sgn = 1%:M.
Proof. by rewrite /sgn mulmx_block !mulmx0 !mul0mx mulmx1 mulmxN mulmx1 opprK !addr0 !add0r -scalar_mx_block. Qed.
Lemma sad_mono e : 0 <= dot (sgn *m e) (sad *m e).
Proof.
rewrite -[e]vsubmxK; move: (usubmx e) (dsubmx e) => x y.
rewrite /sgn /sad !mul_block_col !mul0mx !mul1mx addr0 add0r mulNmx mul1mx addr0.
have dc (a b : 'cV[F]_n) (a' b' : 'cV[F]_k) : dot (col_mx a a') (col_mx b b') = dot a b + dot a' b'.
  by rewrite /dot tr_col_mx mul_row_col mxE.
rewrite dc dotDr dotNl -qf_dot [dot y _]dotMr [dot x _]dotC addrK; exact: psP.
Qed.
Lemma dot_sgn a b : dot (sgn *m a) (sgn *m b) = dot a b.
Proof. by rewrite dotMl sgn_sym mulmxA sgn2 mul1mx. Qed.
Lemma sadp_unit : sadp \in unitmx.
Proof.
apply: unit_inj => v hv.
have h1 : sad *m v = - (d *: (sgn *m v)) by apply/eqP; rewrite -addr_eq0 scalemxAl -mulmxDl -/sadp hv.
have := sad_mono v; rewrite h1 dotNr dotZr dot_sgn oppr_ge0 pmulr_rle0 // => h2.
by apply/eqP; rewrite -dot_eq0 eq_le h2 dot_ge0.
Qed.
Definition ref t := t + invmx sadp *m (h - sad *m t).
Lemma ref_eq t : h - sad *m ref t = d *: (sgn *m (ref t - t)).
Proof.
have e : sadp *m (ref t - t) = h - sad *m t by rewrite /ref addrC addKr mulKVmx // sadp_unit.
have -> : sad *m ref t = sad *m t + sad *m (ref t - t) by rewrite -mulmxDr addrC subrK.
by rewrite opprD addrA -e /sadp mulmxDl -scalemxAl addrAC subrr add0r.
Qed.
(** One step: closer to every solution, by the length of the step. *)
Lemma ref_near t ts : sad *m ts = h -> dot (ref t - ts) (ref t - ts) + dot (ref t - t) (ref t - t) <= dot (t - ts) (t - ts).
Proof.
move=> hs; have e := ref_eq t; rewrite -hs -mulmxBr in e.
have := sad_mono (ref t - ts); have -> : sad *m (ref t - ts) = - (d *: (sgn *m (ref t - t))) by rewrite -e -mulmxN opprB.
rewrite dotNr dotZr dot_sgn oppr_ge0 pmulr_rle0 // => h1.
have -> : t - ts = (ref t - ts) - (ref t - t) by rewrite opprB [RHS]addrC addrA subrK.
move: (ref t - ts) (ref t - t) h1 => a b h1; rewrite !(dotBl, dotBr) [dot b a]dotC -subr_ge0.
have -> : dot a a - dot a b - (dot a b - dot b b) - (dot a a + dot b b) = - (2%:R * dot a b) by ring.
by rewrite oppr_ge0 pmulr_rle0 // ltr0n.
Qed.
(** Steps do not become longer. *)
Lemma ref_short t : dot (ref (ref t) - ref t) (ref (ref t) - ref t) <= dot (ref t - t) (ref t - t).
Proof.
set a := ref (ref t) - ref t; set b := ref t - t.
have e1 : h - sad *m ref (ref t) = d *: (sgn *m a) := ref_eq (ref t).
have e0 : h - sad *m ref t = d *: (sgn *m b) := ref_eq t.
have e : sad *m a = - (d *: (sgn *m (a - b))).
  by rewrite [in RHS]mulmxBr scalerBr -e1 -e0 /a mulmxBr opprB opprB [RHS]addrC addrA subrK.
have := sad_mono a; rewrite e dotNr dotZr dot_sgn oppr_ge0 pmulr_rle0 // dotBr subr_le0 => h1; clear e e0 e1; clearbody a b.
have h2 := dot_ge0 (a - b); rewrite !(dotBl, dotBr) [dot b a]dotC in h2.
have h3 : 0 <= dot b b - dot a b.
  have -> : dot b b - dot a b = (dot a a - dot a b - (dot a b - dot b b)) + (dot a b - dot a a) by ring.
  by rewrite addr_ge0 // subr_ge0.
by apply: le_trans h1 _; rewrite -subr_ge0.
Qed.
(** After K steps from zero. *)
Lemma ref_iter K ts : sad *m ts = h -> let t := iter K ref 0 in
  dot (t - ts) (t - ts) + K%:R * dot (ref t - t) (ref t - t) <= dot ts ts.
Proof.
move=> hs; elim: K => [|K IH] /=; first by rewrite mul0r addr0 sub0r dotNl dotNr opprK.
apply: le_trans IH => /=; set t := iter K ref 0.
have h1 := ref_near t hs; have h2 := ref_short t.
have h3 : K%:R * dot (ref (ref t) - ref t) (ref (ref t) - ref t) <= K%:R * dot (ref t - t) (ref t - t).
  by rewrite ler_wpmul2l // ler0n.
move: h1 h2 h3; move: (dot (ref t - ts) _) (dot (ref (ref t) - ref t) _) (dot (ref t - t) _) (dot (t - ts) _) => a b c e h1 h2 h3.
rewrite -addn1 natrD mulrDl mul1r addrA addrAC; apply: ler_add => //.
by apply: le_trans h1; rewrite ler_add2l.
Qed.
(** Residual of the system: at most d |ts| / sqrt K. *)
Theorem saddle_residual K ts : sad *m ts = h -> let t := iter K ref 0 in
  dot (t - ts) (t - ts) <= dot ts ts /\
  K%:R * dot (h - sad *m t) (h - sad *m t) <= d ^+ 2 * dot ts ts.
Proof.
move=> hs t; split.
  by have := ref_iter K hs; apply: le_trans; rewrite ler_addl mulr_ge0 ?ler0n ?dot_ge0.
rewrite {}/t; case: K => [|K]; first by rewrite mul0r mulr_ge0 ?sqr_ge0 ?dot_ge0.
rewrite iterS; set t := iter K ref 0; rewrite ref_eq dotZl dotZr dot_sgn.
have h1 := ref_iter K hs; rewrite -/t in h1; have h2 := ref_near t hs.
have -> : K.+1%:R * (d * (d * dot (ref t - t) (ref t - t))) = d ^+ 2 * (K%:R * dot (ref t - t) (ref t - t) + dot (ref t - t) (ref t - t)).
  by rewrite -addn1 natrD; ring.
rewrite ler_wpmul2l ?sqr_ge0 //; apply: le_trans h1; rewrite addrC ler_add2r.
by apply: le_trans h2; rewrite ler_addr dot_ge0.
Qed.
End Saddle.

Section Polish.
Variable F : realFieldType.
Variables n m : nat.
Variables (e : env F n m) (prm : params F) (p : qp F n m) (s : scaling_t F n m) (y : 'cV[F]_m).
Notation L := (LU e p y).
Notation k := (size L).
Notation idx := (@LU_idx _ _ _ e p y).
Hypotheses (g : good_scaling s) (cv : convex p) (de0 : 0 < delta prm) (eps0 : 0 <= macheps e).
(** A row taken as active, with the side given by the sign of the (scaled) multiplier y. *)
Definition low_row i : bool := (y i 0 < - (100%:R * macheps e)) && ~~ is_neginf (ql p i).
Definition upp_row i : bool := (100%:R * macheps e < y i 0) && ~~ is_posinf (qu p i).
Definition act i : bool := low_row i || upp_row i.
Lemma mem_act i : (i \in L) = act i.
Proof. by rewrite /LU mem_cat /actL /actU mem_filter mem_enum mem_filter mem_enum !andbT. Qed.
Local Notation P' := (symU (scaledP p s)).
Local Notation A' := (actA e p s y).
Lemma pol_sad : symU (pol_H e p s y) = sad P' A'.
Proof. by rewrite /pol_H symU_block trmxK symU0. Qed.
Lemma pol_sadp : symU (pol_Hp e prm p s y) = sadp P' A' (delta prm).
Proof.
rewrite /pol_Hp symUD pol_sad /sadp; congr (_ + _).
rewrite symU_block trmx0 symU_scalar /sgn scale_block_mx !scaler0 scalerN !scalemx1; congr block_mx.
by rewrite -[in LHS]scaleN1r -[in RHS]scaleN1r; apply/matrixP => a b; rewrite !mxE eq_sym; case: leqP; rewrite // eq_sym.
Qed.
Lemma psP' : psd P'.
Proof.
apply: sP_psd => //; case: cv => sy ps; have -> : symU (qP p) = qP p; last by [].
by apply/matrixP => i j; rewrite mxE; case: leqP => // _; rewrite -[in RHS]sy mxE.
Qed.
(** Multipliers of the active rows as a vector over all rows, in the units of the user. *)
Definition spread (ya : 'cV[F]_k) : 'cV[F]_m := \sum_a (ya a 0 * s_y s (idx a) 0 / s_c s) *: delta_mx (idx a) 0.
Lemma pol_res x ya :
  pol_h e p s y - symU (pol_H e p s y) *m col_mx x ya =
  col_mx (- (s_c s *: cmul (s_x s) (qP p *m unscale_x s x + qq p + (qA p)^T *m spread ya)))
         (\col_a (s_y s (idx a) 0 * (ext_val (if (a < size (actL e p y))%N then ql p (idx a) else qu p (idx a)) - (qA p *m unscale_x s x) (idx a) 0))).
Proof.
have [c sx sy] := g; have [sm _] := cv.
rewrite pol_sad /sad mul_block_col mul0mx addr0 /pol_h opp_col_mx add_col_mx; congr col_mx; last first.
  apply: vecP => a; rewrite !mxE mulrBr; congr (_ - _).
  rewrite /unscale_x mulr_sumr; apply: eq_bigr => j _; rewrite !mxE; gen_entries; ring.
apply: oppr_inj; rewrite opprK opprD opprK scaleNr opprK /spread.
have -> : P' = sP' p s by [].
rewrite sP_spb // /= -scalemxAl -!mulmxA !diag_cmul !cmulDr !scalerDr.
rewrite addrC -!addrA; congr (_ + _).
rewrite addrC; congr (_ + _); apply: vecP => j; rewrite mulmx_sumr !mxE summxE !mulr_sumr; apply: eq_bigr => a _.
rewrite -scalemxAr !mxE (bigD1 (idx a)) //= big1 => [|i ia]; last by rewrite !mxE (negbTE ia) mulr0.
rewrite !mxE !eqxx /= addr0 mulr1; have c0 := lt0r_neq0 c.
gen_entries; move: (s_c s) c0 => c' c0; by field.
Qed.
Lemma side_row (a : 'I_k) : if (a < size (actL e p y))%N then low_row (idx a) else upp_row (idx a).
Proof.
have E : idx a = nth (idx a) L a by exact: (tnth_nth _ (in_tuple L)).
case: ifP => al.
  have : idx a \in actL e p y by rewrite E /LU nth_cat al mem_nth.
  by rewrite mem_filter => /andP[].
have : idx a \in actU e p y.
  by rewrite E /LU nth_cat al mem_nth // -subSn ?leq_subLR -?size_cat ?ltn_ord // leqNgt al.
by rewrite mem_filter => /andP[].
Qed.
Lemma act_idx (a : 'I_k) : act (idx a).
Proof. by rewrite -mem_act /LU_idx mem_tnth. Qed.
Lemma act_ex i : act i -> exists a, i = idx a.
Proof. by rewrite -mem_act -[X in _ \in X]/(tval (in_tuple L)) => /tnthP[a ->]; exists a. Qed.
Lemma sum_act (f : 'I_m -> F) : \sum_(a < k) f (idx a) = \sum_(i | act i) f i.
Proof.
rewrite /LU_idx -(big_tnth _ _ L xpredT f) big_uniq ?C16_rows_once //=.
by apply: eq_bigl => i; rewrite mem_act.
Qed.
Lemma spreadE ya i : spread ya i 0 = \sum_(a < k) (if idx a == i then ya a 0 * s_y s i 0 / s_c s else 0).
Proof.
rewrite /spread summxE; apply: eq_bigr => a _; rewrite !mxE eqxx andbT eq_sym; case: eqP => [->|_]; by rewrite ?mulr1 ?mulr0.
Qed.
Lemma spread_in ya a : spread ya (idx a) 0 = ya a 0 * s_y s (idx a) 0 / s_c s.
Proof.
rewrite spreadE (bigD1 a) //= eqxx big1 ?addr0 // => b ba; case: eqP => // /(idx_inj eps0) E.
by rewrite E eqxx in ba.
Qed.
Lemma spread_out ya i : ~~ act i -> spread ya i 0 = 0.
Proof.
move=> ai; rewrite spreadE big1 // => a _; case: eqP => // E.
by move: ai; rewrite -E act_idx.
Qed.
Lemma iter_ref K : iter K (refine prm s (e := e) (p := p) (y := y)) 0 = iter K (ref P' A' (delta prm) (pol_h e p s y)) 0.
Proof. by apply: eq_iter => t; rewrite /refine /ref pol_sadp pol_sad. Qed.
Lemma dot_col (a : 'cV[F]_n) (a' : 'cV[F]_k) : dot (col_mx a a') (col_mx a a') = \sum_j a j 0 ^+ 2 + \sum_b a' b 0 ^+ 2.
Proof.
rewrite /dot tr_col_mx mul_row_col mxE; congr (_ + _); rewrite mxE; apply: eq_bigr => i _; by rewrite mxE expr2.
Qed.
(** Distance to (xs, ys), and residuals, after polishing; (xs, ys) solves the problem with the active rows as equations. *)
Theorem polish_bound x0 x' y' xs ys : polish_qp e prm p s y x0 = Some (x', y') ->
  qP p *m xs + qq p + (qA p)^T *m ys = 0 -> (forall i, ~~ act i -> ys i 0 = 0) ->
  (forall i, low_row i -> ql p i = Fin ((qA p *m xs) i 0)) -> (forall i, upp_row i -> qu p i = Fin ((qA p *m xs) i 0)) ->
  let xu := unscale_x s x' in let yu : 'cV[F]_m := \col_i if act i then unscale_y s y' i 0 else 0 in
  let W := \sum_j (xs j 0 / s_x s j 0) ^+ 2 + \sum_(i | act i) (s_c s * ys i 0 / s_y s i 0) ^+ 2 in
  \sum_j ((xu - xs) j 0 / s_x s j 0) ^+ 2 + \sum_(i | act i) (s_c s * (yu - ys) i 0 / s_y s i 0) ^+ 2 <= W /\
  (polish_iter prm)%:R *
    (\sum_j (s_c s * (s_x s j 0 * (qP p *m xu + qq p + (qA p)^T *m yu) j 0)) ^+ 2 +
     \sum_(i | act i) (s_y s i 0 * (qA p *m (xu - xs)) i 0) ^+ 2) <= delta prm ^+ 2 * W.
Proof.
rewrite /polish_qp; case: ifP => // _ [<- <-]; set t := t_hat _ _ _ _ _ => h1 h2 h3 h4.
have [c sx sy] := g; have c0 := lt0r_neq0 c.
pose ya : 'cV[F]_k := \col_a (s_c s * ys (idx a) 0 / s_y s (idx a) 0).
pose xa : 'cV[F]_n := \col_j (xs j 0 / s_x s j 0).
have ux : unscale_x s xa = xs.
  by apply: vecP => j; rewrite !mxE mulrC divfK // lt0r_neq0.
have bnd (a : 'I_k) : ext_val (if (a < size (actL e p y))%N then ql p (idx a) else qu p (idx a)) = (qA p *m xs) (idx a) 0.
  by have := side_row a; case: ifP => _ h; [rewrite (h3 _ h)|rewrite (h4 _ h)].
have sp : spread ya = ys.
  apply: vecP => i; case ai : (act i); last by rewrite spread_out ?h2 ?ai.
  have [a ->] := act_ex ai.
  rewrite spread_in mxE; have := lt0r_neq0 (sy (idx a)); gen_entries; move: (s_c s) c0 => c' c0 z0; field; by rewrite c0 z0.
have hs : sad P' A' *m col_mx xa ya = pol_h e p s y.
  apply/esym/eqP; rewrite -subr_eq0 -pol_sad pol_res ux sp h1 cmul0r scaler0 oppr0; apply/eqP.
  apply: vecP => i; case: (split_ordP i) => j ->; rewrite ?col_mxEu ?col_mxEd [RHS]mxE.
    by rewrite mxE.
  by rewrite mxE bnd subrr mulr0.
have [] := saddle_residual psP' de0 (polish_iter prm) hs; rewrite -iter_ref -/(t_hat e prm p s y) -/t.
have -> : pol_h e p s y - sad P' A' *m t = pol_h e p s y - symU (pol_H e p s y) *m col_mx (usubmx t) (dsubmx t).
  by rewrite vsubmxK pol_sad.
rewrite pol_res; clear hs.
set yu : 'cV[F]_m := \col_i (if act i then unscale_y s (write_dual t) i 0 else 0).
have spu : spread (dsubmx t) = yu.
  apply: vecP => i; rewrite mxE; case ai : (act i); last by rewrite spread_out ?ai.
  have [a ->] := act_ex ai.
  rewrite spread_in !mxE; have [-> _] := C16_write_back eps0 t; rewrite mxE; gen_entries; ring.
have wd a : yu (idx a) 0 = dsubmx t a 0 * s_y s (idx a) 0 / s_c s by rewrite -spu spread_in.
rewrite spu dot_col.
have -> : t - col_mx xa ya = col_mx (usubmx t - xa) (dsubmx t - ya) by rewrite -[in LHS](vsubmxK t) opp_col_mx add_col_mx.
rewrite !dot_col => r1 r2; set xu := unscale_x s (usubmx t).
have -> : \sum_j (xs j 0 / s_x s j 0) ^+ 2 + \sum_(i | act i) (s_c s * ys i 0 / s_y s i 0) ^+ 2 = \sum_j xa j 0 ^+ 2 + \sum_b ya b 0 ^+ 2.
  rewrite -(sum_act (fun i => (s_c s * ys i 0 / s_y s i 0) ^+ 2)); congr (_ + _); by apply: eq_bigr => j _; rewrite mxE.
split.
  move: r1; congr (_ <= _); rewrite -(sum_act (fun i => (s_c s * (yu - ys) i 0 / s_y s i 0) ^+ 2)); congr (_ + _); apply: eq_bigr => j _; congr (_ ^+ 2).
    rewrite !mxE; have := lt0r_neq0 (sx j); gen_entries => z0; by field.
  have -> : (yu - ys) (idx j) 0 = yu (idx j) 0 - ys (idx j) 0 by rewrite mxE; congr (_ + _); rewrite mxE.
  rewrite wd !mxE; have := lt0r_neq0 (sy (idx j)); gen_entries; move: (s_c s) c0 => c' c0 z0; field; by rewrite c0 z0.
move: r2; congr (_ * _ <= _); rewrite -(sum_act (fun i => (s_y s i 0 * (qA p *m (xu - xs)) i 0) ^+ 2)); congr (_ + _); apply: eq_bigr => j _.
  by rewrite [in LHS]mxE sqrrN mxE; congr ((_ * _) ^+ 2); rewrite mxE.
have -> : (qA p *m (xu - xs)) (idx j) 0 = (qA p *m xu) (idx j) 0 - (qA p *m xs) (idx j) 0.
  by rewrite mulmxBr mxE; congr (_ + _); rewrite mxE.
by rewrite mxE bnd -sqrrN -mulrN opprB.
Qed.
End Polish.

Section Solve.
Variable F : realFieldType.
Variables n m : nat.
Variables (e : env F n m) (prm : params F).
(** The factorization succeeds for the matrices (P + d I, A'; A, - d I) with positive semidefinite P and 0 < d. *)
Definition quasi_ok : Prop := forall k (P : 'M[F]_n) (A : 'M[F]_(k, n)) d, symm P -> psd P -> 0 < d ->
  pol_ok e (block_mx (P + d%:M) A^T A (- d%:M)).
(** Such matrices are nonsingular, so that this is not an assumption on singular ones. *)
Theorem C94_nonsingular k (P : 'M[F]_n) (A : 'M[F]_(k, n)) d : psd P -> 0 < d ->
  block_mx (P + d%:M) A^T A (- d%:M) \in unitmx.
Proof.
move=> ps d0; have := sadp_unit A ps d0; rewrite /sadp /sad /sgn scale_block_mx add_block_mx !scaler0 !addr0 add0r.
by rewrite scalerN !scalemx1.
Qed.
(** Relation of the answer r with polishing to the answer r0 without, for a problem p solved with scaling s: the
    rows whose multiplier in r0 exceeds 100 eps (in the scaled problem) are taken as active, the multipliers of the
    others are those of r0; and if (xs, ys) solves the problem in which the active rows are equations, then the
    distance to (xs, ys) is at most the length of (xs, ys), and the square of the residuals is at most
    delta^2 / polish_iter of the square of that length; all in scaled units. *)
Definition polished (p : qp F n m) (s : scaling_t F n m) (r0 r : qsol F n m) : Prop :=
  let low i := (s_c s * dual r0 i 0 / s_y s i 0 < - (100%:R * macheps e)) && ~~ is_neginf (ql p i) in
  let upp i := (100%:R * macheps e < s_c s * dual r0 i 0 / s_y s i 0) && ~~ is_posinf (qu p i) in
  let act i := low i || upp i in
  (forall i, ~~ act i -> dual r i 0 = dual r0 i 0) /\
  forall xs ys, qP p *m xs + qq p + (qA p)^T *m ys = 0 -> (forall i, ~~ act i -> ys i 0 = 0) ->
    (forall i, low i -> ql p i = Fin ((qA p *m xs) i 0)) -> (forall i, upp i -> qu p i = Fin ((qA p *m xs) i 0)) ->
    let ya : 'cV[F]_m := \col_i if act i then dual r i 0 else 0 in
    let W := \sum_j (xs j 0 / s_x s j 0) ^+ 2 + \sum_(i | act i) (s_c s * ys i 0 / s_y s i 0) ^+ 2 in
    \sum_j ((primal r - xs) j 0 / s_x s j 0) ^+ 2 + \sum_(i | act i) (s_c s * (ya - ys) i 0 / s_y s i 0) ^+ 2 <= W /\
    (polish_iter prm)%:R *
      (\sum_j (s_c s * (s_x s j 0 * (qP p *m primal r + qq p + (qA p)^T *m ya) j 0)) ^+ 2 +
       \sum_(i | act i) (s_y s i 0 * (qA p *m (primal r - xs)) i 0) ^+ 2) <= delta prm ^+ 2 * W.
Hypotheses (h : good_sqrt e) (d0 : 0 < delta prm) (eps0 : 0 <= macheps e) (po : polish prm = true) (qok : quasi_ok).
Lemma core_polished fuel p s Hs ws r : convex p -> good_scaling s ->
  solve_core e prm fuel p s Hs ws = Some r -> code r = Optimal ->
  exists2 r0, solve_core e (no_polish prm) fuel p s Hs ws = Some r0 & polished p s r0 r.
Proof.
move=> cv g; have [c sx sy] := g.
move=> /coreP[[[k v] rc] hl ->].
case Ec : rc => [[]|] // _; rewrite Ec in hl.
exists (finish e (no_polish prm) p s (k, v, Some Optimal)).
  by rewrite /solve_core; have -> : main_loop e (no_polish prm) fuel 0 p s Hs (start p s ws) (ret0 e p Hs) = Some (k, v, Some Optimal) by exact: hl.
set yv := it_y v.
have Y i : s_c s * unscale_y s yv i 0 / s_y s i 0 = yv i 0.
  rewrite !mxE; have := lt0r_neq0 (sy i); have := lt0r_neq0 c; gen_entries; move: (s_c s) => c' c0 y0; field; by rewrite c0 y0.
have PO : pol_ok e (symU (pol_Hp e prm p s yv)).
  rewrite pol_sadp; have := @qok _ (symU (scaledP p s)) (actA e p s yv) (delta prm) _ (psP' g cv) d0.
  by rewrite /sadp /sad /sgn scale_block_mx add_block_mx !scaler0 !addr0 add0r scalerN !scalemx1; apply; rewrite /symm symU_sym.
have E : polish_qp e prm p s yv (it_x v) = Some (usubmx (t_hat e prm p s yv), write_dual (t_hat e prm p s yv)) by rewrite /polish_qp PO.
have -> : finish e prm p s (k, v, Some Optimal) = QSol Optimal (k %% w32)%N (unscale_x s (usubmx (t_hat e prm p s yv)))
    (unscale_y s (write_dual (t_hat e prm p s yv))) (objective (finish e prm p s (k, v, Some Optimal))).
  by rewrite /finish po -/yv E.
move: (objective _) => ob low upp ac.
have EL i : low i = low_row e p yv i by rewrite /low /= Y.
have EU i : upp i = upp_row e p yv i by rewrite /upp /= Y.
have EA i : ac i = act e p yv i by rewrite /ac EL EU.
clearbody ac low upp; rewrite [dual (QSol _ _ _ _ _)]/= [primal _]/=.
split=> [i|xs ys h1 h2 h3 h4].
  rewrite EA -mem_act => ni; have [_ w] := C16_write_back eps0 (t_hat e prm p s yv).
  by rewrite !mxE w.
have := polish_bound g cv d0 eps0 E h1.
have -> : (\col_i (if act e p yv i then unscale_y s (write_dual (t_hat e prm p s yv)) i 0 else 0) : 'cV[F]_m) =
  \col_i (if ac i then unscale_y s (write_dual (t_hat e prm p s yv)) i 0 else 0).
  by apply: vecP => i; rewrite [LHS]mxE [RHS]mxE EA.
have EF (f : 'I_m -> F) : \sum_(i | act e p yv i) f i = \sum_(i | ac i) f i by apply: eq_bigl => i; rewrite EA.
cbv zeta; rewrite !EF; apply.
- by move=> i hi; apply: h2; rewrite EA.
- by move=> i hi; apply: h3; rewrite EL.
- by move=> i hi; apply: h4; rewrite EU.
Qed.
Theorem C94_dense fuel o p ws r o' : convex p -> reach_d e prm o ->
  solve_dense e prm fuel o p ws = Some (r, o') -> code r = Optimal ->
  exists2 r0, solve_dense e (no_polish prm) fuel o p ws = Some (r0, o') & polished p (o_s o') r0 r.
Proof.
move=> cv ro /solve_dense_obj[s cs [hs ->]] hc; have g := cur_scale_good h (reach_d_good h ro) cs.
have [r0 h0 hp] := core_polished cv g hs hc; exists r0 => //.
rewrite /solve_dense; have -> : cur_scale e (no_polish prm) o p = Some s by exact: cs.
by have -> : solve_core e (no_polish prm) fuel p s (symU (fill_dense (no_polish prm) p s)) ws = Some r0 by exact: h0.
Qed.
Theorem C94_sparse fuel o (p : sqp F n m) ws r o' : convex (dense_of p) -> reach_s e prm o ->
  solve_sparse e prm fuel o p ws = Some (r, o') -> code r = Optimal ->
  exists2 r0, solve_sparse e (no_polish prm) fuel o p ws = Some (r0, o') & polished (dense_of p) (o_s o') r0 r.
Proof.
move=> cv ro; rewrite /solve_sparse; case cs : (cur_scale e prm o (dense_of p)) => [s|] //.
have -> : cur_scale e (no_polish prm) o (dense_of p) = Some s by exact: cs.
have g := cur_scale_good h (reach_s_good h ro) cs.
have -> : fill_sparse (no_polish prm) (o_cmp o) (o_h o) p s = fill_sparse prm (o_cmp o) (o_h o) p s by [].
case: ifP => // _; case hs : (solve_core _ _ _ _ _ _ _) => [r'|] // [<- <-] hc.
by have [r0 -> hp] := core_polished cv g hs hc; exists r0.
Qed.
End Solve.
Section Unscaled.
Variable F : realFieldType.
Variables n m : nat.
Variables (e : env F n m) (prm : params F).
Hypotheses (h : good_sqrt e) (d0 : 0 < delta prm) (eps0 : 0 <= macheps e) (po : polish prm = true) (qok : quasi_ok e).
(** solve_qp without scaling, started anywhere, when the rows picked by the unpolished answer are those of the solution
    (xs, ys): stationarity and tightness hold up to delta |(xs, ys)| / sqrt polish_iter, whatever eps_abs and eps_rel are. *)
Corollary C94_unscaled fuel p ws r : convex p -> scaling prm = false ->
  solve_qp e prm fuel p ws = Some r -> code r = Optimal ->
  exists2 r0, solve_qp e (no_polish prm) fuel p ws = Some r0 &
  let low i := (dual r0 i 0 < - (100%:R * macheps e)) && ~~ is_neginf (ql p i) in
  let upp i := (100%:R * macheps e < dual r0 i 0) && ~~ is_posinf (qu p i) in
  forall xs ys, kkt p xs ys -> (forall i, ~~ (low i || upp i) -> ys i 0 = 0) ->
    (forall i, low i -> ql p i = Fin ((qA p *m xs) i 0)) -> (forall i, upp i -> qu p i = Fin ((qA p *m xs) i 0)) ->
    let g := qP p *m primal r + qq p + (qA p)^T *m (\col_i if low i || upp i then dual r i 0 else 0) in
    let W := dot xs xs + dot ys ys in
    [/\ dot (primal r - xs) (primal r - xs) <= W,
        (polish_iter prm)%:R * dot g g <= delta prm ^+ 2 * W &
        forall i, low i || upp i -> (polish_iter prm)%:R * ((qA p *m primal r) i 0 - (qA p *m xs) i 0) ^+ 2 <= delta prm ^+ 2 * W].
Proof.
move=> cv sc; rewrite /solve_qp; case E : (solve_dense _ _ _ _ _ _) => [[r' o']|] //= [<-] hc.
have [r0 h0 hp] := C94_dense h d0 eps0 po qok cv (rd_new _ _) E hc; exists r0; first by rewrite h0.
have s1 : o_s o' = Scaling 1 (ones F n) (ones F m).
  by move: E => /solve_dense_obj[s cs [_ ->]] /=; move: cs; rewrite /cur_scale sc /= => -[<-].
move: hp; rewrite /polished s1 /= => -[_ hp] xs ys kk h2 h3 h4.
have D i : 1 * dual r0 i 0 / ones F m i 0 = dual r0 i 0 by rewrite mxE divr1 mul1r.
have [_ kx _] := kk.
have /= := hp xs ys kx; clear hp.
set L2 := (forall i, ~~ _ -> _); have {}h2 : L2 by move=> i; rewrite D; exact: h2.
move=> /(_ h2).
have {}h3 : forall i, (1 * dual r0 i 0 / ones F m i 0 < - (100%:R * macheps e)) && ~~ is_neginf (ql p i) -> ql p i = Fin ((qA p *m xs) i 0).
  by move=> i; rewrite D; exact: h3.
have {}h4 : forall i, (100%:R * macheps e < 1 * dual r0 i 0 / ones F m i 0) && ~~ is_posinf (qu p i) -> qu p i = Fin ((qA p *m xs) i 0).
  by move=> i; rewrite D; exact: h4.
move=> /(_ h3 h4).
pose ac i := ((dual r0 i 0 < - (100%:R * macheps e)) && ~~ is_neginf (ql p i)) || ((100%:R * macheps e < dual r0 i 0) && ~~ is_posinf (qu p i)).
set ya := \col_i _; have -> : ya = \col_i (if ac i then dual r' i 0 else 0) by apply: vecP => i; rewrite [LHS]mxE [RHS]mxE D.
clear ya; set ya := \col_i _.
have EF (f : 'I_m -> F) : \sum_(i | (1 * dual r0 i 0 / ones F m i 0 < - (100%:R * macheps e)) && ~~ is_neginf (ql p i) ||
    (100%:R * macheps e < 1 * dual r0 i 0 / ones F m i 0) && ~~ is_posinf (qu p i)) f i = \sum_(i | ac i) f i.
  by apply: eq_bigl => i; rewrite D.
rewrite !EF.
have WE : \sum_j (xs j 0 / ones F n j 0) ^+ 2 + \sum_(i | ac i) (1 * ys i 0 / ones F m i 0) ^+ 2 = dot xs xs + dot ys ys.
  rewrite /dot !mxE; congr (_ + _); first by apply: eq_bigr => i _; rewrite !mxE divr1 expr2.
  rewrite [RHS](bigID ac) /= [X in _ + X]big1 ?addr0 => [|i ni]; first by apply: eq_bigr => i _; rewrite !mxE mul1r divr1 expr2.
  by rewrite (h2 i) ?mulr0 // D.
rewrite WE; set W := dot xs xs + dot ys ys; case=> h5 h6.
set g := qP p *m primal r' + qq p + (qA p)^T *m ya; rewrite -/g in h6.
have GE : \sum_j (1 * (ones F n j 0 * g j 0)) ^+ 2 = dot g g.
  by rewrite /dot mxE; apply: eq_bigr => j _; rewrite !mxE !mul1r expr2.
rewrite GE in h6.
have sg (f : 'I_m -> F) : 0 <= \sum_(i | ac i) f i ^+ 2 by apply: sumr_ge0 => i _; exact: sqr_ge0.
have k0 : 0 <= (polish_iter prm)%:R :> F by exact: ler0n.
split.
- apply: le_trans h5; rewrite /dot mxE -[X in X <= _]addr0; apply: ler_add; last exact: sg.
  by rewrite le_eqVlt; apply/orP; left; apply/eqP; apply: eq_bigr => j _; rewrite !mxE divr1 expr2.
- by apply: le_trans h6; rewrite ler_wpmul2l // ler_addl sg.
- move=> i ai; apply: le_trans h6; rewrite ler_wpmul2l //; apply: ler_paddl; first exact: dot_ge0.
  rewrite (bigD1 i) //=; apply: ler_paddr; first by apply: sumr_ge0 => a _; exact: sqr_ge0.
  have -> : (qA p *m (primal r' - xs)) i 0 = (qA p *m primal r') i 0 - (qA p *m xs) i 0.
    by rewrite mulmxBr mxE; congr (_ + _); rewrite mxE.
  by rewrite [ones F m i 0]mxE mul1r.
Qed.
End Unscaled.

(** Minimize x subject to -1 <= x <= 1 from the solution -1 with multiplier -1: the row is active at its lower bound,
    and the polished answer is within 1e-6 of -1. *)
Section Case.
Variable F : realFieldType.
Local Notation f := (q2f F).
Definition p94 : qp F 1 1 := p1 F (0#1) (1#1) (1#1) (Fi (-1#1)) (Fi (1#1)).
Definition w94 : qsol F 1 1 := QSol Optimal 0 (cst F (-1#1)) (cst F (-1#1)) 0.
Lemma quasi94 : quasi_ok (env0 F true 1 1). Proof. by []. Qed.
Lemma conv94 : convex p94.
Proof. by split; [rewrite /symm cstT|rewrite /= cst0 => x; rewrite /qf mulmx0 mul0mx mxE]. Qed.
Lemma start94 : start p94 (Scaling 1 (ones F 1) (ones F 1)) (Some w94) = stv F ((-1#1), (-1#1), (-1#1))%Q.
Proof.
by rewrite /start /stv /st /= cinv1 !cmul1 scale1r cstM; congr XYZ; apply: cst_eq.
Qed.
Lemma kkt94 : kkt p94 (cst F (-1#1)) (cst F (-1#1)).
Proof.
have e1 i : (qA p94 *m cst F (-1#1)) i 0 = f (-1#1) by rewrite /= cstM mxE; apply: q2f_eq.
split.
- by move=> i; rewrite e1 /between /= lexx /= q2f_le.
- by rewrite /= cstT cst0 mul0mx add0r cstM cstD -cst0; apply: cst_eq.
- move=> i; rewrite e1 /= mxE /multiplier; split=> //.
  by rewrite -(q2f0 F) q2f_lt.
Qed.
Lemma run94 po : exists2 r, solve_qp (env0 F true 1 1) (dprm F false po) 2 p94 (Some w94) = Some r &
  code r = Optimal /\ (po = false -> dual r = cst F (-1#1)).
Proof.
rewrite /solve_qp /solve_dense /cur_scale /=.
rewrite (@run2 _ _ _ (env0 F true 1 1) (dprm F false po) p94 _ _ (Some w94) Optimal) //; last 2 first.
- exact: ti14.
- by rewrite start94 -/(Hd (dprm F false po) p94 (Scaling 1 (ones F 1) (ones F 1))) (verdictE (rho := (1#10))) // rho14.
eexists; first reflexivity; split=> // ->.
have G (v : xyz F 1 1) (b : obj F 1 1) s k : dual (finish (env0 F true 1 1) (dprm F false false) p94 s (k, v, Some Optimal), b).1 = unscale_y s (it_y v) by [].
rewrite G start94 -/(Hd (dprm F false false) p94 (Scaling 1 (ones F 1) (ones F 1))) (@trajq F (0#1) (1#1) (1#1) (Fi (-1#1)) (Fi (1#1)) (1#10)) //; last exact: rho14.
by rewrite unscale_y1; apply: cst_eq.
Qed.
Example C94_case : exists2 r, solve_qp (env0 F true 1 1) (dprm F false true) 2 p94 (Some w94) = Some r &
  code r = Optimal /\ 5%:R * (primal r 0 0 - f (-1#1)) ^+ 2 <= f (1#1000000) ^+ 2 * 2%:R.
Proof.
have [r hr [hc _]] := run94 true; exists r => //; split=> //.
have d0 : 0 < delta (dprm F false true) by exact: pos01.
have [r0 h0 H] := @C94_unscaled F 1 1 (env0 F true 1 1) (dprm F false true) (@env0_sqrt _ _ _ _) d0 (lexx 0) erefl quasi94 2 p94 (Some w94) r conv94 erefl hr hc.
have [r1 h1 [_ /(_ erefl) d1]] := run94 false.
have E : r0 = r1 by move: h0; rewrite (h1 : solve_qp _ (no_polish (dprm F false true)) _ _ _ = _) => -[].
have n1 : f (-1#1) < 0 by rewrite -(q2f0 F) q2f_lt.
have D i : dual r0 i 0 = f (-1#1) by rewrite E d1 mxE.
have e0 : 100%:R * macheps (env0 F true 1 1) = 0 by rewrite /= mulr0.
have ll i : (dual r0 i 0 < - (100%:R * macheps (env0 F true 1 1))) && ~~ is_neginf (ql p94 i) by rewrite e0 oppr0 D n1.
have uu i : (100%:R * macheps (env0 F true 1 1) < dual r0 i 0) = false by rewrite e0 D ltNge ltW.
have e1 i : (qA p94 *m cst F (-1#1)) i 0 = f (-1#1) by rewrite /= cstM mxE; apply: q2f_eq.
have [] := H (cst F (-1#1)) (cst F (-1#1)) kkt94; clear H.
- by move=> i; rewrite ll.
- by move=> i _; rewrite e1.
- by move=> i; rewrite uu.
move=> _ _ /(_ 0); rewrite ll => /(_ erefl); rewrite e1.
have -> : (qA p94 *m primal r) 0 0 = primal r 0 0 by rewrite /= cst1 mxE big_ord_recl big_ord0 addr0 mxE mul1r.
have -> : dot (cst F (-1#1)) (cst F (-1#1)) = 1.
  by rewrite /dot cstT cstM mxE -q2f1; apply: q2f_eq.
by [].
Qed.
End Case.

Print Assumptions C94_nonsingular.
Print Assumptions C94_dense.
Print Assumptions C94_sparse.
Print Assumptions C94_unscaled.
