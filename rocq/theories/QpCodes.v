(** C07-C12, C14, C16: verdicts, iteration counts, polishing. *)
From mathcomp Require Import all_ssreflect all_algebra.
From mathcomp.algebra_tactics Require Import ring.
From Verif Require Import LinAlg QpModel QpSpec QpFacts QpAdmm QpLoop QpProps QpConv.
Set Implicit Arguments.
Unset Strict Implicit.
Unset Printing Implicit Defensive.
Import Order.TTheory GRing.Theory Num.Theory.
Local Open Scope ring_scope.

Section Codes.
Variables (F : realFieldType) (n m : nat).
Variables (e : env F n m) (prm : params F).
Implicit Types (p : qp F n m) (s : scaling_t F n m) (o : obj F n m) (v w : xyz F n m).
Notation tr p s ws := (traj prm p s (Hd prm p s) (start p s ws)).
Notation vd p s ws := (verdict e prm p s (Hd prm p s) (start p s ws)).

(** * C09 *)
(** Some row of the problem can be satisfied by no number. *)
Definition empty_row p := exists i, forall t, between (ql p i) (qu p i) t = false.
Lemma emptyP p : reflect (empty_row p) (trivially_infeasible p).
Proof.
apply: (iffP existsP) => -[i h]; exists i.
  by move=> t; apply/negbTE/negP => /between_contra; rewrite h.
apply/negPn/negP => nc.
have := h (clamp (ql p i) (qu p i) 0); rewrite clamp_between //; exact: negbTE.
Qed.
Theorem C09_contradictory fuel o p ws r o' : solve_dense e prm fuel o p ws = Some (r, o') ->
  ldlt_ok e (Hd prm p (o_s o')) -> empty_row p -> code r = PrimalInfeasible /\ niter r = 0%N.
Proof.
move=> /solve_dense_obj[s _ [hs ->]] /= lok /emptyP ti.
move: hs => /coreP[t]; rewrite /ret0 lok ti loop_done => -[<-] ->.
by rewrite /finish.
Qed.
(** * The outcome of the loop *)
Lemma coreE fuel p s ws r : ldlt_ok e (Hd prm p s) -> ~ empty_row p ->
  solve_core e prm fuel p s (Hd prm p s) ws = Some r ->
  exists k rc, [/\ r = finish e prm p s (k, tr p s ws k, rc), forall j, (j < k)%N -> at_limit prm j = false,
    forall j, (j.+1 < k)%N -> is_check prm j -> vd p s ws j = None &
    match rc with
    | None => at_limit prm k /\ (forall j, (j < k)%N -> is_check prm j -> vd p s ws j = None)
    | Some c => exists2 j, k = j.+1 & is_check prm j /\ vd p s ws j = Some c
    end].
Proof.
move=> lok ne /coreP[[[k v] rc]]; rewrite /ret0 lok; have -> : trivially_infeasible p = false by apply/negbTE/emptyP.
have -> : start p s ws = tr p s ws 0 by [].
move=> /loopP[_ -> h1 h2 h3] ->; exists k, rc; split=> //.
- by move=> j jk; apply: h2.
- case: rc h3 => [c [j -> [_ cj vj]]|[h4 h5]]; first by exists j.
  by split=> // j jk; apply: h5.
Qed.
Lemma vd_code p s ws j c : vd p s ws j = Some c ->
  [\/ c = Optimal, c = PrimalInfeasible, c = DualInfeasible | c = MaxTime].
Proof.
rewrite /verdict /check_iter /check_stopping; case: ifP => _; first by case=> <-; constructor 1.
case: ifP => _; first by case=> <-; constructor 2.
case: ifP => _; first by case=> <-; constructor 3.
by case: ifP => _ // [<-]; constructor 4.
Qed.
(** Otherwise at least one iteration is made before the verdict. *)
Theorem C09_otherwise fuel o p ws r o' : solve_dense e prm fuel o p ws = Some (r, o') ->
  ldlt_ok e (Hd prm p (o_s o')) -> ~ empty_row p -> (forall N, max_iter prm = Some N -> (0 < N)%N) ->
  exists2 k, (0 < k)%N & niter r = (k %% w32)%N /\
    (polish prm = false -> primal r = unscale_x (o_s o') (it_x (tr p (o_s o') ws k))).
Proof.
move=> /solve_dense_obj[s _ [hs ->]] lok ne hN; have [k [rc [-> h1 h2 h3]]] := coreE lok ne hs.
exists k.
  case: k rc h1 h2 h3 => [|k] [c|] //= _ _; first by case.
  by case=> + _; rewrite /at_limit; case E : (max_iter prm) => [N|] //; rewrite mod0n => /eqP N0; have := hN _ E; rewrite -N0.
split=> [|pf]; first by rewrite /finish.
by rewrite /finish pf; case: (rc) => [[]|].
Qed.

(** * C10 *)
(** A solve with limit N makes k <= N iterations, reports k, and reports MaxIterations exactly if the
    limit was reached and no check gave a verdict. *)
Theorem C10_iterations fuel o p ws r o' N : solve_dense e prm fuel o p ws = Some (r, o') ->
  max_iter prm = Some N -> (N < w32)%N -> ldlt_ok e (Hd prm p (o_s o')) -> ~ empty_row p ->
  exists k, [/\ niter r = k, (k <= N)%N,
    polish prm = false -> primal r = unscale_x (o_s o') (it_x (tr p (o_s o') ws k)) /\
                          dual r = unscale_y (o_s o') (it_y (tr p (o_s o') ws k)) &
    code r = MaxIterations <-> k = N /\ forall j, (j < N)%N -> is_check prm j -> vd p (o_s o') ws j = None].
Proof.
move=> /solve_dense_obj[s _ [hs ->]] eN Nw lok ne; have [k [rc [-> h1 h2 h3]]] := coreE lok ne hs.
have lim j : (j < w32)%N -> at_limit prm j = (j == N) by move=> jw; rewrite /at_limit eN modn_small.
have kN : (k <= N)%N by rewrite leqNgt; apply/negP => /h1; rewrite lim // eqxx.
have kw := leq_ltn_trans kN Nw.
exists k; rewrite /finish; split=> //; first by rewrite /= modn_small.
  by move=> pf; rewrite pf; case: (rc) => [[]|].
move: h3; rewrite /=; case: rc => [c|] /=.
  case=> j kj [cj vj]; split=> [ec|[kn hn]].
    by have := vd_code vj; rewrite ec; case.
  by have jN : (j < N)%N; [rewrite -kn kj|have := hn j jN cj; rewrite vj].
rewrite lim // => -[/eqP -> hv]; split=> // _; split=> // j jN; exact: hv.
Qed.
(** Without limit MaxIterations is never reported. *)
Theorem C10_no_limit fuel o p ws r o' : solve_dense e prm fuel o p ws = Some (r, o') ->
  max_iter prm = None -> ldlt_ok e (Hd prm p (o_s o')) -> ~ empty_row p -> code r <> MaxIterations.
Proof.
move=> /solve_dense_obj[s _ [hs ->]] eN lok ne; have [k [rc [-> h1 h2 h3]]] := coreE lok ne hs.
rewrite /=; case: rc h3 => [c [j _ [_ /vd_code vj]]|[]] /=; last by rewrite /at_limit eN.
by case: vj => ->.
Qed.

(** * C11 *)
(** While the 32-bit counter does not wrap, every window of stop_check_iter iterations has a check. *)
Theorem C11_checks_partial k : (1 < stop_check_iter prm)%N -> (k + stop_check_iter prm <= w32)%N ->
  exists2 j, (k <= j < k + stop_check_iter prm)%N & is_check prm j.
Proof.
move=> c1; rewrite /is_check; move: w32 (stop_check_iter prm) c1 => W c c1 h.
pose d := ((c + 1 - k %% c) %% c)%N.
have dc : (d < c)%N by rewrite ltn_mod ltnW.
exists (k + d)%N; first by rewrite leq_addr ltn_add2l.
rewrite (@modn_small (k + d)%N); last by apply: leq_trans h; rewrite ltn_add2l.
have kc : (k %% c < c)%N by rewrite ltn_mod ltnW.
rewrite /d modnDmr addnBA; last by rewrite (leq_trans (ltnW kc)) // leq_addr.
have -> : (k + (c + 1) - k %% c = k %/ c * c + (c + 1))%N by rewrite {1}(divn_eq k c) addnAC addnK.
by rewrite modnMDl modnDl modn_small.
Qed.

(** * C12 *)
(** The iterates depend on the upper triangle of P only (given the scaling factors). *)
Theorem C12_iterates_partial p1 p2 s ws k : same_upper p1 p2 -> tr p1 s ws k = tr p2 s ws k.
Proof.
move=> [hP hq hA hl hu].
have R : rho_vec prm p1 s = rho_vec prm p2 s by apply: vecP => i; rewrite !mxE hl hu.
have E : Hd prm p1 s = Hd prm p2 s.
  apply: symU_ext => r c rc; rewrite /fill_dense R.
  have -> : scaledA p1 s = scaledA p2 s by apply/matrixP => i j; rewrite !mxE hA.
  move: rc; case: (split_ordP r) => i ->; case: (split_ordP c) => j -> rc; rewrite ?block_mxEul ?block_mxEur ?block_mxEdl ?block_mxEdr //.
  by rewrite mxE [in RHS]mxE; congr (_ + _); rewrite !mxE hP.
have S : start p1 s ws = start p2 s ws by rewrite /start hA.
rewrite E S; elim: k => [|k IH] //; rewrite /traj !iterS -!/(traj _ _ _ _ _ k) IH.
rewrite 2!step_genE /admm_rhs R hq; apply: step_gen_ext => w.
by apply: vecP => i; rewrite !mxE hl hu.
Qed.

(** * C14 *)
(** Polishing has no influence on the status and the iteration count. *)
Theorem C14_code_partial fuel o p ws : 
  omap (fun r => (code r.1, niter r.1)) (solve_dense e prm fuel o p ws) =
  omap (fun r => (code r.1, niter r.1)) (solve_dense e (no_polish prm) fuel o p ws).
Proof.
case: prm => al rb sg sc ea er ep ed mi mt ci po pi de; rewrite /no_polish /=.
rewrite /solve_dense /cur_scale /=; case: (if sc then _ else _) => // s.
rewrite /solve_core.
have -> : forall pm, main_loop e (Params al rb sg sc ea er ep ed mi mt ci pm pi de) fuel 0 p s
     (symU (fill_dense (Params al rb sg sc ea er ep ed mi mt ci pm pi de) p s)) (start p s ws)
     (ret0 e p (symU (fill_dense (Params al rb sg sc ea er ep ed mi mt ci pm pi de) p s))) =
  main_loop e (Params al rb sg sc ea er ep ed mi mt ci false pi de) fuel 0 p s
     (symU (fill_dense (Params al rb sg sc ea er ep ed mi mt ci false pi de) p s)) (start p s ws)
     (ret0 e p (symU (fill_dense (Params al rb sg sc ea er ep ed mi mt ci false pi de) p s))).
  by case.
by case: (main_loop _ _ _ _ _ _ _ _ _) => [[[k v] rc]|].
Qed.

(** * C16 *)
Section Polish.
Variables (p : qp F n m) (s : scaling_t F n m) (y : 'cV[F]_m).
Notation L := (LU e p y).
Notation k := (size L).
Notation idx := (@LU_idx _ _ _ e p y).
Hypothesis eps0 : 0 <= macheps e.

(** Every row at most once. *)
Theorem C16_rows_once : uniq L.
Proof.
rewrite /LU cat_uniq; apply/and3P; split; [exact: filter_uniq (enum_uniq _)| |exact: filter_uniq (enum_uniq _)]; apply/hasPn => i.
rewrite /actU mem_filter => /andP[/andP[h _] _]; apply/negP; rewrite /= /actL mem_filter => /andP[/andP[h' _] _].
have e0 : 0 <= 100%:R * macheps e by rewrite mulr_ge0 // ler0n.
have : y i 0 < y i 0; last by rewrite ltxx.
by apply: lt_trans h' _; apply: le_lt_trans h; rewrite (le_trans _ e0) // oppr_le0.
Qed.
(** The bound used for a row is the finite one on the side of its multiplier. *)
Definition bound_of (a : 'I_k) : ext F := if (a < size (actL e p y))%N then ql p (idx a) else qu p (idx a).
Theorem C16_bound_finite (a : 'I_k) : (forall i, ql p i <> @PosInf F) -> (forall i, qu p i <> @NegInf F) ->
  (if (a < size (actL e p y))%N then y (idx a) 0 < 0 else 0 < y (idx a) 0) /\
  exists b, bound_of a = Fin b.
Proof.
move=> hl hu; rewrite /bound_of.
have e0 : 0 <= 100%:R * macheps e by rewrite mulr_ge0 // ler0n.
have E : idx a = nth (idx a) L a by exact: (tnth_nth _ (in_tuple L)).
case: ifP => al.
  have : idx a \in actL e p y by rewrite E /LU nth_cat al mem_nth.
  rewrite mem_filter => /andP[/andP[h1 h2] _]; split.
    by apply: lt_le_trans h1 _; rewrite oppr_le0.
  by case Eb : (ql p (idx a)) h2 => [|b|] // _; [exists b|have := hl (idx a)].
have : idx a \in actU e p y.
  by rewrite E /LU nth_cat al mem_nth // -subSn ?leq_subLR -?size_cat ?ltn_ord // leqNgt al.
rewrite mem_filter => /andP[/andP[h1 h2] _]; split; first exact: le_lt_trans h1.
by case Eb : (qu p (idx a)) h2 => [|b|] // _; [have := hu (idx a)|exists b].
Qed.
(** Multipliers are written back to the rows they belong to; the others are kept. *)
Lemma idx_inj : injective idx.
Proof.
move=> a b; rewrite /LU_idx !(tnth_nth (idx a)) => /eqP.
by rewrite nth_uniq ?ltn_ord ?C16_rows_once // => /eqP /val_inj.
Qed.
Theorem C16_write_back (t : 'cV[F]_(n + k)) :
  (forall a, write_dual t (idx a) 0 = dsubmx t a 0) /\ (forall i, i \notin L -> write_dual t i 0 = y i 0).
Proof.
rewrite /write_dual.
pose f := fun (d : 'cV[F]_m) (a : 'I_k) => \col_i (if i == idx a then dsubmx t a 0 else d i 0).
have G (l : seq 'I_k) d : uniq l -> (forall a, a \in l -> foldl f d l (idx a) 0 = dsubmx t a 0) /\
    (forall i, (forall a, a \in l -> i != idx a) -> foldl f d l i 0 = d i 0).
  elim: l d => [|b l IH] d //= /andP[bl ul]; have [h1 h2] := IH (f d b) ul; split.
    move=> a; rewrite inE => /orP[/eqP ->|]; last exact: h1.
    rewrite h2 => [|c cl]; first by rewrite mxE eqxx.
    by apply/eqP => /idx_inj bc; rewrite bc cl in bl.
  move=> i hi; rewrite h2 => [|a al]; last by apply: hi; rewrite inE al orbT.
  by rewrite mxE (negbTE (hi b _)) // inE eqxx.
have [h1 h2] := G (enum 'I_k) y (enum_uniq _); split; first by move=> a; apply: h1; rewrite mem_enum.
move=> i iL; apply: h2 => a _; apply/eqP => ia; move: iL; rewrite ia.
by rewrite /LU_idx mem_tnth.
Qed.

(** Fixed points of the refinement solve the equality constrained problem on the active rows. *)
Theorem C16_fixed_point (t : 'cV[F]_(n + k)) : good_scaling s -> symm (qP p) ->
  symU (pol_Hp e prm p s y) \in unitmx ->
  (forall i, ql p i <> @PosInf F) -> (forall i, qu p i <> @NegInf F) ->
  refine prm s t = t <->
  (forall a b, bound_of a = Fin b -> (qA p *m unscale_x s (usubmx t)) (idx a) 0 = b) /\
  qP p *m unscale_x s (usubmx t) + qq p +
    (qA p)^T *m (\sum_a (dsubmx t a 0 * s_y s (idx a) 0 / s_c s) *: delta_mx (idx a) 0) = 0.
Proof.
move=> g sm hu hl hh; have [c sx sy] := g.
have -> : refine prm s t = t <-> symU (pol_H e p s y) *m t = pol_h e p s y.
  rewrite /refine; split=> [/eqP|->]; last by rewrite subrr mulmx0 addr0.
  rewrite -subr_eq0 addrC addKr => /eqP h; apply/esym/eqP; rewrite -subr_eq0; apply/eqP.
  by rewrite -[LHS](mulKVmx hu) h mulmx0.
rewrite -{1}[t]vsubmxK; move: (usubmx t) (dsubmx t) => x ya.
rewrite /pol_H symU_block trmxK symU0 mul_block_col mul0mx addr0 /pol_h.
have E1 a : (actA e p s y *m x) a 0 = s_y s (idx a) 0 * (qA p *m unscale_x s x) (idx a) 0.
  rewrite /unscale_x !mxE mulr_sumr; apply: eq_bigr => j _; rewrite !mxE; gen_entries; ring.
have E2 : symU (scaledP p s) *m x + (actA e p s y)^T *m ya - (- s_c s *: cmul (s_x s) (qq p)) =
  s_c s *: cmul (s_x s) (qP p *m unscale_x s x + qq p +
    (qA p)^T *m (\sum_a (ya a 0 * s_y s (idx a) 0 / s_c s) *: delta_mx (idx a) 0)).
  have -> : symU (scaledP p s) = sP' p s by [].
  rewrite sP_spb // /= -scalemxAl -!mulmxA !diag_cmul scaleNr opprK !cmulDr !scalerDr -!addrA; congr (_ + _).
  rewrite addrC; congr (_ + _); apply: vecP => j; rewrite mulmx_sumr !mxE summxE !mulr_sumr; apply: eq_bigr => a _.
  rewrite -scalemxAr !mxE (bigD1 (idx a)) //= big1 => [|i ia]; last by rewrite !mxE (negbTE ia) mulr0.
  rewrite !mxE !eqxx /= addr0 mulr1; have c0 := lt0r_neq0 c.
  gen_entries; move: (s_c s) c0 => c' c0; by field.
have E3 a : pol_b e p s y a 0 = s_y s (idx a) 0 * ext_val (bound_of a) by rewrite mxE.
split.
  move=> /eq_col_mx[h1 h2]; split.
    move=> a b hb; have := congr1 (fun M : 'cV[F]_k => M a 0) h2; rewrite E1 E3 hb /=.
    exact: (mulfI (lt0r_neq0 (sy _))).
  move: E2; rewrite h1 subrr => /esym h; have := scalerI (lt0r_neq0 c) (etrans h (esym (scaler0 _ _))).
  by move=> h'; rewrite -[LHS](cmulVK _ sx) h' cmul0r.
move=> [h1 h2]; congr col_mx.
  by apply/eqP; rewrite -subr_eq0 E2 h2 cmul0r scaler0.
apply: vecP => a; rewrite E1 E3; have [_ [b hb]] := C16_bound_finite a hl hh.
by rewrite (h1 _ _ hb) hb.
Qed.
End Polish.
End Codes.
