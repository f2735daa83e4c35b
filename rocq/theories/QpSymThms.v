(** Property C98, continued: polishing and the whole solver. *)
From mathcomp Require Import all_ssreflect all_fingroup all_algebra.
From mathcomp.algebra_tactics Require Import ring.
From Verif Require Import LinAlg QF QpModel QpSpec QpFacts QpAdmm QpLoop QpProps QpConv QpCodes QpPolish QpSym QpSymLoop.
Set Implicit Arguments.
Unset Strict Implicit.
Unset Printing Implicit Defensive.
Import Order.TTheory GRing.Theory Num.Theory.
Local Open Scope ring_scope.

Section Sym.
Variables (F : realFieldType) (n m : nat) (e : env F n m) (prm : params F).
Variables (s : {perm 'I_m}) (b : 'I_m -> bool) (r : {perm 'I_n}) (c : 'I_n -> bool).
Notation qmap := (qmap s b r c).
Notation smap := (smap s r).
Notation vmap := (vmap s b r c).
Notation rmap := (rmap s b r c).
Implicit Types (p : qp F n m) (t : scaling_t F n m).
Hypothesis eps0 : 0 <= macheps e.
Section Polish.
Variables (p : qp F n m) (t : scaling_t F n m) (y : 'cV[F]_m).
Hypothesis sy : symm (qP p).
Notation y' := (sv s b y).
Notation L := (LU e p y).
Notation L' := (LU e (qmap p) y').
Notation idx := (@LU_idx _ _ _ e p y).
Notation idx' := (@LU_idx _ _ _ e (qmap p) y').
Lemma low_map i : low_row e (qmap p) y' i = if b i then upp_row e p y (s i) else low_row e p y (s i).
Proof. by rewrite /low_row /upp_row /= lo_neginf mxE; case: (b i); rewrite /sg ?expr1 ?expr0 ?mulN1r ?mul1r // ltr_opp2. Qed.
Lemma upp_map i : upp_row e (qmap p) y' i = if b i then low_row e p y (s i) else upp_row e p y (s i).
Proof. by rewrite /low_row /upp_row /= up_posinf mxE; case: (b i); rewrite /sg ?expr1 ?expr0 ?mulN1r ?mul1r // ltr_oppr. Qed.
Lemma act_map i : act e (qmap p) y' i = act e p y (s i).
Proof. by rewrite /act low_map upp_map; case: (b i); rewrite // orbC. Qed.
Lemma low_upp i : low_row e p y i -> upp_row e p y i = false.
Proof.
move=> /andP[h _]; apply/negbTE/negP => /andP[h' _].
have e0 : 0 <= 100%:R * macheps e by rewrite mulr_ge0 // ler0n.
have : y i 0 < y i 0; last by rewrite ltxx.
by apply: lt_trans h _; apply: le_lt_trans h'; rewrite (le_trans _ e0) // oppr_le0.
Qed.
Lemma bij_idx : exists f g, [/\ cancel f g, cancel g f & forall a, idx (f a) = s (idx' a)].
Proof.
have [f hf] : exists f, forall a : 'I_(size L'), s (idx' a) = idx (f a).
  by apply: (fin_all_exists (P := fun a x => s (idx' a) = idx x)) => a; apply: act_ex; rewrite -act_map; exact: act_idx.
have [g hg] : exists g, forall a : 'I_(size L), (s^-1)%g (idx a) = idx' (g a).
  apply: (fin_all_exists (P := fun a x => (s^-1)%g (idx a) = idx' x)) => a; apply: act_ex; rewrite act_map permKV; exact: act_idx.
exists f, g; split=> a.
- by apply: (idx_inj eps0); rewrite -hg -hf permK.
- by apply: (idx_inj eps0); rewrite -hf -hg permKV.
- by rewrite hf.
Qed.
Section Bij.
Variables (f : 'I_(size L') -> 'I_(size L)) (g : 'I_(size L) -> 'I_(size L')).
Hypotheses (fg : cancel f g) (gf : cancel g f) (hf : forall a, idx (f a) = s (idx' a)).
Notation S := (smx F r c).
Notation W := (smx F f (fun a => b (idx' a))).
Definition Qp2 : 'M[F]_(n + size L', n + size L) := block_mx S 0 0 W.
Lemma Qp2_orth : orth Qp2.
Proof.
have [s1 s2] := perm_orth F r c; have [t1 t2] := smx_orth F (fun a => b (idx' a)) fg gf.
by split; rewrite /Qp2 tr_block_mx !trmx0 mulmx_block !mulmx0 !mul0mx !addr0 !add0r ?s1 ?s2 ?t1 ?t2 -scalar_mx_block.
Qed.
Lemma actA_map : actA e (qmap p) (smap t) y' = W *m actA e p t y *m S^T.
Proof.
apply/matrixP => a j; rewrite smxTE smxE !mxE hf /=; move: (sg _ _) (sg _ _) => z1 z2; gen_entries; ring.
Qed.
Lemma sad_map : sad (symU (scaledP (qmap p) (smap t))) (actA e (qmap p) (smap t) y') =
  Qp2 *m sad (symU (scaledP p t)) (actA e p t y) *m Qp2^T.
Proof.
rewrite !symU_symm; try by apply: symm_scaled => //; exact: symm_map.
rewrite /sad /Qp2 tr_block_mx !trmx0 !mulmx_block !mulmx0 !mul0mx !addr0 !add0r ?mulmx0 ?mul0mx scaledP_map actA_map; congr block_mx.
by rewrite !trmx_mul trmxK mulmxA.
Qed.
Lemma sgn_map d : d *: sgn F n (size L') = Qp2 *m (d *: sgn F n (size L)) *m Qp2^T.
Proof.
rewrite -scalemxAr -scalemxAl; congr (_ *: _).
rewrite /sgn /Qp2 tr_block_mx !trmx0 !mulmx_block !mulmx0 !mul0mx !addr0 !add0r !mulmx1 ?mulmx0 ?mul0mx mulmxN mulmx1 mulNmx.
by rewrite (perm_orth F r c).1 (smx_orth F (fun a => b (idx' a)) fg gf).1.
Qed.
Lemma bnd_map (a : 'I_(size L')) : ext_val (if (a < size (actL e (qmap p) y'))%N then ql (qmap p) (idx' a) else qu (qmap p) (idx' a)) =
  sg F (b (idx' a)) * ext_val (if (f a < size (actL e p y))%N then ql p (idx (f a)) else qu p (idx (f a))).
Proof.
have := side_row a; have := side_row (f a); rewrite low_map upp_map hf /= /lo /up.
case: (b _); case: ifP => _ h; case: ifP => _ h'; rewrite /sg ?expr1 ?expr0 ?mulN1r ?mul1r ?ext_val_neg //;
  first [by have := low_upp h; rewrite h' | by have := low_upp h'; rewrite h].
Qed.
Lemma polh_map : pol_h e (qmap p) (smap t) y' = Qp2 *m pol_h e p t y.
Proof.
rewrite /pol_h /Qp2 mul_block_col !mul0mx addr0 add0r; congr col_mx.
  by rewrite /= cmul_sv -svE svZ.
apply: vecP => a; rewrite smxE !mxE bnd_map hf; move: (sg _ _) (ext_val _) => z1 z2; gen_entries; ring.
Qed.
Lemma t_hat_map : t_hat e prm (qmap p) (smap t) y' = Qp2 *m t_hat e prm p t y.
Proof.
rewrite /t_hat; elim: (polish_iter prm) => [|k IH]; first by rewrite mulmx0.
rewrite !iterS IH /refine !pol_sadp !pol_sad /sadp sad_map sgn_map -mulmxDl -mulmxDr (orth_inv _ Qp2_orth) polh_map.
rewrite [RHS]mulmxDr; congr (_ + _).
have [_ q] := Qp2_orth.
by rewrite -!mulmxA (mulmxA Qp2^T Qp2) q mul1mx -mulmxBr (mulmxA Qp2^T Qp2) q mul1mx.
Qed.
Lemma pol_ok_arg : symU (pol_Hp e prm (qmap p) (smap t) y') = Qp2 *m symU (pol_Hp e prm p t y) *m Qp2^T.
Proof. by rewrite !pol_sadp /sadp sad_map sgn_map -mulmxDl -mulmxDr. Qed.
Lemma write_map (x : 'cV[F]_(n + size L)) : write_dual (Qp2 *m x : 'cV[F]_(n + size L')) = sv s b (write_dual x).
Proof.
apply: vecP => i; rewrite mxE.
have [w1 w2] := C16_write_back (e := e) (p := qmap p) (y := y') eps0 (Qp2 *m x).
have [v1 v2] := C16_write_back (e := e) (p := p) (y := y) eps0 x.
case ai : (act e (qmap p) y' i); last first.
  by rewrite w2 ?v2 ?mem_act -?act_map ?ai // mxE.
have [a ->] := act_ex ai; rewrite w1 -hf v1 -[x]vsubmxK /Qp2 mul_block_col !mul0mx addr0 add0r !col_mxKd.
by rewrite smxE.
Qed.
End Bij.
End Polish.
(** Whether a factorization succeeds does not depend on the order and the signs. *)
Definition fair := (forall (Q M : 'M[F]_(n + m)), orth Q -> ldlt_ok e (Q *m M *m Q^T) = ldlt_ok e M) /\
  (forall k k' (Q : 'M[F]_(n + k', n + k)) M, orth Q -> pol_ok e (Q *m M *m Q^T) = pol_ok e M).
Hypothesis fe : fair.
Lemma polish_map p t y x : symm (qP p) -> polish_qp e prm (qmap p) (smap t) (sv s b y) (sv r c x) =
  omap (fun xy => (sv r c xy.1, sv s b xy.2)) (polish_qp e prm p t y x).
Proof.
move=> h; have [f [g [fg gf hf]]] := bij_idx p y.
rewrite /polish_qp (pol_ok_arg _ h fg gf hf) fe.2; last exact: Qp2_orth fg gf.
case: ifP => _ //=; rewrite (t_hat_map _ h fg gf hf) write_map //.
congr (Some (_, _)); rewrite [RHS]svE -[t_hat e prm p t y]vsubmxK /Qp2 mul_block_col !mul0mx addr0 !col_mxKu //.
Qed.
Lemma finish_map p t x : symm (qP p) -> finish e prm (qmap p) (smap t) (lmap s b r c x) = rmap (finish e prm p t x).
Proof.
move=> h; case: x => -[k v] rc; rewrite /finish /lmap.
set xy' := (if _ then if polish_qp e prm (qmap p) _ _ _ is Some z then z else _ else _).
set xy := (if _ then if polish_qp e prm p _ _ _ is Some z then z else _ else _).
have E : xy' = (sv r c xy.1, sv s b xy.2).
  rewrite /xy' /xy /vmap /=; case: ifP => _ //; rewrite polish_map //.
  by case: (polish_qp e prm p t (it_y v) (it_x v)) => [[]|].
rewrite E /= /rmap /= unx_map uny_map; congr QSol.
by rewrite sm_mul -svZ -svD sv_dot.
Qed.
Lemma ret0_map p t : symm (qP p) -> ret0 e (qmap p) (Hd prm (qmap p) (smap t)) = ret0 e p (Hd prm p t).
Proof. by move=> h; rewrite /ret0 Hd_map // fe.1; [rewrite contra_map|exact: Q2_orth]. Qed.
Lemma core_map fuel p t ws : symm (qP p) -> good_scaling t -> flips_bounded s b p ->
  solve_core e prm fuel (qmap p) (smap t) (Hd prm (qmap p) (smap t)) (omap rmap ws) = omap rmap (solve_core e prm fuel p t (Hd prm p t) ws).
Proof.
move=> h g fb; rewrite /solve_core start_map ret0_map // loop_map //; last first.
  by rewrite /ret0 /no_contra; case: (ldlt_ok _ _); last (right); case: (trivially_infeasible p); [right|left|..].
by case: (main_loop _ _ _ _ _ _ _ _ _) => //= x; rewrite finish_map.
Qed.
(** Solving the problem with rows and variables in another order, and rows (with a bound) and variables multiplied by -1, gives the same answer
    in the other order: code, iterations, objective, point and multipliers. *)
Theorem C98_dense fuel p ws : good_sqrt e -> symm (qP p) -> flips_bounded s b p ->
  solve_qp e prm fuel (qmap p) (omap rmap ws) = omap rmap (solve_qp e prm fuel p ws).
Proof.
move=> gs h fb; rewrite /solve_qp /solve_dense.
have -> : cur_scale e prm (obj_new F n m) (qmap p) = omap smap (cur_scale e prm (obj_new F n m) p).
  rewrite /cur_scale; case: ifP => _; first exact: scale_map.
  by rewrite /smap /= !pv_ones.
case cs : (cur_scale e prm (obj_new F n m) p) => [t|] //=.
have g : good_scaling t.
  by apply: cur_scale_good cs => //; split; [exact: ltr01|exact: pos_ones|exact: pos_ones].
rewrite -/(Hd prm (qmap p) (smap t)) -/(Hd prm p t) core_map //.
by case: (solve_core _ _ _ _ _ _ _).
Qed.
End Sym.
