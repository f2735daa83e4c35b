From mathcomp Require Import all_ssreflect all_algebra.
From mathcomp.algebra_tactics Require Import ring.
From Verif Require Import LinAlg EkfModel EkfSpec.
Set Implicit Arguments.
Unset Strict Implicit.
Unset Printing Implicit Defensive.
Import Order.TTheory GRing.Theory Num.Theory.
Local Open Scope ring_scope.

Section Loop.
Variables (F : archiFieldType) (d : nat) (G : Type).
Variable gplus : G -> 'cV[F]_d -> G.
Variable ad : 'cV[F]_d -> 'M[F]_d.
Notation loop := (pred_loop gplus ad).

Lemma loop_terminates tb f (Q : 'M[F]_d) tau dtv n t s fuel :
  0 < dtv -> 0 <= tau - t -> tau - t <= n%:R * dtv -> (n < fuel)%N ->
  exists hs, [/\ loop tb f Q tau dtv fuel t s = Some (run_steps gplus ad tb f Q t hs s),
    \sum_(h <- hs) h = tau - t & all (fun h => (0 <= h) && (h <= dtv)) hs].
Proof.
move=> dt0; elim: n t s fuel => [|n IH] t s [//|fuel] t0 tn lt /=.
  rewrite ifN; last by rewrite -leNgt (le_trans _ (_ : t <= _)) ?ler_addl ?(ltW dt0) // -subr_le0 -[0](mul0r dtv).
  exists [:: tau - t]; rewrite big_seq1 /= t0 (le_trans tn) ?mul0r ?(ltW dt0) //.
case: ifP => c.
  have [||h [e1 e2 e3]] := IH (t + dtv) (pred_step gplus ad tb f Q s t dtv) fuel _ _ lt.
  - by rewrite subr_ge0 ltW.
  - by rewrite opprD addrA ler_subl_addr (le_trans tn) // -addn1 natrD mulrDl mul1r.
  exists (dtv :: h); split; rewrite //= ?e3 ?lexx ?(ltW dt0) //.
  by rewrite big_cons e2 opprD addrA addrC subrK.
move/negbT: c; rewrite -leNgt => c.
exists [:: tau - t]; split; rewrite ?big_seq1 //= t0 andbT /=.
by rewrite ler_subl_addl.
Qed.

Lemma loop_diverges (K : realFieldType) (gp : G -> 'cV[K]_d -> G) ad' tb f (Q : 'M[K]_d) tau dtv t s fuel :
  dtv <= 0 -> t + dtv < tau -> pred_loop gp ad' tb f Q tau dtv fuel t s = None.
Proof.
move=> d0; elim: fuel t s => [//|n IH] t s c /=; rewrite c IH //.
by rewrite (le_lt_trans _ c) // ger_addl.
Qed.
End Loop.

Section Sym.
Variables (F : realFieldType) (d : nat) (G : Type).
Variable gplus : G -> 'cV[F]_d -> G.
Variable ad : 'cV[F]_d -> 'M[F]_d.

Lemma symU_symm n (M : 'M[F]_n) : symm (symU M).
Proof.
apply/matrixP => i j; rewrite !mxE; case: (ltngtP i j) => // e.
by rewrite (val_inj e).
Qed.
Lemma symU_id n (M : 'M[F]_n) : symm M -> symU M = M.
Proof. by move=> s; apply/matrixP => i j; rewrite !mxE; case: ifP => // _; rewrite -[in RHS]s mxE. Qed.
Lemma symU_upper n (A B : 'M[F]_n) : same_upper A B -> symU A = symU B.
Proof.
move=> h; apply/matrixP => i j; rewrite !mxE; case: leqP => // c; rewrite h //.
exact: ltnW.
Qed.
Lemma symU_triu n (M : 'M[F]_n) : symU (triuU M) = symU M.
Proof. by apply: symU_upper => i j h; rewrite mxE h. Qed.
Lemma symU_same n (M : 'M[F]_n) : same_upper (symU M) M.
Proof. by move=> i j h; rewrite mxE h. Qed.
Lemma same_upperDl n (A B C : 'M[F]_n) : same_upper B C -> same_upper (A + B) (A + C).
Proof. by move=> h i j c; rewrite !mxE h. Qed.

Lemma symm_lincomb n cs (ks : seq 'M[F]_n) :
  (forall k, k \in ks -> symm k) -> symm (lincomb cs ks).
Proof.
rewrite /lincomb => h; elim: cs ks h => [|c cs IH] [|k ks] h; rewrite ?big_nil /symm ?trmx0 //=.
by rewrite big_cons; apply: symmD; [apply/symmZ/h; rewrite inE eqxx | apply: IH => k' k'i; apply: h; rewrite inE k'i orbT].
Qed.

Lemma symm_do_step n tb (ode : 'M[F]_n -> F -> 'M[F]_n) (P : 'M[F]_n) t h :
  (forall P t, symm (ode P t)) -> symm P -> symm (do_step tb +%R ode P t h).
Proof.
move=> so sP; apply: symmD => //; apply: symmZ; apply: symm_lincomb.
set ks := [::]; have: forall k, k \in ks -> symm k by [].
elim: tb.1 ks => [//|[c a] tab IH] ks hk /=; apply: IH => k.
by rewrite mem_rcons inE => /orP [/eqP ->|]; [exact: so|exact: hk].
Qed.

Lemma symm_pred_step tb f Q (s : ekf F d G) t h :
  symm (cov s) -> symm (cov (pred_step gplus ad tb f Q s t h)).
Proof. by move=> c; apply: symm_do_step => // P t'; exact: symU_symm. Qed.

Lemma symm_pred_loop tb f Q tau dtv fuel t (s s' : ekf F d G) :
  symm (cov s) -> pred_loop gplus ad tb f Q tau dtv fuel t s = Some s' -> symm (cov s').
Proof.
elim: fuel t s => [//|n IH] t s c /=; case: ifP => _; first by apply/IH/symm_pred_step.
by case=> <-; apply: symm_pred_step.
Qed.

Lemma symm_run tb fuel g0 (os : seq (eop F d G)) s :
  (forall o, List.In o os -> sym_op o) -> ekf_run gplus ad tb fuel g0 os = Some s -> symm (cov s).
Proof.
rewrite /ekf_run; have: symm (cov (ekf_new F d g0)) by exact: symm1.
elim: os (ekf_new F d g0) => [|o os IH] s0 c ho /=; first by case=> <-.
have hos o' : List.In o' os -> sym_op o' by move=> h; apply: ho; right.
case E: (ekf_step _ _ _ _ _ _) => [s1|]; last by elim: os {IH ho hos}.
apply: IH => //; case: o ho E => [g P|f Q tau dt|ny inn Hf R] ho /=.
- by case=> <-; exact: (ho _ (or_introl erefl)).
- exact: symm_pred_loop.
- by case=> <-; exact: symU_symm.
Qed.

(** Upper triangles. *)
Lemma pred_step_upper tb f Q Q' (s : ekf F d G) t h :
  same_upper Q Q' -> pred_step gplus ad tb f Q s t h = pred_step gplus ad tb f Q' s t h.
Proof.
move=> q; rewrite /pred_step; congr Ekf.
have E : forall P t', cov_ode ad f Q (g_hat s) P t' = cov_ode ad f Q' (g_hat s) P t'.
  by move=> P t'; apply: symU_upper; exact: same_upperDl.
rewrite /do_step; congr (_ + _ *: lincomb _ _).
elim: tb.1 [::] => [//|[c a] tab IH] ks /=.
by rewrite E IH.
Qed.
Lemma pred_upper tb f Q Q' tau dt fuel (s : ekf F d G) :
  same_upper Q Q' -> predict gplus ad tb f Q tau dt fuel s = predict gplus ad tb f Q' tau dt fuel s.
Proof.
move=> q; rewrite /predict; move: (odflt _ _) 0 => dtv t.
elim: fuel t s => [//|n IH] t s /=; by rewrite !(pred_step_upper _ _ _ _ _ q) IH.
Qed.
Lemma update_upper ny inn Hf (R R' : 'M[F]_ny) (s : ekf F d G) :
  same_upper R R' -> update gplus inn Hf R s = update gplus inn Hf R' s.
Proof.
move=> r; rewrite /update /gain /innov_cov !symU_triu.
by rewrite (symU_upper (same_upperDl _ r)).
Qed.
End Sym.

Section Update.
Variables (F : realFieldType) (d : nat).

Section One.
Variables (ny : nat) (H : 'M[F]_(ny,d)) (R : 'M[F]_ny) (P : 'M[F]_d).
Hypotheses (sP : symm P) (pP : psd P) (pR : pd (symU R)).
Let R' := symU R.
Let S := H *m P *m H^T + R'.

Lemma innovE : symU (innov_cov H R P) = S.
Proof.
rewrite /innov_cov symU_triu (symU_id sP).
have sS : symm S by apply: symmD; [exact: symm_congrT|exact: symU_symm].
rewrite -[RHS](symU_id sS); apply: symU_upper; rewrite /S; apply: same_upperDl => i j h.
by rewrite symU_same.
Qed.
Lemma S_symm : symm S.
Proof. by apply: symmD; [exact: symm_congrT|exact: symU_symm]. Qed.
Lemma S_pd : pd S.
Proof. by apply: psd_pdD => //; exact: psd_congrT. Qed.
Lemma S_unit : S \in unitmx.
Proof. exact: pd_unit S_pd. Qed.
Lemma gainE : gain H R P = P *m H^T *m invmx S.
Proof. by rewrite /gain innovE !trmx_mul sP (symm_inv S_symm). Qed.
Lemma gainS : gain H R P *m S = P *m H^T.
Proof. by rewrite gainE mulmxKV // S_unit. Qed.
Let K := gain H R P.
Definition post := P - K *m H *m P.
Lemma postE : symU ((1%:M - K *m H) *m P) = post.
Proof.
rewrite mulmxBl mul1mx symU_id // -/post /post /K gainE.
rewrite /symm linearB /= !trmx_mul sP trmxK (symm_inv S_symm) !mulmxA //.
Qed.
Lemma post_joseph : post = (1%:M - K *m H) *m P *m (1%:M - K *m H)^T + K *m R' *m K^T.
Proof.
have E : K *m R' = post *m H^T.
  rewrite /post mulmxBl -!mulmxA [H *m (P *m _)]mulmxA -gainS -/K /S.
  by rewrite mulmxDr [X in _ = X - _]addrC addrK.
have -> : (1%:M - K *m H) *m P = post by rewrite mulmxBl mul1mx.
by rewrite E linearB /= trmx1 trmx_mul mulmxBr mulmx1 !mulmxA subrK.
Qed.
Lemma post_psd : psd post.
Proof.
rewrite post_joseph; apply: psdD; apply: psd_congrT => //; exact: pd_psd.
Qed.
Lemma post_le x : qf post x <= qf P x.
Proof.
rewrite /post qfB ger_addl oppr_le0 /K gainE.
have -> : P *m H^T *m invmx S *m H *m P = (H *m P)^T *m invmx S *m (H *m P).
  by rewrite trmx_mul sP !mulmxA.
by rewrite qf_congr; apply: (pd_psd (pd_inv S_symm S_pd)).
Qed.
Lemma post_symm : symm post.
Proof. by rewrite -postE; exact: symU_symm. Qed.

(** Information form. *)
Hypothesis dP : pd P.
Let M := invmx P + H^T *m invmx R' *m H.
Lemma R_unit : R' \in unitmx. Proof. exact: pd_unit. Qed.
Lemma P_unit : P \in unitmx. Proof. exact: pd_unit. Qed.
Lemma gain_info : M *m K = H^T *m invmx R'.
Proof.
(* (P^-1 + H'R^-1H) P H' = H' R^-1 (R + H P H') = H' R^-1 S *)
rewrite /K gainE !mulmxA.
have -> : M *m P *m H^T = H^T *m invmx R' *m S.
  rewrite /M mulmxDl mulVmx ?P_unit // mulmxDl mul1mx /S mulmxDr mulmxKV ?R_unit // addrC.
  by rewrite !mulmxA.
by rewrite mulmxK // S_unit.
Qed.
Lemma post_info : M *m post = 1%:M.
Proof.
rewrite /post mulmxBr !mulmxA gain_info /M mulmxDl mulVmx ?P_unit //.
by rewrite addrK.
Qed.
Lemma M_pd : pd M.
Proof.
apply: pd_psdD; first exact: pd_inv.
by apply: psd_congr; apply/pd_psd/pd_inv => //; exact: symU_symm.
Qed.
Lemma M_symm : symm M.
Proof.
apply: symmD; first exact: symm_inv.
by apply: symm_congr; apply: symm_inv; exact: symU_symm.
Qed.
Lemma post_inv : post = invmx M.
Proof.
have u : M \in unitmx by apply/pd_unit/M_pd.
by rewrite -[LHS](mulKmx u) post_info mulmx1.
Qed.
Lemma post_pd : pd post.
Proof. rewrite post_inv; apply: pd_inv; [exact: M_symm|exact: M_pd]. Qed.
Variables (x0 : 'cV[F]_d) (y : 'cV[F]_ny).
Lemma mean_info : M *m (x0 + K *m (y - H *m x0)) = invmx P *m x0 + H^T *m invmx R' *m y.
Proof.
rewrite mulmxDr [M *m (K *m _)]mulmxA gain_info mulmxBr /M mulmxDl !mulmxA.
by rewrite -addrA; congr (_ + _); rewrite addrC subrK.
Qed.
Lemma cost_split x :
  ls_cost P x0 H R' y x = ls_cost P x0 H R' y (x0 + K *m (y - H *m x0))
    + qf M (x - (x0 + K *m (y - H *m x0))).
Proof.
set xh := x0 + _; set e := x - xh.
have -> : x = xh + e by rewrite /e addrC subrK.
have sPi := symm_inv sP; have sRi : symm (invmx R') by apply: symm_inv; exact: symU_symm.
rewrite /ls_cost.
have -> : xh + e - x0 = (xh - x0) + e by rewrite addrAC.
have -> : y - H *m (xh + e) = (y - H *m xh) + (- (H *m e)) by rewrite mulmxDr opprD addrA.
rewrite (qf_add (xh - x0) e sPi) (qf_add _ (- (H *m e)) sRi).
have Q1 : qf (invmx R') (- (H *m e)) = qf (H^T *m invmx R' *m H) e.
  by rewrite qf_congr !qf_dot mulmxN dotNl dotNr opprK.
rewrite Q1 /M qfD.
suff X : dot (xh - x0) (invmx P *m e) + dot (y - H *m xh) (invmx R' *m (- (H *m e))) = 0.
  transitivity (qf (invmx P) (xh - x0) + qf (invmx R') (y - H *m xh)
    + (qf (invmx P) e + qf (H^T *m invmx R' *m H) e)
    + 2%:R * (dot (xh - x0) (invmx P *m e) + dot (y - H *m xh) (invmx R' *m (- (H *m e))))); last first.
    by rewrite X mulr0 addr0.
  by move: (dot _ (invmx P *m e)) (dot _ (invmx R' *m _)) (qf _ (xh - x0)) (qf _ (y - _)) (qf (invmx P) e) (qf _ e) => a b c1 c2 c3 c4; ring.
rewrite mulmxN dotNr !mulmxA !dotMr sPi trmx_mul sRi -dotBl.
suff -> : invmx P *m (xh - x0) - H^T *m invmx R' *m (y - H *m xh) = 0 by rewrite dot0l.
have := mean_info; rewrite -/xh {1}/M mulmxDl => /(canRL (addrK _)) E.
rewrite !mulmxBr !mulmxA E -[invmx P *m x0 + _ - _]addrA.
by rewrite [X in X - _ - _]addrC addrK subrr.
Qed.
End One.
End Update.

Section Linear.
Variables (F : realFieldType) (d : nat).
Local Notation st := (ekf F d 'cV[F]_d).

(** update for a linear measurement y = H x on R^d. *)
Definition lin_update ny (H : 'M[F]_(ny,d)) (R : 'M[F]_ny) (y : 'cV[F]_ny) : st -> st :=
  update +%R (fun x => y - H *m x) (fun=> H) R.

Lemma lin_updateE ny (H : 'M[F]_(ny,d)) R y x0 P :
  symm P -> psd P -> pd (symU R) ->
  lin_update H R y (Ekf x0 P) = Ekf (x0 + gain H R P *m (y - H *m x0)) (post H R P).
Proof. by move=> s p r; rewrite /lin_update /update /= postE. Qed.

(** A state is determined by its information form. *)
Lemma info_update ny (H : 'M[F]_(ny,d)) R y (s : st) :
  symm (cov s) -> pd (cov s) -> pd (symU R) ->
  let s' := lin_update H R y s in
  [/\ symm (cov s'), pd (cov s'),
     invmx (cov s') = invmx (cov s) + H^T *m invmx (symU R) *m H &
     invmx (cov s') *m g_hat s' = invmx (cov s) *m g_hat s + H^T *m invmx (symU R) *m y].
Proof.
case: s => x0 P sP pP pR s'; rewrite /s' lin_updateE //; last exact: pd_psd.
rewrite /= in sP pP *.
have q := post_inv H sP (pd_psd pP) pR pP.
split=> /=; first by apply: post_symm => //; exact: pd_psd.
- by apply: post_pd => //; exact: pd_psd.
- by rewrite q invmxK.
- by rewrite q invmxK mean_info //; exact: pd_psd.
Qed.

Lemma info_inj (s s' : st) :
  pd (cov s) -> pd (cov s') -> invmx (cov s) = invmx (cov s') ->
  invmx (cov s) *m g_hat s = invmx (cov s') *m g_hat s' -> s = s'.
Proof.
case: s s' => x P [x' P'] /= p p' e1 e2; have e : P = P' by rewrite -(invmxK P) e1 invmxK.
subst P'; congr Ekf; apply: (can_inj (mulKmx (_ : invmx P \in unitmx))) e2.
by rewrite unitmx_inv pd_unit.
Qed.

Lemma symU_block n1 n2 (A : 'M[F]_n1) (B : 'M[F]_n2) :
  symU (block_mx A 0 0 B) = block_mx (symU A) 0 0 (symU B).
Proof.
apply/matrixP => i j; rewrite [LHS]mxE.
case: (split_ordP i) => i' ->; case: (split_ordP j) => j' ->; rewrite ?block_mxEul ?block_mxEur ?block_mxEdl ?block_mxEdr ?mxE /=.
- by [].
- by case: ifP.
- by case: ifP.
- by rewrite leq_add2l.
Qed.

Lemma pd_block n1 n2 (A : 'M[F]_n1) (B : 'M[F]_n2) : pd A -> pd B -> pd (block_mx A 0 0 B).
Proof.
move=> a b x x0; rewrite -(vsubmxK x) /qf tr_col_mx mul_row_block !mulmx0 addr0 add0r mul_row_col mxE.
case: (eqVneq (usubmx x) 0) => [e1|n1']; last first.
  by apply: ltr_paddr; [exact: (pd_psd b)|exact: a].
rewrite e1 mulmx0 mxE add0r; apply: b; apply: contra x0 => /eqP e2.
by rewrite -(vsubmxK x) e1 e2 col_mx0.
Qed.

Lemma inv_block n1 n2 (A : 'M[F]_n1) (B : 'M[F]_n2) :
  A \in unitmx -> B \in unitmx -> invmx (block_mx A 0 0 B) = block_mx (invmx A) 0 0 (invmx B).
Proof.
move=> a b; have E : block_mx A 0 0 B *m block_mx (invmx A) 0 0 (invmx B) = 1%:M.
  by rewrite mulmx_block !mulmx0 !mul0mx !addr0 add0r !mulmxV // -scalar_mx_block.
have u : block_mx A 0 0 B \in unitmx by case: (mulmx1_unit E).
by rewrite -[RHS](mulKmx u) E mulmx1.
Qed.

Lemma euler_step (f : F -> 'cV[F]_d -> 'cV[F]_d * 'M[F]_d) ad Q (s : st) t h :
  cov (pred_step +%R ad (euler_tab F) f Q s t h) = cov s + h *: cov_ode ad f Q (g_hat s) (cov s) t.
Proof.
rewrite /pred_step /= /do_step /= /lincomb /= big_seq1 /= !big_nil scaler0 addr0 scale1r mul0r.
by rewrite addr0.
Qed.
End Linear.

Section Euler.
Variables (F : realFieldType) (d : nat) (G : Type).
Variable gplus : G -> 'cV[F]_d -> G.
Variable ad : 'cV[F]_d -> 'M[F]_d.
Lemma euler_cov (f : F -> G -> 'cV[F]_d * 'M[F]_d) Q (s : ekf F d G) t h :
  cov (pred_step gplus ad (euler_tab F) f Q s t h) = cov s + h *: cov_ode ad f Q (g_hat s) (cov s) t.
Proof.
rewrite /pred_step /= /do_step /= /lincomb /= big_seq1 /= !big_nil scaler0 addr0 scale1r mul0r.
by rewrite addr0.
Qed.

Lemma predict_one tb f Q tau fuel (s : ekf F d G) :
  0 <= tau -> (0 < fuel)%N ->
  predict gplus ad tb f Q tau None fuel s = Some (pred_step gplus ad tb f Q s 0 tau).
Proof.
move=> t0; case: fuel => [//|n] _; rewrite /predict /= add0r ifN ?subr0 //.
by rewrite -leNgt mulrDl mul1r ler_addl.
Qed.

Lemma euler_small f Q (s : ekf F d G) t :
  symm (cov s) -> pd (cov s) ->
  exists2 h0, 0 < h0 & forall h, 0 <= h -> h <= h0 ->
    pd (cov (pred_step gplus ad (euler_tab F) f Q s t h)).
Proof.
move=> sP pP; have [h0 p H] := pd_perturb (cov_ode ad f Q (g_hat s) (cov s) t) sP pP.
by exists h0 => // h a b; rewrite euler_cov; apply: H.
Qed.

Lemma euler_psd f Q (s : ekf F d G) t h :
  let A := - ad (f t (g_hat s)).1 + (f t (g_hat s)).2 in
  symm (cov s) -> psd (cov s) -> symm Q -> 0 <= h ->
  mx_le (h *: (A *m cov s *m A^T)) Q ->
  psd (cov (pred_step gplus ad (euler_tab F) f Q s t h)).
Proof.
move=> A sP pP sQ h0 le; rewrite euler_cov /cov_ode /= -/A; set P := cov s in sP pP le *; clearbody A P.
rewrite symU_id; last first.
  by rewrite /symm !linearD /= !trmx_mul sP sQ trmxK [P *m A^T + _]addrC.
have -> : P + h *: (A *m P + P *m A^T + Q) =
  (1%:M + h *: A) *m P *m (1%:M + h *: A)^T + h *: (Q - h *: (A *m P *m A^T)).
  have -> : (1%:M + h *: A)^T = 1%:M + h *: A^T by rewrite linearD /= trmx1 linearZ.
  rewrite mulmxDl mul1mx mulmxDr mulmx1 mulmxDl -?scalemxAl -?scalemxAr -?scalemxAl.
  rewrite !scalerDr scalerN -!addrA; congr (_ + (_ + (_ + _))).
  by rewrite addrCA subrr addr0.
apply: psdD; first exact: psd_congrT.
by apply: psdZ => // x; rewrite qfB subr_ge0.
Qed.
End Euler.
