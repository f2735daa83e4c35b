(** The ADMM iteration of the solver on abstract data: contraction, decrease of the residuals. *)
From mathcomp Require Import all_ssreflect all_algebra.
From mathcomp.algebra_tactics Require Import ring.
From Verif Require Import LinAlg QpModel QpSpec QpFacts.
Set Implicit Arguments.
Unset Strict Implicit.
Unset Printing Implicit Defensive.
Import Order.TTheory GRing.Theory Num.Theory.
Local Open Scope ring_scope.

Lemma sub4 (V : zmodType) (a b c d : V) : a - b - (c - d) = a - c - (b - d).
Proof. by rewrite !opprB addrACA [RHS]addrACA [- b - c]addrC. Qed.

Lemma lin6 (F : realFieldType) k (a b c d x y : 'cV[F]_k) s :
  a - b = (a + s *: x + c) - (b + s *: y + d) - s *: (x - y) - (c - d).
Proof. by vring. Qed.

Section Admm.
Variables (F : realFieldType) (n m : nat).
Variables (P : 'M[F]_n) (q : 'cV[F]_n) (A : 'M[F]_(m, n)) (l u : 'I_m -> ext F).
Variables (sg al : F) (rho : 'cV[F]_m).
Hypothesis P_psd : psd P.
Hypothesis sg_gt0 : 0 < sg.
Hypothesis rho_gt0 : pos rho.
Implicit Types v : xyz F n m.

Definition cone v := forall i, between (l i) (u i) (it_z v i 0) /\ multiplier (l i) (u i) (it_z v i 0) (it_y v i 0).
(** z + y / rho *)
Definition shadow v : 'cV[F]_m := it_z v + cmul (cinv rho) (it_y v).
(** One step with the solution (xt, nu) of the linear system. *)
Definition half (v : xyz F n m) (xt : 'cV[F]_n) (nu : 'cV[F]_m) : Prop :=
  P *m xt + sg *: xt + A^T *m nu = sg *: it_x v - q /\
  cmul rho (A *m xt - it_z v) = nu - it_y v.
Definition step_rel v v' xt nu : Prop :=
  [/\ half v xt nu, it_x v' = it_x v + al *: (xt - it_x v) &
      exists2 w : 'cV[F]_m, w = shadow v + al *: (A *m xt - it_z v) &
        it_z v' = \col_i clamp (l i) (u i) (w i 0) /\ it_y v' = cmul rho (w - it_z v')].
(** Weighted square distance. *)
Definition dist2 (dx : 'cV[F]_n) (dw : 'cV[F]_m) : F := sg * dot dx dx + dot dw (cmul rho dw).
Definition gap v1 v2 := dist2 (it_x v1 - it_x v2) (shadow v1 - shadow v2).

Lemma dist2_ge0 dx dw : 0 <= dist2 dx dw.
Proof. by rewrite addr_ge0 ?dotw_ge0 // mulr_ge0 ?dot_ge0 // ltW. Qed.
Lemma dist2_eq0 dx dw : dist2 dx dw = 0 -> dx = 0 /\ dw = 0.
Proof.
move=> /eqP; rewrite paddr_eq0 ?dotw_ge0 //; last by rewrite mulr_ge0 ?dot_ge0 // ltW.
rewrite mulf_eq0 (gt_eqF sg_gt0) /= dot_eq0 => /andP[/eqP -> /eqP h].
by split=> //; exact: dotw_eq0 h.
Qed.

Lemma cone_mono v1 v2 : cone v1 -> cone v2 -> 0 <= dot (it_y v1 - it_y v2) (it_z v1 - it_z v2).
Proof.
move=> h1 h2; rewrite dotE sumr_ge0 // => i _; rewrite !mxE.
by case: (h1 i) (h2 i) => b1 k1 [b2 k2]; exact: mult_mono b1 b2 k1 k2.
Qed.

(** The step keeps iterates in the cone. *)
Lemma step_cone v v' xt nu : (forall i, contradictory (l i) (u i) = false) ->
  step_rel v v' xt nu -> cone v'.
Proof.
move=> c [_ _ [w _ [ez ey]]] i; rewrite ey ez !mxE; split; first exact: clamp_between.
by apply: mult_pos => //; exact: clamp_mult.
Qed.
Lemma step_shadow v v' xt nu : step_rel v v' xt nu ->
  shadow v' = shadow v + al *: (A *m xt - it_z v).
Proof. by move=> [_ _ [w ew [ez ey]]]; rewrite -ew /shadow ey cmulVK // addrC subrK. Qed.

(** The displacements of two steps. *)
Lemma pair_ineq v1 v2 xt1 nu1 xt2 nu2 : cone v1 -> cone v2 -> half v1 xt1 nu1 -> half v2 xt2 nu2 ->
  let dx := (xt1 - it_x v1) - (xt2 - it_x v2) in
  let dz := (A *m xt1 - it_z v1) - (A *m xt2 - it_z v2) in
  sg * dot (it_x v1 - it_x v2) dx + dot (shadow v1 - shadow v2) (cmul rho dz) <= - dist2 dx dz.
Proof.
move=> c1 c2 [e1 f1] [e2 f2]; lazy zeta.
set dx := xt1 - _ - _; set dz := A *m xt1 - _ - _.
set X := it_x v1 - it_x v2; set Z := it_z v1 - it_z v2; set Y := it_y v1 - it_y v2.
set T := xt1 - xt2; set NN := nu1 - nu2.
have mono : 0 <= dot Y Z := cone_mono c1 c2.
have Edx : dx = T - X by rewrite /dx /T /X sub4.
have Edz : dz = A *m T - Z.
  by rewrite /dz /T /Z mulmxBr sub4.
have EN : NN = Y + cmul rho dz.
  rewrite /dz cmulBr f1 f2 /NN /Y; vring.
have Esh : shadow v1 - shadow v2 = Z + cmul (cinv rho) Y.
  by rewrite /shadow /Z /Y cmulBr; vring.
have E1 : P *m T = - (sg *: dx) - A^T *m NN.
  have -> : P *m T = (P *m xt1 + sg *: xt1 + A^T *m nu1) - (P *m xt2 + sg *: xt2 + A^T *m nu2)
                     - sg *: T - A^T *m NN.
    by rewrite /T /NN !mulmxBr; exact: lin6.
  by rewrite e1 e2 Edx /X; vring.
have Q : 0 <= dot T (P *m T) by rewrite -qf_dot.
rewrite E1 dotBr dotNr dotZr dotMr trmxK EN dotDr in Q.
rewrite Esh /dist2.
have D1 : dot (Z + cmul (cinv rho) Y) (cmul rho dz) = dot Z (cmul rho dz) + dot Y dz.
  by rewrite dotDl -dot_cmul cmulVK // dotC (dotC dz).
have D2 : dot Y dz = dot (A *m T) Y - dot Y Z.
  by rewrite Edz dotBr (dotC Y (A *m T)).
have D3 : dot (A *m T) (cmul rho dz) = dot dz (cmul rho dz) + dot Z (cmul rho dz).
  by rewrite -dotDl Edz subrK.
have D4 : dot T dx = dot X dx + dot dx dx.
  have {1}-> : T = X + dx by rewrite Edx addrC subrK.
  by rewrite dotDl.
rewrite D1 D2 -subr_ge0; rewrite D3 D4 in Q.
apply: le_trans (addr_ge0 Q mono) _; rewrite le_eqVlt; apply/orP; left; apply/eqP.
move: (dot _ _) (dot _ _) (dot _ _) (dot _ _) (dot _ _) (dot _ _) => a b c d f g; ring.
Qed.

(** Two runs never move apart; every step brings them closer by its displacement. *)
Lemma pair_decrease v1 v2 v1' v2' xt1 nu1 xt2 nu2 : 0 <= al -> cone v1 -> cone v2 ->
  step_rel v1 v1' xt1 nu1 -> step_rel v2 v2' xt2 nu2 ->
  gap v1' v2' <= gap v1 v2 -
   al * (2%:R - al) * dist2 ((xt1 - it_x v1) - (xt2 - it_x v2)) ((A *m xt1 - it_z v1) - (A *m xt2 - it_z v2)).
Proof.
move=> a0 c1 c2 s1 s2.
have [h1 ex1 _] := s1; have [h2 ex2 _] := s2.
have := pair_ineq c1 c2 h1 h2; rewrite /gap (step_shadow s1) (step_shadow s2) ex1 ex2 /=.
set dx := _ - (xt2 - _); set dz := _ - (_ - it_z v2).
have -> : it_x v1 + al *: (xt1 - it_x v1) - (it_x v2 + al *: (xt2 - it_x v2)) = (it_x v1 - it_x v2) + al *: dx.
  by rewrite /dx; vring.
have -> : shadow v1 + al *: (A *m xt1 - it_z v1) - (shadow v2 + al *: (A *m xt2 - it_z v2))
  = (shadow v1 - shadow v2) + al *: dz.
  by rewrite /dz; move: (A *m xt1) (A *m xt2) => a b; vring.
move: (it_x v1 - it_x v2) (shadow v1 - shadow v2) dx dz => X S dx dz; rewrite -subr_ge0 => H.
rewrite -subr_ge0; have := mulr_ge0 (mulr_ge0 (ler0n F 2) a0) H.
rewrite /dist2 !(dotDl, dotDr, dotZl, dotZr, cmulDr, cmulZr) (dotC dx X).
have -> : dot dz (cmul rho S) = dot S (cmul rho dz) by rewrite dot_cmul dotC.
by move=> K; apply: le_trans K _; rewrite le_eqVlt; apply/orP; left; apply/eqP; ring.
Qed.

(** Runs of the iteration. *)
Definition run (v : nat -> xyz F n m) (xt : nat -> 'cV[F]_n) (nu : nat -> 'cV[F]_m) :=
  forall k, step_rel (v k) (v k.+1) (xt k) (nu k).
(** Primal-dual solutions of the iterated problem. *)
Definition sol_state (w : xyz F n m) : Prop :=
  [/\ cone w, it_z w = A *m it_x w & P *m it_x w + q + A^T *m it_y w = 0].
Definition presid v : 'cV[F]_m := A *m it_x v - it_z v.
Definition dresid v : 'cV[F]_n := P *m it_x v + q + A^T *m it_y v.

Lemma sol_half w : sol_state w -> half w (it_x w) (it_y w).
Proof.
move=> [_ ez e]; split; last by rewrite ez !subrr cmul0r.
have -> : P *m it_x w + sg *: it_x w + A^T *m it_y w = sg *: it_x w - q + (P *m it_x w + q + A^T *m it_y w).
  by move: (P *m _) (A^T *m _) => a b; vring.
by rewrite e addr0.
Qed.
(** Solutions are fixed. *)
Lemma sol_step w : sol_state w -> step_rel w w (it_x w) (it_y w).
Proof.
move=> s; split; first exact: sol_half.
  by rewrite subrr scaler0 addr0.
case: s => c ez _; exists (shadow w); first by rewrite -ez subrr scaler0 addr0.
split.
  apply: vecP => i; rewrite !mxE; have [b h] := c i; apply/esym/clamp_sum => //.
  by apply: mult_pos; rewrite ?invr_gt0.
by rewrite /shadow addrC addrA [- _ + _]addrC subrr add0r cmulKV.
Qed.

Section Runs.
Hypothesis al_gt0 : 0 < al.
Hypothesis al_lt2 : al < 2%:R.
Variables (v : nat -> xyz F n m) (xt : nat -> 'cV[F]_n) (nu : nat -> 'cV[F]_m).
Hypothesis v_run : run v xt nu.
Hypothesis nocontra : forall i, contradictory (l i) (u i) = false.
Hypothesis cone0 : cone (v 0%N).
Definition disp k := dist2 (xt k - it_x (v k)) (A *m xt k - it_z (v k)).

Lemma run_cone k : cone (v k).
Proof. by case: k => // k; apply: step_cone (v_run k). Qed.
Lemma run_decrease w k : sol_state w ->
  gap (v k.+1) w <= gap (v k) w - al * (2%:R - al) * disp k.
Proof.
move=> s; have [c ez _] := s.
have := pair_decrease (ltW al_gt0) (run_cone k) c (v_run k) (sol_step s).
by rewrite -ez !subrr !subr0.
Qed.
Lemma run_disp k : disp k.+1 <= disp k.
Proof.
have h := pair_decrease (ltW al_gt0) (run_cone k.+1) (run_cone k) (v_run k.+1) (v_run k).
have G j : gap (v j.+1) (v j) = al ^+ 2 * disp j.
  rewrite /gap (step_shadow (v_run j)); case: (v_run j) => _ -> _.
  rewrite [X in dist2 X _]addrC addKr [X in dist2 _ X]addrC addKr /dist2 /disp /dist2.
  by rewrite !(dotZl, dotZr, cmulZr); ring.
have a2 : 0 < al ^+ 2 by rewrite exprn_gt0.
rewrite -(ler_pmul2l a2) -!G; apply: le_trans h _.
by rewrite ger_addl oppr_le0 mulr_ge0 ?dist2_ge0 // mulr_ge0 ?ltW // subr_gt0.
Qed.
Lemma disp_mono j k : (j <= k)%N -> disp k <= disp j.
Proof. by elim: k => [|k IH]; rewrite leq_eqVlt => /orP[/eqP -> //|//]; rewrite ltnS => /IH; apply: le_trans (run_disp k). Qed.
Lemma run_sum w N : sol_state w ->
  al * (2%:R - al) * (\sum_(k < N) disp k) + gap (v N) w <= gap (v 0%N) w.
Proof.
move=> s; elim: N => [|N IH]; first by rewrite big_ord0 mulr0 add0r.
rewrite big_ord_recr /=; apply: le_trans IH; rewrite [_ * (_ + disp N)]mulrDr -addrA ler_add2l.
by rewrite addrC -ler_subr_addr; exact: run_decrease.
Qed.
(** The displacement falls like 1/k. *)
Lemma run_rate w N : sol_state w -> N.+1%:R * (al * (2%:R - al) * disp N) <= gap (v 0%N) w.
Proof.
move=> s; apply: le_trans (run_sum N.+1 s).
apply: (@le_trans _ _ (al * (2%:R - al) * \sum_(k < N.+1) disp k)); last by rewrite ler_addl dist2_ge0.
rewrite mulrCA ler_wpmul2l //; first by rewrite mulr_ge0 ?ltW // subr_gt0.
rewrite -[X in X%:R](card_ord N.+1) -sumr_const mulr_suml ler_sum // => i _.
by rewrite mul1r disp_mono // -ltnS.
Qed.
End Runs.

(** Residuals of an iterate, from the displacement of the next step. *)
Lemma presidE v xt nu : half v xt nu -> presid v = (A *m xt - it_z v) - A *m (xt - it_x v).
Proof. by move=> _; rewrite /presid mulmxBr; move: (A *m _) (A *m _) => a b; vring. Qed.
Lemma dresidE v xt nu : half v xt nu ->
  dresid v = - (sg *: (xt - it_x v)) - P *m (xt - it_x v) - A^T *m cmul rho (A *m xt - it_z v).
Proof.
move=> [e1 ->]; rewrite /dresid !mulmxBr.
have E : P *m xt = sg *: it_x v - q - sg *: xt - A^T *m nu.
  by rewrite -e1; move: (P *m xt) (A^T *m nu) => a b; vring.
by rewrite E; move: (P *m it_x v) (A^T *m nu) (A^T *m it_y v) => a b c; vring.
Qed.

Lemma dot_mulmx_bound k j (M : 'M[F]_(k, j)) : exists2 C, 0 < C & forall x, dot (M *m x) (M *m x) <= C * dot x x.
Proof.
exists (1 + \sum_a \sum_b `|(M^T *m M) a b|).
  by rewrite ltr_paddr // ?ltr01 // sumr_ge0 // => a _; rewrite sumr_ge0.
move=> x; have -> : dot (M *m x) (M *m x) = qf (M^T *m M) x.
  by rewrite qf_dot -mulmxA dotMl.
apply: le_trans (ler_norm _) _; apply: le_trans (qf_bound _ _) _.
by rewrite ler_wpmul2r ?dot_ge0 // ler_addr ler01.
Qed.
Lemma sq_dot k (x : 'cV[F]_k) i : (x i 0) ^+ 2 <= dot x x.
Proof.
rewrite dotE (bigD1 i) //= -expr2 ler_addl sumr_ge0 // => j _.
by rewrite -expr2 sqr_ge0.
Qed.
Lemma dot_sum2 k (x y : 'cV[F]_k) : dot (x + y) (x + y) <= 2%:R * (dot x x + dot y y).
Proof.
rewrite -subr_ge0; have := dot_ge0 (x - y); rewrite !(dotDl, dotDr, dotNl, dotNr).
by rewrite (dotC y x) => h; apply: le_trans h _; rewrite le_eqVlt; apply/orP; left; apply/eqP; ring.
Qed.
Lemma rho_bound : exists2 C, 0 < C & forall w, dot w w <= C * dot w (cmul rho w).
Proof.
exists (1 + \sum_i (rho i 0)^-1).
  by rewrite ltr_paddr ?ltr01 // sumr_ge0 // => i _; rewrite invr_ge0 ltW.
move=> w; rewrite !dotE mulr_sumr ler_sum // => i _; rewrite mxE.
have -> : w i 0 * w i 0 = (rho i 0)^-1 * (w i 0 * (rho i 0 * w i 0)).
  by rewrite mulrCA mulKf // gt_eqF.
rewrite ler_wpmul2r //; first by rewrite mulrCA mulr_ge0 ?(ltW (rho_gt0 i)) // -expr2 sqr_ge0.
rewrite (bigD1 i) //= addrCA ler_addl addr_ge0 ?ler01 // sumr_ge0 // => j _.
by rewrite invr_ge0 ltW.
Qed.
Lemma resid_bound : exists2 C, 0 < C & forall v xt nu, half v xt nu ->
  (forall i, (presid v i 0) ^+ 2 <= C * dist2 (xt - it_x v) (A *m xt - it_z v)) /\
  (forall i, (dresid v i 0) ^+ 2 <= C * dist2 (xt - it_x v) (A *m xt - it_z v)).
Proof.
have [Cr Cr0 hr] := rho_bound.
have [CA CA0 hA] := dot_mulmx_bound A.
have [CP CP0 hP] := dot_mulmx_bound (sg%:M + P).
have [CB CB0 hB] := dot_mulmx_bound (A^T *m diag_mx rho^T).
have H1 dx dz : dot dx dx <= sg^-1 * dist2 dx dz.
  by rewrite ler_pdivl_mull // ler_addl dotw_ge0.
have H2 dx dz : dot dz dz <= Cr * dist2 dx dz.
  apply: le_trans (hr dz) _; rewrite ler_wpmul2l ?(ltW Cr0) //.
  by rewrite ler_addr mulr_ge0 ?dot_ge0 // ltW.
have S0 : 0 < sg^-1 by rewrite invr_gt0.
exists (2%:R * (Cr + CA * sg^-1) + 2%:R * (CP * sg^-1 + CB * Cr)).
  by rewrite addr_gt0 // mulr_gt0 ?ltr0Sn // addr_gt0 // mulr_gt0.
move=> v xt nu h; split=> i; apply: le_trans (sq_dot _ _) _.
- rewrite (presidE h); move: (xt - it_x v) (A *m xt - it_z v) => dx dz.
  apply: le_trans (dot_sum2 _ _) _; rewrite dotNl dotNr opprK.
  apply: (@le_trans _ _ (2%:R * (Cr + CA * sg^-1) * dist2 dx dz)).
    rewrite -mulrA ler_pmul2l ?ltr0Sn // mulrDl ler_add //.
    by apply: le_trans (hA dx) _; rewrite -mulrA ler_pmul2l.
  rewrite mulrDl ler_addl mulr_ge0 ?dist2_ge0 // mulr_ge0 ?ler0n // addr_ge0 //.
    by rewrite mulr_ge0 ?ltW.
  by rewrite mulr_ge0 ?ltW.
- rewrite (dresidE h); move: (xt - it_x v) (A *m xt - it_z v) => dx dz.
  have -> : - (sg *: dx) - P *m dx - A^T *m cmul rho dz
    = - ((sg%:M + P) *m dx) + - ((A^T *m diag_mx rho^T) *m dz).
    rewrite mulmxDl mul_scalar_mx -mulmxA [in RHS]opprD; congr (_ + _).
    by congr (- (_ *m _)); apply: vecP => j; rewrite mul_diag_mx !mxE.
  apply: le_trans (dot_sum2 _ _) _; rewrite !(dotNl, dotNr) !opprK.
  apply: (@le_trans _ _ (2%:R * (CP * sg^-1 + CB * Cr) * dist2 dx dz)).
    rewrite -mulrA ler_pmul2l ?ltr0Sn // mulrDl ler_add //.
      by apply: le_trans (hP dx) _; rewrite -mulrA ler_pmul2l.
    by apply: le_trans (hB dz) _; rewrite -mulrA ler_pmul2l.
  rewrite mulrDl ler_addr mulr_ge0 ?dist2_ge0 // mulr_ge0 ?ler0n // addr_ge0 ?(ltW Cr0) //.
  by rewrite mulr_ge0 ?ltW.
Qed.

(** Fixed points of the step are solutions. *)
Lemma fixed_sol w xt nu : al != 0 -> cone w -> step_rel w w xt nu -> sol_state w.
Proof.
move=> a0 c st; have sh := step_shadow st; have [h ex _] := st; have [e1 e2] := h.
have dx : xt - it_x w = 0.
  by apply: (scalerI a0); rewrite scaler0; apply: (addrI (it_x w)); rewrite -ex addr0.
have dz : A *m xt - it_z w = 0.
  by apply: (scalerI a0); rewrite scaler0; apply: (addrI (shadow w)); rewrite -sh addr0.
have r1 := presidE h; have r2 := dresidE h.
rewrite dx dz mulmx0 subrr in r1; rewrite dx dz cmul0r !mulmx0 scaler0 !subr0 oppr0 in r2.
by split=> //; apply/esym/eqP; rewrite -subr_eq0 -/(presid w) r1.
Qed.
End Admm.
