(** Properties C58-C62: the extended Kalman filter. *)
From mathcomp Require Import all_ssreflect all_algebra.
From Verif Require Import LinAlg EkfModel EkfSpec EkfFacts.
Set Implicit Arguments.
Unset Strict Implicit.
Unset Printing Implicit Defensive.
Import Order.TTheory GRing.Theory Num.Theory.
Local Open Scope ring_scope.

Section C58.
Variables (F : archiFieldType) (d : nat) (G : Type).
Variable gplus : G -> 'cV[F]_d -> G.
Variable ad : 'cV[F]_d -> 'M[F]_d.

(** C58 for tau >= 0 and dt > 0: predict terminates and its result is that of consecutive steps
    starting at time 0, of lengths in [0, dt], whose lengths sum to tau. *)
Theorem C58_ekf_predict_steps_partial tb f (Q : 'M[F]_d) tau dt (s : ekf F d G) :
  0 <= tau -> 0 < dt ->
  exists hs, [/\ \sum_(h <- hs) h = tau,
    forall h, h \in hs -> 0 <= h <= dt &
    exists n, forall fuel, (n <= fuel)%N ->
      predict gplus ad tb f Q tau (Some dt) fuel s = Some (run_steps gplus ad tb f Q 0 hs s)].
Proof.
move=> t0 d0.
have H0 : tau - 0 <= (Num.bound (tau / dt))%:R * dt.
  rewrite subr0 -ler_pdivr_mulr // ltW //.
  by apply: archi_boundP; rewrite divr_ge0 // ltW.
have H := loop_terminates gplus ad tb f Q s d0 _ H0; rewrite subr0 in H.
have [hs [e1 e2 e3]] := H _ t0 (ltnSn _); exists hs; split=> //.
  by move=> h hi; move/allP: e3 => /(_ _ hi).
exists (Num.bound (tau / dt)).+1 => fuel hf.
have mono : forall n m t s', (n <= m)%N -> forall r,
  pred_loop gplus ad tb f Q tau dt n t s' = Some r -> pred_loop gplus ad tb f Q tau dt m t s' = Some r.
  elim=> [//|n IH] [//|m] t s' nm r /=; case: ifP => _ //; exact: IH.
exact: mono hf _ e1.
Qed.

(** C58, default step: one step of length tau. *)
Theorem C58_ekf_predict_default_partial tb f (Q : 'M[F]_d) tau (s : ekf F d G) fuel :
  0 <= tau -> (0 < fuel)%N ->
  predict gplus ad tb f Q tau None fuel s = Some (run_steps gplus ad tb f Q 0 [:: tau] s).
Proof. by move=> t0 f0; rewrite predict_one. Qed.

(** C58: exactly when predict terminates ([dt] the step size in effect, 2 tau by default). *)
Theorem C58_ekf_predict_terminates_iff tb f (Q : 'M[F]_d) tau dt (s : ekf F d G) :
  (exists fuel, predict gplus ad tb f Q tau dt fuel s <> None) <->
  (0 < odflt (2%:R * tau) dt \/ tau <= odflt (2%:R * tau) dt).
Proof.
rewrite /predict; move: (odflt _ _) => dtv; split.
  case=> fuel; case: (ltP 0 dtv) => [|d0]; first by left.
  case: (leP tau dtv) => [|c]; first by right.
  by rewrite loop_diverges // add0r.
case=> [d0|c]; last by exists 1%N; rewrite /= add0r ltNge c.
case: (lerP 0 tau) => t0; last first.
  by exists 1%N; rewrite /= add0r ltNge (ltW (lt_trans t0 d0)).
have [hs [_ _ [n H]]] := C58_ekf_predict_steps_partial tb f Q s t0 d0.
by exists n; move: (H n (leqnn n)); rewrite /predict /= => ->.
Qed.
End C58.

(** C58 is false for every negative tau with the default step size: predict runs forever. *)
Theorem C58_ekf_predict_refuted (F : realFieldType) (d : nat) (G : Type) gplus ad tb f
    (Q : 'M[F]_d) tau (s : ekf F d G) :
  tau < 0 -> forall fuel, predict gplus ad tb f Q tau None fuel s = None.
Proof.
move=> t0 fuel; rewrite /predict /= loop_diverges //.
  by rewrite pmulr_rle0 ?ltr0n // ltW.
by rewrite add0r mulrDl mul1r gtr_addl.
Qed.

Section C59.
Variables (F : realFieldType) (d : nat) (G : Type).
Variable gplus : G -> 'cV[F]_d -> G.
Variable ad : 'cV[F]_d -> 'M[F]_d.

(** C59: symmetry after every history (any Runge-Kutta stepper). *)
Theorem C59_ekf_symmetric tb fuel (g0 : G) (os : seq (eop F d G)) (s : ekf F d G) :
  (forall o, List.In o os -> sym_op o) -> ekf_run gplus ad tb fuel g0 os = Some s ->
  forall i j, cov s i j = cov s j i.
Proof. by move=> h e i j; rewrite -{1}(symm_run h e) mxE. Qed.

(** C59: only the upper triangle of the process covariance is used. *)
Theorem C59_ekf_predict_upper tb f (Q Q' : 'M[F]_d) tau dt fuel (s : ekf F d G) :
  (forall i j : 'I_d, (i <= j)%N -> Q i j = Q' i j) ->
  predict gplus ad tb f Q tau dt fuel s = predict gplus ad tb f Q' tau dt fuel s.
Proof. exact: pred_upper. Qed.

(** C59: only the upper triangle of the measurement covariance is used. *)
Theorem C59_ekf_update_upper ny inn Hf (R R' : 'M[F]_ny) (s : ekf F d G) :
  (forall i j : 'I_ny, (i <= j)%N -> R i j = R' i j) ->
  update gplus inn Hf R s = update gplus inn Hf R' s.
Proof. exact: update_upper. Qed.

(** C60: the matrix to invert is invertible, and the posterior covariance is positive semidefinite
    and no larger than the prior in every direction.  R is symmetric. *)
Theorem C60_ekf_update_shrinks ny (inn : G -> 'cV[F]_ny) Hf (R : 'M[F]_ny) (s : ekf F d G) :
  (cov s)^T = cov s -> R^T = R ->
  (forall x : 'cV[F]_d, 0 <= (x^T *m cov s *m x) 0 0) ->
  (forall x : 'cV[F]_ny, x != 0 -> 0 < (x^T *m R *m x) 0 0) ->
  let H := Hf (g_hat s) in
  (H *m cov s *m H^T + R \in unitmx) /\
  forall x : 'cV[F]_d,
    0 <= (x^T *m cov (update gplus inn Hf R s) *m x) 0 0 <= (x^T *m cov s *m x) 0 0.
Proof.
move=> sP sR pP pR H.
have pR' : pd (symU R) by rewrite symU_id.
split; first by have := S_unit H pP pR'; rewrite symU_id.
move=> x; rewrite /update /= postE //; apply/andP; split; first exact: post_psd.
exact: post_le.
Qed.
End C59.

Section C61.
Variables (F : realFieldType) (d : nat).
Notation st := (ekf F d 'cV[F]_d).

(** Processing the linear measurement y = H x + w, w ~ N(0,R), on the group R^d. *)
Let linear ny (H : 'M[F]_(ny,d)) (R : 'M[F]_ny) (y : 'cV[F]_ny) (s : st) : st :=
  update +%R (fun x => y - H *m x) (fun=> H) R s.

(** C61, covariance: information form. *)
Theorem C61_ekf_information ny (H : 'M[F]_(ny,d)) R y (s : st) :
  symm (cov s) -> pd (cov s) -> symm R -> pd R ->
  cov (linear H R y s) = invmx (invmx (cov s) + H^T *m invmx R *m H).
Proof.
move=> sP pP sR pR; have pR' : pd (symU R) by rewrite symU_id.
have [_ _ e _] := info_update H y sP pP pR'.
by rewrite -[LHS]invmxK [invmx (cov _)]e symU_id.
Qed.

(** C61, mean: the unique minimiser of the least squares cost. *)
Theorem C61_ekf_least_squares ny (H : 'M[F]_(ny,d)) R y (s : st) x :
  symm (cov s) -> pd (cov s) -> symm R -> pd R ->
  x != g_hat (linear H R y s) ->
  ls_cost (cov s) (g_hat s) H R y (g_hat (linear H R y s)) < ls_cost (cov s) (g_hat s) H R y x.
Proof.
move=> sP pP sR pR ne; have pR' : pd (symU R) by rewrite symU_id.
have := cost_split H sP (pd_psd pP) pR' pP (g_hat s) y x.
rewrite symU_id // => ->; rewrite -/(g_hat (linear H R y s)) ltr_addl.
have M0 := M_pd H sP pR' pP; rewrite symU_id // in M0.
by apply: M0; rewrite subr_eq0.
Qed.

(** C61, order and grouping of independent measurements. *)
Theorem C61_ekf_order n1 n2 (H1 : 'M[F]_(n1,d)) (R1 : 'M[F]_n1) y1 (H2 : 'M[F]_(n2,d)) (R2 : 'M[F]_n2) y2 (s : st) :
  symm (cov s) -> pd (cov s) -> symm R1 -> pd R1 -> symm R2 -> pd R2 ->
  linear H2 R2 y2 (linear H1 R1 y1 s) = linear H1 R1 y1 (linear H2 R2 y2 s) /\
  linear H2 R2 y2 (linear H1 R1 y1 s) =
    linear (col_mx H1 H2) (block_mx R1 0 0 R2) (col_mx y1 y2) s.
Proof.
move=> sP pP sR1 pR1 sR2 pR2.
have p1 : pd (symU R1) by rewrite symU_id.
have p2 : pd (symU R2) by rewrite symU_id.
have p12 : pd (symU (block_mx R1 0 0 R2)) by rewrite symU_block; apply: pd_block.
have [s1 d1 e1 m1] := info_update H1 y1 sP pP p1.
have [s2 d2 e2 m2] := info_update H2 y2 sP pP p2.
have [_ d12 e12 m12] := info_update H2 y2 s1 d1 p2.
have [_ d21 e21 m21] := info_update H1 y1 s2 d2 p1.
have [_ dj ej mj] := info_update (col_mx H1 H2) (col_mx y1 y2) sP pP p12.
split; [apply: (info_inj d12 d21)|apply: (info_inj d12 dj)].
- by rewrite e12 e21 e1 e2 addrAC.
- by rewrite m12 m21 m1 m2 addrAC.
- rewrite e12 ej e1 symU_block inv_block ?pd_unit // tr_col_mx mul_row_block !mulmx0 addr0 add0r.
  by rewrite mul_row_col addrA.
- rewrite m12 mj m1 symU_block inv_block ?pd_unit // tr_col_mx mul_row_block !mulmx0 addr0 add0r.
  by rewrite mul_row_col addrA.
Qed.
End C61.

Section C62.
Variables (F : realFieldType).

(** C62 is false: one default (Euler) predict step of the stable scalar system dx/dt = -x with no
    process noise over one time unit turns the covariance 1 into -1. *)
Theorem C62_ekf_predict_psd_refuted :
  exists (f : F -> 'cV[F]_1 -> 'cV[F]_1 * 'M[F]_1) (Q : 'M[F]_1) (tau : F) (s s' : ekf F 1 'cV[F]_1),
    [/\ forall t x, (f t x).1 = - x /\ (f t x).2 = - 1%:M,
        psd Q, psd (cov s), forall fuel, (0 < fuel)%N ->
          predict +%R (fun=> 0) (euler_tab F) f Q tau None fuel s = Some s' &
        ~ psd (cov s')].
Proof.
set f := fun (_ : F) (x : 'cV[F]_1) => (- x, - 1%:M : 'M[F]_1).
pose s := Ekf (0 : 'cV[F]_1) (1%:M : 'M[F]_1).
exists f, 0, 1, s, (pred_step +%R (fun=> 0) (euler_tab F) f 0 s 0 1); split=> //.
- exact: psd0.
- exact: pd_psd (@pd1 F 1).
- by move=> fuel f0; rewrite predict_one ?ler01.
- move/(_ 1%:M); rewrite euler_cov /cov_ode /= oppr0 add0r mulmx1 mul1mx linearN /= trmx1 addr0.
  rewrite /qf trmx1 mul1mx mulmx1 scale1r !mxE /= mulr1n.
  by rewrite addrA subrr sub0r oppr_ge0 leNgt ltr01.
Qed.
End C62.

Section C62b.
Variables (F : realFieldType) (d : nat) (G : Type).
Variable gplus : G -> 'cV[F]_d -> G.
Variable ad : 'cV[F]_d -> 'M[F]_d.

(** C62 (partial): with the default Euler stepper, a step of length tau keeps the covariance
    positive semidefinite when tau * A P A' <= Q, A the linearised dynamics.  Missing: larger steps,
    for which the claim is false. *)
Theorem C62_ekf_predict_psd_partial f (Q : 'M[F]_d) tau fuel (s : ekf F d G) :
  let A := - ad (f 0 (g_hat s)).1 + (f 0 (g_hat s)).2 in
  symm (cov s) -> psd (cov s) -> symm Q -> 0 <= tau -> (0 < fuel)%N ->
  mx_le (tau *: (A *m cov s *m A^T)) Q ->
  exists2 s', predict gplus ad (euler_tab F) f Q tau None fuel s = Some s' & psd (cov s').
Proof.
move=> A sP pP sQ t0 f0 le; rewrite predict_one //; eexists; first by [].
exact: euler_psd.
Qed.

(** C62 (partial): a positive definite covariance stays positive definite for all sufficiently
    short prediction times. *)
Theorem C62_ekf_predict_pd_small_partial f (Q : 'M[F]_d) (s : ekf F d G) :
  symm (cov s) -> pd (cov s) ->
  exists2 tau0, 0 < tau0 & forall tau fuel, 0 <= tau -> tau <= tau0 -> (0 < fuel)%N ->
    exists2 s', predict gplus ad (euler_tab F) f Q tau None fuel s = Some s' & pd (cov s').
Proof.
move=> sP pP; have [h0 p H] := euler_small gplus ad f Q 0 sP pP.
exists h0 => // tau fuel t0 tl f0; rewrite predict_one //; eexists; first by [].
exact: H.
Qed.
End C62b.

(** Concrete cases over the rationals. *)
Notation Q_ := [realFieldType of rat].
Definition ex_f (t : rat) (x : 'cV[rat]_1) : 'cV[rat]_1 * 'M[rat]_1 := (- x, - 1%:M).

(** C58: tau = 1, dt = 2/5 gives steps 2/5, 2/5, 1/5. *)
Example ex_C58 (s : ekf Q_ 1 'cV[rat]_1) :
  (0 <= 1 :> rat) /\ (0 < 2%:Q / 5%:Q) /\
  predict +%R (fun=> 0) (euler_tab Q_) ex_f 1%:M 1 (Some (2%:Q / 5%:Q)) 3 s =
  Some (run_steps +%R (fun=> 0) (euler_tab Q_) ex_f 1%:M 0 [:: 2%:Q / 5%:Q; 2%:Q / 5%:Q; 1 / 5%:Q] s).
Proof.
split=> //; split=> //.
Qed.

(** C59: a history with a reset, a prediction and an update runs to completion. *)
Example ex_C59 :
  exists s, ekf_run +%R (fun=> 0) (euler_tab Q_) 3 (0 : 'cV[rat]_1)
    [:: OReset (0 : 'cV[rat]_1) (2%:Q *: 1%:M); OPredict ex_f (1%:M : 'M[Q_]_1) (1 / 3%:Q) (Some (1 / 4%:Q));
        OUpdate (fun x : 'cV[rat]_1 => 1%:M - x) (fun=> 1%:M : 'M[Q_]_1) 1%:M] = Some s.
Proof. by eexists. Qed.

(** C60, C61: P = I (2x2), H = (1 1), R = 1, y = 3, x0 = 0: the new covariance is
    [[2/3,-1/3],[-1/3,2/3]], the new mean (1,1). *)
Definition ex_H : 'M[rat]_(1,2) := const_mx 1.
Definition ex_s : ekf Q_ 2 'cV[rat]_2 := Ekf 0 1%:M.
Example ex_C60 :
  [/\ symm (cov ex_s), pd (cov ex_s), symm (1%:M : 'M[rat]_1) & pd (1%:M : 'M[rat]_1)] /\
  let s' := update +%R (fun x => const_mx 3%:Q - ex_H *m x) (fun=> ex_H) 1%:M ex_s in
  [/\ g_hat s' = const_mx 1, cov s' 0 0 = 2%:Q / 3%:Q & cov s' 0 1 = - (1 / 3%:Q)].
Proof.
have p2 := @pd1 Q_ 2; have p1 := @pd1 Q_ 1; have s2 := @symm1 Q_ 2; have s1 := @symm1 Q_ 1.
split; first by [].
have p1' : pd (symU (1%:M : 'M[rat]_1)) by rewrite symU_id.
have K : gain ex_H 1%:M (1%:M : 'M[rat]_2) = const_mx (1 / 3%:Q).
  rewrite (@gainE _ _ _ ex_H _ _ s2).
  rewrite mul1mx mulmx1 symU_id //.
  have -> : ex_H *m ex_H^T + 1%:M = (3%:Q)%:M.
    by apply/matrixP => i j; rewrite !mxE !ord1 !big_ord_recl big_ord0 !mxE.
  by rewrite invmx_scalar; apply/matrixP => i j; rewrite mul_mx_scalar !mxE.
move=> s'; rewrite /s' /update /= K; split.
- rewrite mulmx0 subr0 add0r; apply/matrixP => i j; rewrite !mxE big_ord_recl big_ord0 !mxE.
  by apply/eqP.
- rewrite mxE /= mulmx1 !mxE big_ord_recl big_ord0 !mxE; by apply/eqP.
- rewrite mxE /= mulmx1 !mxE big_ord_recl big_ord0 !mxE; by apply/eqP.
Qed.

(** C62 (partial): A = -1, P = 1, Q = 1, tau = 1/2. *)
Example ex_C62 :
  let s := Ekf (0 : 'cV[rat]_1) (1%:M : 'M[Q_]_1) in
  let A : 'M[Q_]_1 := - 0 + (ex_f 0 (g_hat s)).2 in
  [/\ symm (cov s), psd (cov s), symm (1%:M : 'M[Q_]_1) &
      mx_le ((1 / 2%:Q : rat) *: (A *m cov s *m A^T)) 1%:M].
Proof.
split=> /=; [exact: symm1|exact: pd_psd (@pd1 _ _)|exact: symm1|] => x.
rewrite oppr0 add0r mulmx1 linearN /= trmx1 mulNmx mulmxN mulmx1 opprK qfZ.
have := pd_psd (@pd1 Q_ 1) x; rewrite -subr_ge0 => p.
by rewrite -subr_ge0 -[X in X - _]mul1r -mulrBl mulr_ge0 // -[X in 0 <= X]subr0.
Qed.

Print Assumptions C58_ekf_predict_steps_partial.
Print Assumptions C58_ekf_predict_default_partial.
Print Assumptions C58_ekf_predict_terminates_iff.
Print Assumptions C58_ekf_predict_refuted.
Print Assumptions C59_ekf_symmetric.
Print Assumptions C59_ekf_predict_upper.
Print Assumptions C59_ekf_update_upper.
Print Assumptions C60_ekf_update_shrinks.
Print Assumptions C61_ekf_information.
Print Assumptions C61_ekf_least_squares.
Print Assumptions C61_ekf_order.
Print Assumptions C62_ekf_predict_psd_refuted.
Print Assumptions C62_ekf_predict_psd_partial.
Print Assumptions C62_ekf_predict_pd_small_partial.
