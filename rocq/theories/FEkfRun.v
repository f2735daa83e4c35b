(** C106: the variance of a scalar EKF after a sequence of measurements, in double arithmetic. *)
From Coq Require Import Reals ZArith Lia Lra List Bool.
From Flocq Require Import Core BinarySingleNaN.
From Verif Require Import LoopModel LoopFacts FPidModel FPidFacts FPidOut FQpModel FQpFacts FScaleModel FScaleProps FEkfModel FEkfProps FEkfCases.
Import ListNotations.
Open Scope R_scope.

(** Calls of EKF::update, ekf.hpp:117-139, one after the other, with the derivatives and variances of the list. *)
Inductive fk_run : list (b64 * b64) -> b64 -> b64 -> Prop :=
| fk_nil p : fk_run [] p p
| fk_cons h r l p k p1 q : fk_update h r p k p1 -> fk_run l p1 q -> fk_run ((h, r) :: l) p q.
(** The information of the measurements. *)
Definition info (l : list (b64 * b64)) : R := fold_right (fun m s => val (fst m) * val (fst m) / val (snd m) + s) 0 l.
Definition meas_ok (p : R) (m : b64 * b64) : Prop :=
  fin (fst m) /\ fin (snd m) /\ p2 (-200) <= Rabs (val (fst m)) <= p2 200 /\ val (fst m) * val (fst m) * p <= val (snd m) <= p2 600.
Notation u1 := (/ 562949953421312).

Lemma info_pos p l : 0 < p -> Forall (meas_ok p) l -> 0 <= info l.
Proof.
intros hp. induction 1 as [|[h r] l (_ & _ & bh & br) _ IH]; simpl in *; [lra|].
assert (0 < val h * val h). { pose proof (p2_pos (-200)). assert (0 < Rabs (val h) * Rabs (val h)) by (apply Rmult_lt_0_compat; lra). rewrite <- Rabs_mult in H0. destruct (Rle_or_lt 0 (val h * val h)); [rewrite Rabs_pos_eq in H0; lra|pose proof (Rle_0_sqr (val h)); unfold Rsqr in *; lra]. }
assert (0 < val h * val h * p) by (apply Rmult_lt_0_compat; lra).
assert (0 <= val h * val h / val r) by (apply Rmult_le_pos; [lra|left; apply Rinv_0_lt_compat; lra]). lra.
Qed.
Lemma run_gen l p q : fk_run l p q -> fin p -> 0 < val p <= p2 200 -> Forall (meas_ok (val p)) l ->
  / val p + info l <= p2 200 * (1 - u1) ^ length l ->
  fin q /\ 0 < val q <= val p /\ (1 - u1) ^ length l <= val q * (/ val p + info l) <= (1 + u1) ^ length l.
Proof.
induction 1 as [p|h r l p k p1 q hu _ IH]; intros fp bp hl hI.
- simpl. rewrite Rplus_0_r, Rinv_r by lra. repeat split; try assumption; lra.
- inversion hl as [|m l' hm hl']; subst. pose proof hm as (fh & fr & bh & br). unfold fst, snd in fh, fr, bh, br.
  pose proof (info_pos _ _ (proj1 bp) hl') as i0. change (length ((h, r) :: l)) with (S (length l)) in *. change (info ((h, r) :: l)) with (val h * val h / val r + info l) in *. rewrite <- !tech_pow_Rmult in *. set (P := val p) in *. set (H := val h) in *. set (R := val r) in *.
  assert (ip : 0 < / P) by (apply Rinv_0_lt_compat; lra).
  assert (hh : 0 < H * H). { pose proof (p2_pos (-200)). destruct (Req_dec H 0) as [E|E]; [rewrite E, Rabs_R0 in bh; lra|]. pose proof (Rsqr_pos_lt H E). unfold Rsqr in *. lra. }
  assert (hX : 0 < H * H * P) by (apply Rmult_lt_0_compat; lra). assert (r0 : 0 < R) by lra.
  assert (j0 : 0 < H * H / R) by (apply Rmult_lt_0_compat; [lra|apply Rinv_0_lt_compat; lra]).
  assert (pw : 0 < (1 - u1) ^ length l <= 1). { clear. induction (length l) as [|n IH]; simpl; [lra|]. split; [apply Rmult_lt_0_compat; lra|]. apply Rle_trans with (1 * 1); [apply Rmult_le_compat; lra|lra]. }
  assert (pl : p2 (-200) <= P).
  { replace (p2 (-200)) with (/ p2 200) by apply p2_inv. rewrite <- (Rinv_inv P). apply Rinv_le; [exact ip|].
    apply Rle_trans with (p2 200 * ((1 - u1) * (1 - u1) ^ length l)); [lra|]. rewrite <- (Rmult_1_r (p2 200)) at 2. apply Rmult_le_compat_l; [apply bpow_ge_0|].
    apply Rle_trans with (1 * 1); [apply Rmult_le_compat; lra|lra]. }
  destruct (C106_error h r p k p1 fh fr fp bh (conj pl (proj2 bp)) (conj (Rlt_le _ _ r0) (proj2 br)) hu) as [f1 e1].
  destruct (C106_range h r p k p1 fh fr fp bh (conj pl (proj2 bp)) (conj (Rlt_le _ _ r0) (proj2 br)) hu) as [b1 _].
  fold P H R in e1, b1. set (J := / P + H * H / R) in *. assert (J0 : 0 < J) by (unfold J; lra).
  assert (EJ : P * R / (H * H * P + R) = / J) by (unfold J; field; repeat split; lra). rewrite EJ in e1.
  assert (iJ : P <= 2 * / J). { apply Rmult_le_reg_r with J; [lra|]. rewrite Rmult_assoc, Rinv_l, Rmult_1_r by lra. replace (P * J) with (1 + H * H * P / R) by (unfold J; field; lra).
    assert (H * H * P / R <= 1); [|lra]. apply Rmult_le_reg_r with R; [lra|]. unfold Rdiv. rewrite Rmult_assoc, Rinv_l; lra. }
  assert (iJ0 : 0 < / J) by (apply Rinv_0_lt_compat; lra). apply Rabs_le_inv in e1.
  assert (v1 : (1 - u1) * / J <= val p1 <= (1 + u1) * / J) by lra. assert (v0 : 0 < val p1) by lra.
  assert (w1 : (1 - u1) * / val p1 <= J <= (1 + u1) * / val p1).
  { assert (E : J = / J * J * J) by (field; lra). split; apply Rmult_le_reg_r with (val p1); try lra; rewrite Rmult_assoc, Rinv_l, Rmult_1_r by lra.
    - apply Rmult_le_reg_l with (/ J); [lra|]. rewrite <- Rmult_assoc, Rinv_l; lra.
    - apply Rmult_le_reg_l with (/ J); [lra|]. rewrite <- Rmult_assoc, Rinv_l; lra. }
  assert (iv : 0 < / val p1) by (apply Rinv_0_lt_compat; lra).
  destruct IH as (fq & bq & eq).
  + exact f1.
  + lra.
  + apply Forall_impl with (2 := hl'). intros [h' r'] (a1 & a2 & a3 & a4). unfold fst, snd in *. split; [exact a1|]. split; [exact a2|]. split; [exact a3|]. unfold fst, snd. split; [|lra].
    apply Rle_trans with (val h' * val h' * P); [|lra]. apply Rmult_le_compat_l; [|lra]. pose proof (Rle_0_sqr (val h')). unfold Rsqr in *. lra.
  + assert ((1 - u1) * (/ val p1 + info l) <= (1 - u1) * (p2 200 * (1 - u1) ^ length l)); [|lra].
    apply Rle_trans with (J + info l); [|unfold J; lra]. lra.
  + split; [exact fq|]. split; [lra|]. replace (/ P + (H * H / R + info l)) with (J + info l) by (unfold J; ring). destruct bq as [q0 q1].
    set (I1 := / val p1 + info l) in *.
    assert (k1 : (1 - u1) * I1 <= J + info l <= (1 + u1) * I1) by (unfold I1; lra). split.
    * apply Rle_trans with (val q * ((1 - u1) * I1)); [|apply Rmult_le_compat_l; lra]. replace (val q * ((1 - u1) * I1)) with ((1 - u1) * (val q * I1)) by ring. apply Rmult_le_compat_l; lra.
    * apply Rle_trans with (val q * ((1 + u1) * I1)); [apply Rmult_le_compat_l; lra|]. replace (val q * ((1 + u1) * I1)) with ((1 + u1) * (val q * I1)) by ring. apply Rmult_le_compat_l; lra.
Qed.
Lemma pow_bern n : INR n * u1 <= 1 / 2 -> 1 - INR n * u1 <= (1 - u1) ^ n /\ (1 + u1) ^ n <= 1 + 2 * (INR n * u1).
Proof.
induction n as [|n IH]; intros hn; [simpl; lra|]. rewrite S_INR in *. pose proof (pos_INR n) as n0. destruct IH as [a b]; [lra|]. simpl pow. split.
- apply Rle_trans with ((1 - u1) * (1 - INR n * u1)); [|apply Rmult_le_compat_l; lra]. lra.
- apply Rle_trans with ((1 + u1) * (1 + 2 * (INR n * u1))); [apply Rmult_le_compat_l; lra|]. lra.
Qed.
(** After any measurements whose variances r are at least h^2 p, the variance is positive, at most p, and the inverse of the sum of the
    information 1/p of the state and h^2/r of each measurement, up to a relative error of 2^-48 per measurement. *)
Theorem C106_run l p q : fk_run l p q -> fin p -> 0 < val p <= p2 200 ->
  (forall h r, In (h, r) l -> fin h /\ fin r /\ p2 (-200) <= Rabs (val h) <= p2 200 /\ val h * val h * val p <= val r <= p2 600) ->
  INR (length l) <= 2 ^ 48 -> / val p + info l <= p2 199 ->
  fin q /\ 0 < val q <= val p /\ Rabs (val q * (/ val p + info l) - 1) <= INR (length l) / 2 ^ 48.
Proof.
intros hr fp bp hl hn hI. assert (hb : INR (length l) * u1 <= 1 / 2) by (simpl in hn; lra). destruct (pow_bern _ hb) as [a b].
destruct (run_gen l p q hr fp bp) as (fq & bq & e).
- apply Forall_forall. intros [h r] hi. destruct (hl h r hi) as (x1 & x2 & x3 & x4). unfold meas_ok, fst, snd. tauto.
- apply Rle_trans with (1 := hI). replace (p2 199) with (p2 200 * (1 / 2)) by (change 200%Z with (199 + 1)%Z; rewrite bpow_plus; change (p2 1) with 2; lra).
  apply Rmult_le_compat_l; [apply bpow_ge_0|lra].
- split; [exact fq|]. split; [exact bq|]. apply Rabs_le. simpl pow. lra.
Qed.

(** Three measurements with h = r = 1 of a state of variance 1: the variance is 1/4 up to 3 * 2^-48. *)
Example C106_run_case : exists q, let m := (fint 1, fint 1) in fk_run [m; m; m] (fint 1) q /\ fin q /\ Rabs (4 * val q - 1) <= 3 / 2 ^ 48.
Proof.
set (p1 := snd (ek_up (fint 1) (fint 1) (fint 1))). set (p3 := snd (ek_up (fint 1) (fint 1) p1)). set (q := snd (ek_up (fint 1) (fint 1) p3)).
exists q. intros m. assert (hr : fk_run [m; m; m] (fint 1) q).
{ apply fk_cons with (1 := ek_upE (fint 1) (fint 1) (fint 1)). apply fk_cons with (1 := ek_upE (fint 1) (fint 1) p1). apply fk_cons with (1 := ek_upE (fint 1) (fint 1) p3). apply fk_nil. }
split; [exact hr|]. destruct (fint_val 1) as [e1 f1]; [lia|].
assert (b0 : forall e, (0 <= e)%Z -> 1 <= p2 e) by (intros e he; change 1 with (p2 0); apply bpow_le; lia).
assert (b1 : p2 (-200) <= 1) by (change 1 with (p2 0); apply bpow_le; lia).
destruct (C106_run _ _ _ hr f1) as (fq & bq & E).
- rewrite e1. split; [lra|apply b0; lia].
- intros h r hi. assert (x : h = fint 1 /\ r = fint 1) by (destruct hi as [x|[x|[x|[]]]]; inversion x; now split). destruct x as [-> ->].
  rewrite e1, Rabs_pos_eq by lra. repeat split; try assumption; try (apply b0; lia); lra.
- simpl. lra.
- unfold info, m, fold_right, fst, snd. rewrite e1. apply Rle_trans with (p2 2); [change (p2 2) with 4; lra|apply bpow_le; lia].
- split; [exact fq|]. unfold length, info, m, fold_right, fst, snd in E. rewrite e1 in E. replace (/ 1 + (1 * 1 / 1 + (1 * 1 / 1 + (1 * 1 / 1 + 0)))) with 4 in E by field. rewrite Rmult_comm. replace (INR 3) with 3 in E by (simpl; lra). exact E.
Qed.
Print Assumptions C106_run.
