(** C110: the sample times of an optimal control problem in double arithmetic. *)
From Coq Require Import Reals ZArith Lia Lra List Bool.
From Flocq Require Import Core BinarySingleNaN Relative Sterbenz.
From Verif Require Import LoopModel LoopFacts FPidModel FPidFacts FPidOut FQpModel FQpFacts FScaleModel FScaleProps FEvalProps FEkfModel FEkfProps FEkfCases
  FEstModel FEstProps FPredModel FPredProps FOcpModel.
Open Scope R_scope.

Section Times.
Variables (t0 tf : b64).
Hypotheses (f0 : fin t0) (f1 : fin tf) (b0 : Rabs (val t0) <= p2 1021) (b1 : Rabs (val tf) <= p2 1021) (lt : val t0 < val tf).
Let d := RN (val tf - val t0).
Let E22 : p2 1022 = 2 * p2 1021. Proof. change 1022%Z with (1 + 1021)%Z. rewrite bpow_plus. reflexivity. Qed.
Let E23 : p2 1023 = 4 * p2 1021. Proof. change 1023%Z with (2 + 1021)%Z. rewrite bpow_plus. reflexivity. Qed.
(** ti is the rounding of t0 + m with m = d tau or its rounding. *)
Lemma ti_val tau ti : fin tau -> 0 <= val tau <= 1 -> fo_time t0 tf tau ti ->
  fin ti /\ exists m, val ti = RN (val t0 + m) /\ 0 <= m <= d /\ (m = d * val tau \/ m = RN (d * val tau)) /\ Rabs (m - d * val tau) <= uu * (d * val tau) + eta.
Proof.
intros ft bt h. destruct (d_val tf t0 f1 f0 b0 b1) as (fd & ed & bd & d0 & _ & _). fold d in ed, bd, d0. specialize (d0 (Rlt_le _ _ lt)). rewrite Rabs_pos_eq in bd by lra.
apply Rabs_le_inv in b0. pose proof (p2_pos 1021) as p0. pose proof (p2_pos (-1075)) as q5.
assert (m1 : 0 <= d * val tau <= d). { split; [apply Rmult_le_pos; lra|]. rewrite <- (Rmult_1_r d) at 2. apply Rmult_le_compat_l; lra. }
assert (m2 : 0 <= RN (d * val tau) <= d) by (split; [now apply RN_pos|apply RN_upper; [apply RN_fmt|lra]]).
destruct h as [[] ->]; unfold fo_at; [|].
2: { destruct (mul_val (fsub tf t0) tau fd ft) as [em fm]; [rewrite ed, Rabs_pos_eq; lra|]. rewrite ed in em.
  destruct (add_val t0 _ f0 fm) as [ea fa]; [rewrite em; apply Rabs_le; lra|]. rewrite em in ea. split; [exact fa|]. exists (RN (d * val tau)). split; [exact ea|]. split; [exact m2|]. split; [now right|].
  apply err_b. rewrite Rabs_pos_eq; lra. }
- destruct (fma_val (fsub tf t0) tau t0 fd ft f0) as [ea fa]; [rewrite ed; apply Rabs_le; lra|]. rewrite ed, Rplus_comm in ea. split; [exact fa|]. exists (d * val tau). split; [exact ea|]. split; [exact m1|]. split; [now left|].
  unfold Rminus. rewrite Rplus_opp_r, Rabs_R0. assert (0 <= uu * (d * val tau)) by (apply Rmult_le_pos; lra). lra.
Qed.
(** C110: every sample time is at least t0 and at most tf + 2^-52 (tf - t0), it is t0 for tau = 0, and at most tf if t0 = 0 or tf <= 2 t0. *)
Theorem C110_sample tau ti : fin tau -> 0 <= val tau <= 1 -> fo_time t0 tf tau ti ->
  fin ti /\ val t0 <= val ti <= val tf + / 4503599627370496 * (val tf - val t0) /\ (val tau = 0 -> val ti = val t0) /\
  (val t0 = 0 \/ val tf <= 2 * val t0 -> val ti <= val tf /\ (val tau = 1 -> val ti = val tf)).
Proof.
intros ft bt h. destruct (ti_val tau ti ft bt h) as (fi & m & e & bm & em & _). split; [exact fi|]. pose proof (z_near tf t0 f1 f0 b0 b1) as z. fold d in z.
rewrite (Rabs_pos_eq (val tf - val t0)) in z by lra. apply Rabs_le_inv in z. pose proof (RN_le (val t0 + m) (val t0 + d) ltac:(lra)) as up. rewrite e.
split; [split; [apply RN_lower; [apply val_fmt|lra]|lra]|]. split.
- intros E. rewrite E, Rmult_0_r, RN_0 in em. replace m with 0 by (destruct em; lra). rewrite Rplus_0_r. apply RN_id, val_fmt.
- intros c. assert (D : d = val tf - val t0).
  { destruct c as [c|c]; unfold d; [rewrite c, Rminus_0_r; apply RN_id, val_fmt|]. apply RN_id. apply sterbenz; try apply val_fmt; auto with typeclass_instances. lra. }
  split; [apply RN_upper; [apply val_fmt|lra]|]. intros E. rewrite E, Rmult_1_r in em. assert (m = d) by (destruct em as [->| ->]; [reflexivity|apply RN_id, RN_fmt]). rewrite H, D. replace (val t0 + (val tf - val t0)) with (val tf) by ring. apply RN_id, val_fmt.
Qed.
(** It is the exact time up to rounding. *)
Theorem C110_sample_error tau ti : fin tau -> 0 <= val tau <= 1 -> fo_time t0 tf tau ti ->
  Rabs (val ti - (val t0 + (val tf - val t0) * val tau)) <= / 2251799813685248 * (Rabs (val t0) + (val tf - val t0)) + p2 (-1074).
Proof.
intros ft bt h. destruct (ti_val tau ti ft bt h) as (fi & m & e & bm & _ & er). destruct (d_val tf t0 f1 f0 b0 b1) as (_ & _ & _ & d0 & _ & hd). fold d in hd, d0. specialize (d0 (Rlt_le _ _ lt)).
set (w := val tf - val t0) in *. assert (w0 : 0 < w) by (unfold w; lra). rewrite (Rabs_pos_eq w) in hd by lra. pose proof (Rabs_le_inv _ _ hd) as hd'.
assert (dt : 0 <= d * val tau <= 101 / 100 * w). { split; [apply Rmult_le_pos; lra|]. apply Rle_trans with (d * 1); [apply Rmult_le_compat_l; lra|lra]. }
assert (k1 : Rabs ((d - w) * val tau) <= uu * w * 1) by (apply prod_le; [exact hd|rewrite Rabs_pos_eq; lra]).
assert (bx : Rabs (val t0 + m) <= Rabs (val t0) + 101 / 100 * w) by (eapply Rle_trans; [apply Rabs_triang|]; rewrite (Rabs_pos_eq m); lra).
pose proof (err_b _ _ bx) as k2. rewrite <- e in k2. assert (e74 : p2 (-1074) = 2 * eta) by (change (-1074)%Z with (1 + -1075)%Z; now rewrite bpow_plus).
replace (val ti - (val t0 + w * val tau)) with ((val ti - (val t0 + m)) + (m - d * val tau) + (d - w) * val tau) by ring.
apply Rabs_le_inv in k1. apply Rabs_le_inv in k2. apply Rabs_le_inv in er. pose proof (Rabs_pos (val t0)). apply Rabs_le. lra.
Qed.
(** A later node has no earlier sample time, if both are computed with the same instructions. *)
Theorem C110_sample_monotone (fma : bool) tau tau' : fin tau -> fin tau' -> 0 <= val tau -> val tau <= val tau' -> val tau' <= 1 ->
  val (fo_at fma t0 tf tau) <= val (fo_at fma t0 tf tau').
Proof.
intros ft ft' h0 h1 h2. destruct (d_val tf t0 f1 f0 b0 b1) as (fd & ed & bd & d0 & _ & _). fold d in ed, bd, d0. specialize (d0 (Rlt_le _ _ lt)). rewrite Rabs_pos_eq in bd by lra.
apply Rabs_le_inv in b0. pose proof (p2_pos 1021) as p0.
assert (V : forall x, fin x -> 0 <= val x <= 1 -> val (fo_at fma t0 tf x) = if fma then RN (val t0 + d * val x) else RN (val t0 + RN (d * val x))).
{ intros x fx bx. assert (m1 : 0 <= d * val x <= d). { split; [apply Rmult_le_pos; lra|]. rewrite <- (Rmult_1_r d) at 2. apply Rmult_le_compat_l; lra. }
  assert (m2 : 0 <= RN (d * val x) <= d) by (split; [now apply RN_pos|apply RN_upper; [apply RN_fmt|lra]]). unfold fo_at. destruct fma.
  - destruct (fma_val (fsub tf t0) x t0 fd fx f0) as [ea fa]; [rewrite ed; apply Rabs_le; lra|]. now rewrite ea, ed, Rplus_comm.
  - destruct (mul_val (fsub tf t0) x fd fx) as [em fm]; [rewrite ed, Rabs_pos_eq; lra|]. rewrite ed in em. destruct (add_val t0 _ f0 fm) as [ea fa]; [rewrite em; apply Rabs_le; lra|]. now rewrite ea, em. }
rewrite !V by (assumption || lra). assert (mono : d * val tau <= d * val tau') by (apply Rmult_le_compat_l; lra).
destruct fma; apply RN_le; [lra|]. pose proof (RN_le _ _ mono). lra.
Qed.
(** The argument of the solution functions is in [0, 1] for t in [t0, tf], 0 at t0, 1 at tf, increasing, and exact up to 2^-51. *)
Lemma back_val t : fin t -> val t0 <= val t <= val tf -> fin (fo_back t0 tf t) /\ val (fo_back t0 tf t) = RN (RN (val t - val t0) / d) /\ 0 < d /\ 0 <= RN (val t - val t0) <= d.
Proof.
intros ft bt. destruct (d_val tf t0 f1 f0 b0 b1) as (fd & ed & bd & d0 & _ & hd). fold d in ed, bd, d0, hd. specialize (d0 (Rlt_le _ _ lt)).
pose proof (Rabs_le_inv _ _ b0) as b0'. pose proof (Rabs_le_inv _ _ b1) as b1'.
assert (bt' : Rabs (val t) <= p2 1021) by (apply Rabs_le; lra). destruct (d_val t t0 ft f0 b0 bt') as (fe & ee & be & e0 & _ & _). specialize (e0 (proj1 bt)).
assert (dp : 0 < d). { rewrite (Rabs_pos_eq (val tf - val t0)) in hd by lra. apply Rabs_le_inv in hd. lra. }
assert (le : RN (val t - val t0) <= d) by (apply RN_le; lra).
assert (q : 0 <= RN (val t - val t0) / d <= 1). { split; [apply Rmult_le_pos; [exact e0|left; now apply Rinv_0_lt_compat]|]. apply Rmult_le_reg_r with d; [exact dp|]. unfold Rdiv. rewrite Rmult_assoc, Rinv_l; lra. }
destruct (div_val (fsub t t0) (fsub tf t0) fe) as [er fr]; [rewrite ed; lra| |].
- rewrite ee, ed, Rabs_pos_eq by lra. apply Rle_trans with (p2 0); [simpl; lra|apply bpow_le; lia].
- rewrite ee, ed in er. repeat split; assumption.
Qed.
Theorem C110_back t : fin t -> val t0 <= val t <= val tf -> fin (fo_back t0 tf t) /\ 0 <= val (fo_back t0 tf t) <= 1 /\
  (val t = val t0 -> val (fo_back t0 tf t) = 0) /\ (val t = val tf -> val (fo_back t0 tf t) = 1) /\
  (forall t', fin t' -> val t <= val t' <= val tf -> val (fo_back t0 tf t) <= val (fo_back t0 tf t')) /\
  Rabs (val (fo_back t0 tf t) - (val t - val t0) / (val tf - val t0)) <= / 2251799813685248.
Proof.
intros ft bt. destruct (back_val t ft bt) as (fb & eb & dp & bn). set (n := RN (val t - val t0)) in *. split; [exact fb|].
assert (q : 0 <= n / d <= 1). { split; [apply Rmult_le_pos; [lra|left; now apply Rinv_0_lt_compat]|]. apply Rmult_le_reg_r with d; [exact dp|]. unfold Rdiv. rewrite Rmult_assoc, Rinv_l; lra. }
assert (o : fmt 1) by (apply (bpow_fmt 0); lia).
split; [rewrite eb; split; [now apply RN_pos|apply RN_upper; [exact o|lra]]|].
split; [intros E; rewrite eb; unfold n; rewrite E, Rminus_diag_eq, RN_0 by reflexivity; unfold Rdiv; rewrite Rmult_0_l; apply RN_0|].
split; [intros E; rewrite eb; unfold n; rewrite E; fold d; unfold Rdiv; rewrite Rinv_r by lra; now apply RN_id|].
split.
- intros t' ft' bt'. destruct (back_val t' ft' ltac:(lra)) as (_ & eb' & _ & _). rewrite eb, eb'. apply RN_le. apply Rmult_le_compat_r; [left; now apply Rinv_0_lt_compat|]. apply RN_le. lra.
- destruct (sub_rel (val t) (val t0) (val_fmt t) (val_fmt t0)) as [e [he E]]. fold n in E. destruct (sub_rel (val tf) (val t0) (val_fmt tf) (val_fmt t0)) as [g [hg G]]. fold d in G.
  apply Rabs_le_inv in he. apply Rabs_le_inv in hg. set (w := val tf - val t0) in *. set (v := val t - val t0) in *. assert (w0 : 0 < w) by (unfold w; lra). assert (v0 : 0 <= v <= w) by (unfold v, w; lra).
  set (x := v / w). assert (x1 : 0 <= x <= 1). { unfold x. split; [apply Rmult_le_pos; [lra|left; now apply Rinv_0_lt_compat]|]. apply Rmult_le_reg_r with w; [exact w0|]. unfold Rdiv. rewrite Rmult_assoc, Rinv_l; lra. }
  assert (Ex : n / d = x * ((1 + e) * / (1 + g))) by (rewrite E, G; unfold x; field; lra).
  assert (ig : 1 - 101 / 100 * uu <= / (1 + g) <= 1 + 101 / 100 * uu).
  { split; apply Rmult_le_reg_r with (1 + g); try lra; rewrite Rinv_l by lra.
    - apply Rle_trans with ((1 - 101 / 100 * uu) * (1 + uu)); [apply Rmult_le_compat_l; lra|lra].
    - apply Rle_trans with ((1 + 101 / 100 * uu) * (1 - uu)); [lra|apply Rmult_le_compat_l; lra]. }
  assert (eg : 1 - 21 / 10 * uu <= (1 + e) * / (1 + g) <= 1 + 21 / 10 * uu).
  { split; [apply Rle_trans with ((1 - uu) * (1 - 101 / 100 * uu)); [lra|apply Rmult_le_compat; lra]|apply Rle_trans with ((1 + uu) * (1 + 101 / 100 * uu)); [apply Rmult_le_compat; lra|lra]]. }
  assert (k1 : Rabs (n / d - x) <= 1 * (21 / 10 * uu)). { rewrite Ex. replace (x * ((1 + e) * / (1 + g)) - x) with (x * ((1 + e) * / (1 + g) - 1)) by ring. apply prod_le; apply Rabs_le; lra. }
  pose proof (err_b (n / d) 1 ltac:(rewrite Rabs_pos_eq; lra)) as k2. rewrite <- eb in k2. assert (eta <= / 1000 * uu) by (apply Rle_trans with (p2 (-100)); [apply bpow_le; lia|simpl; lra]).
  fold x. apply Rabs_le_inv in k1. apply Rabs_le_inv in k2. apply Rabs_le. lra.
Qed.
End Times.

(** With t0 = 0.3, tf = 0.9 the sample time of tau = 1 is after tf. *)
Definition fo_t0 : b64 := fdiv (fint 3) (fint 10).
Definition fo_tf : b64 := fdiv (fint 9) (fint 10).
Theorem C110_outside_refuted : exists t0 tf ti, fin t0 /\ fin tf /\ fin ti /\ 0 < val t0 < val tf /\ val tf < 1 /\ fo_time t0 tf (fint 1) ti /\ val tf < val ti.
Proof.
exists fo_t0, fo_tf, (fadd fo_t0 (fmul (fsub fo_tf fo_t0) (fint 1))).
assert (E0 : val fo_t0 = IZR 5404319552844595 * p2 (-54)) by (apply (sf_val _ false); vm_compute; reflexivity).
assert (E1 : val fo_tf = IZR 8106479329266893 * p2 (-53)) by (apply (sf_val _ false); vm_compute; reflexivity).
assert (E2 : val (fadd fo_t0 (fmul (fsub fo_tf fo_t0) (fint 1))) = IZR 8106479329266894 * p2 (-53)) by (apply (sf_val _ false); vm_compute; reflexivity).
assert (e : p2 (-53) = 2 * p2 (-54)) by (change (-53)%Z with (1 + -54)%Z; now rewrite bpow_plus). pose proof (p2_pos (-54)) as q.
split; [vm_compute; reflexivity|]. split; [vm_compute; reflexivity|]. split; [vm_compute; reflexivity|]. split; [lra|]. split; [rewrite E1; simpl; lra|]. split; [now exists false|]. lra.
Qed.

(** t0 = 0, tf = 5, tau = 1/2: the time is in [0, 5] and close to 5/2, and back it is in [0, 1]. *)
Example C110_case : let h := fdiv (fint 1) (fint 2) in let ti := fadd (fint 0) (fmul (fsub (fint 5) (fint 0)) h) in fo_time (fint 0) (fint 5) h ti /\
  0 <= val ti <= 5 /\ Rabs (val ti - 5 / 2) <= / 100000000000000 /\ 0 <= val (fo_back (fint 0) (fint 5) ti) <= 1.
Proof.
intros h ti. assert (ht : fo_time (fint 0) (fint 5) h ti) by now exists false. split; [exact ht|].
destruct (fint_val 0) as [e0 f0]; [lia|]. destruct (fint_val 5) as [e5 f5]; [lia|]. assert (fh : fin h) by (vm_compute; reflexivity).
assert (eh : val h = / 2) by (rewrite (sf_val h false 4503599627370496 (-53)) by (vm_compute; reflexivity); simpl; lra).
assert (c : 8 <= p2 1021) by (change 8 with (p2 3); apply bpow_le; lia).
assert (b0 : Rabs (val (fint 0)) <= p2 1021) by (rewrite e0, Rabs_R0; lra). assert (b5 : Rabs (val (fint 5)) <= p2 1021) by (rewrite e5, Rabs_pos_eq; lra).
destruct (C110_sample _ _ f0 f5 b0 b5 ltac:(lra) h ti fh ltac:(lra) ht) as (fi & g1 & _ & g2). destruct (g2 (or_introl e0)) as [g3 _].
pose proof (C110_sample_error _ _ f0 f5 b0 b5 ltac:(lra) h ti fh ltac:(lra) ht) as E. rewrite e0, e5, eh, Rabs_R0 in E.
assert (c3 : p2 (-1074) <= p2 (-100)) by (apply bpow_le; lia). assert (c4 : p2 (-100) <= / 1000000000000000000) by (simpl; lra).
split; [lra|]. split; [apply Rabs_le_inv in E; apply Rabs_le; lra|]. apply (C110_back _ _ f0 f5 b0 b5 ltac:(lra) ti fi). lra.
Qed.
(** Two nodes 1/2 <= 1. *)
Example C110_monotone_case : let h := fdiv (fint 1) (fint 2) in val (fo_at false fo_t0 fo_tf h) <= val (fo_at false fo_t0 fo_tf (fint 1)).
Proof.
intros h. assert (fh : fin h) by (vm_compute; reflexivity). destruct (fint_val 1) as [e1 f1]; [lia|].
assert (eh : val h = / 2) by (rewrite (sf_val h false 4503599627370496 (-53)) by (vm_compute; reflexivity); simpl; lra).
assert (E0 : val fo_t0 = IZR 5404319552844595 * p2 (-54)) by (apply (sf_val _ false); vm_compute; reflexivity).
assert (E1 : val fo_tf = IZR 8106479329266893 * p2 (-53)) by (apply (sf_val _ false); vm_compute; reflexivity).
assert (c : 8 <= p2 1021) by (change 8 with (p2 3); apply bpow_le; lia).
assert (b : 0 < val fo_t0 < val fo_tf /\ val fo_tf < 1) by (rewrite E0, E1; simpl; lra).
apply (C110_sample_monotone fo_t0 fo_tf ltac:(vm_compute; reflexivity) ltac:(vm_compute; reflexivity) ltac:(rewrite Rabs_pos_eq; lra) ltac:(rewrite Rabs_pos_eq; lra) ltac:(lra) false h (fint 1)); try assumption; lra.
Qed.
(** For t0 = 0, as in ocp_to_nlp.hpp:460, the solution function at the sample time of a node is evaluated at the node up to 2^-49. *)
Theorem C110_round_trip t0 tf tau ti : fin t0 -> fin tf -> val t0 = 0 -> p2 (-1020) <= val tf <= p2 1021 -> fin tau -> 0 <= val tau <= 1 -> fo_time t0 tf tau ti ->
  fin (fo_back t0 tf ti) /\ 0 <= val (fo_back t0 tf ti) <= 1 /\ Rabs (val (fo_back t0 tf ti) - val tau) <= / 562949953421312.
Proof.
intros f0 f1 z bf ft bt h. pose proof (p2_pos (-1020)) as q0. pose proof (p2_pos 1021) as q1.
assert (b0 : Rabs (val t0) <= p2 1021) by (rewrite z, Rabs_R0; lra). assert (b1 : Rabs (val tf) <= p2 1021) by (rewrite Rabs_pos_eq; lra). assert (lt : val t0 < val tf) by lra.
destruct (C110_sample t0 tf f0 f1 b0 b1 lt tau ti ft bt h) as (fi & [g1 _] & _ & g2). destruct (g2 (or_introl z)) as [g3 _].
pose proof (C110_sample_error t0 tf f0 f1 b0 b1 lt tau ti ft bt h) as E. destruct (C110_back t0 tf f0 f1 b0 b1 lt ti fi (conj g1 g3)) as (fb & bb & _ & _ & _ & B).
split; [exact fb|]. split; [exact bb|]. rewrite z, Rabs_R0, Rplus_0_l, !Rminus_0_r, Rplus_0_l in E. rewrite z, !Rminus_0_r in B. set (T := val tf) in *.
assert (e : p2 (-1074) <= / 2251799813685248 * T). { apply Rle_trans with (/ 2251799813685248 * p2 (-1020)); [|apply Rmult_le_compat_l; lra]. change (-1074)%Z with (-54 + -1020)%Z. rewrite bpow_plus. apply Rmult_le_compat_r; [lra|]. change (p2 (-54)) with (/ 18014398509481984). lra. }
assert (k : Rabs (val ti / T - val tau) <= 2 * / 2251799813685248).
{ replace (val ti / T - val tau) with ((val ti - T * val tau) / T) by (field; lra). unfold Rdiv. rewrite Rabs_mult, (Rabs_pos_eq (/ T)) by (left; apply Rinv_0_lt_compat; lra).
  apply Rmult_le_reg_r with T; [lra|]. rewrite Rmult_assoc, Rinv_l by lra. lra. }
apply Rabs_le_inv in k. apply Rabs_le_inv in B. apply Rabs_le. lra.
Qed.
(** tf = 5, tau = 1/2. *)
Example C110_round_trip_case : let h := fdiv (fint 1) (fint 2) in Rabs (val (fo_back (fint 0) (fint 5) (ffma (fsub (fint 5) (fint 0)) h (fint 0))) - / 2) <= / 562949953421312.
Proof.
intros h. assert (fh : fin h) by (vm_compute; reflexivity). destruct (fint_val 0) as [e0 f0]; [lia|]. destruct (fint_val 5) as [e5 f5]; [lia|].
assert (eh : val h = / 2) by (rewrite (sf_val h false 4503599627370496 (-53)) by (vm_compute; reflexivity); simpl; lra). rewrite <- eh.
assert (c : 8 <= p2 1021) by (change 8 with (p2 3); apply bpow_le; lia). assert (c1 : p2 (-1020) <= p2 0) by (apply bpow_le; lia). change (p2 0) with 1 in c1.
apply C110_round_trip; try assumption; [lra|lra|now exists true].
Qed.
Print Assumptions C110_sample.
Print Assumptions C110_sample_error.
Print Assumptions C110_sample_monotone.
Print Assumptions C110_back.
Print Assumptions C110_outside_refuted.
Print Assumptions C110_round_trip.
