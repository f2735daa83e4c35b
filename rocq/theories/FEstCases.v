(** C107: an estimate that passes the measurement, and cases. *)
From Coq Require Import Reals ZArith Lia Lra List Bool.
From Flocq Require Import Core BinarySingleNaN.
From Verif Require Import LoopModel LoopFacts FPidModel FPidFacts FPidOut FQpModel FQpFacts FScaleModel FScaleProps FEkfModel FEkfProps FEkfCases FEstModel FEstProps.
Import ListNotations.
Open Scope R_scope.

Definition es_up (r y x p : b64) : b64 * b64 :=
  let k := fk_K (fint 1) p (fadd (fmul (fmul (fint 1) p) (fint 1)) r) in (fadd x (fmul k (fsub y x)), fmul (fsub (fint 1) (fmul k (fint 1))) p).
Lemma es_upE r y x p : fk_direct r y x p (fst (es_up r y x p)) (snd (es_up r y x p)).
Proof.
exists (fadd (fmul (fmul (fint 1) p) (fint 1)) r), (fk_K (fint 1) p (fadd (fmul (fmul (fint 1) p) (fint 1)) r)).
split; [now left|]. split; [reflexivity|]. split; now left.
Qed.
Definition es_y : b64 := fdiv (fint 3) (fint 18014398509481984).
(** Without the tolerance: from -1 the measurement y = 3 * 2^-54 of variance 2^-80 leads to 4/3 y. *)
Theorem C107_overshoot_refuted : exists r y x p x' p', fin r /\ fin y /\ fin x /\ fin p /\ fin x' /\ 0 < val r /\ val p = 1 /\ fk_direct r y x p x' p' /\
  val x = -1 /\ 0 < val y /\ val x' = 4 / 3 * val y.
Proof.
exists ek_r1, es_y, (fint (-1)), (fint 1), (fst (es_up ek_r1 es_y (fint (-1)) (fint 1))), (snd (es_up ek_r1 es_y (fint (-1)) (fint 1))).
assert (E1 : val ek_r1 = IZR 4503599627370496 * p2 (-132)) by (apply (sf_val _ false); vm_compute; reflexivity). pose proof (p2_pos (-132)) as q1.
assert (Ey : val es_y = IZR 6755399441055744 * p2 (-105)) by (apply (sf_val _ false); vm_compute; reflexivity).
assert (Ex : val (fst (es_up ek_r1 es_y (fint (-1)) (fint 1))) = IZR 4503599627370496 * p2 (-104)) by (apply (sf_val _ false); vm_compute; reflexivity).
assert (e : p2 (-104) = 2 * p2 (-105)) by (change (-104)%Z with (1 + -105)%Z; rewrite bpow_plus; reflexivity). pose proof (p2_pos (-105)) as q2.
split; [vm_compute; reflexivity|]. split; [vm_compute; reflexivity|]. split; [vm_compute; reflexivity|]. split; [vm_compute; reflexivity|]. split; [vm_compute; reflexivity|].
split; [lra|]. split; [apply fint_val; lia|]. split; [apply es_upE|].
split; [rewrite (sf_val (fint (-1)) true 4503599627370496 (-52)) by (vm_compute; reflexivity); simpl; lra|]. split; [lra|]. rewrite Ex, Ey, e. lra.
Qed.

(** Two measurements 1 and 2 of variance 1 of a state with the estimate 0 and the variance 1: the estimate stays in [0, 2] up to 2^-50, the
    first estimate is 1/2 up to rounding. *)
Example C107_case : let o := fint 1 in exists x1 p1 x' p', fk_direct o o (fint 0) o x1 p1 /\ fk_seq [(o, o); (o, fint 2)] (fint 0) o x' p' /\
  Rabs (val x1 - 1 / 2) <= / 1000000000000 /\ - / 1000000000000 <= val x' <= 2 + / 1000000000000 /\ 0 <= val p' <= 1.
Proof.
intros o. set (x1 := fst (es_up o o (fint 0) o)). set (p1 := snd (es_up o o (fint 0) o)). set (x' := fst (es_up o (fint 2) x1 p1)). set (p' := snd (es_up o (fint 2) x1 p1)).
assert (h1 : fk_direct o o (fint 0) o x1 p1) by apply es_upE. assert (h2 : fk_direct o (fint 2) x1 p1 x' p') by apply es_upE.
assert (hs : fk_seq [(o, o); (o, fint 2)] (fint 0) o x' p') by (apply fk_seqS with (1 := h1), fk_seqS with (1 := h2), fk_seq0).
exists x1, p1, x', p'. split; [exact h1|]. split; [exact hs|].
destruct (fint_val 0) as [e0 f0]; [lia|]. destruct (fint_val 1) as [e1 f1]; [lia|]. destruct (fint_val 2) as [e2 f2]; [lia|]. fold o in e1, f1.
assert (b0 : forall e, (1 <= e)%Z -> 2 <= p2 e) by (intros e he; change 2 with (p2 1); apply bpow_le; lia).
pose proof (b0 1022%Z ltac:(lia)) as c2. pose proof (b0 1020%Z ltac:(lia)) as c0. pose proof (b0 1021%Z ltac:(lia)) as c1.
split.
- assert (T : p2 (-1074) <= p2 (-100)) by (apply bpow_le; lia). assert (T2 : p2 (-100) <= / 1000000000000000) by (simpl; lra).
  assert (T3 : p2 (-1021) <= val o) by (rewrite e1; change 1 with (p2 0); apply bpow_le; lia).
  pose proof (C107_error o o (fint 0) o x1 p1 f1 f1 f0 f1) as E. rewrite e0, e1, Rabs_R0, (Rabs_pos_eq 1) in E by lra.
  specialize (E ltac:(lra) ltac:(lra) ltac:(lra) ltac:(lra) h1 ltac:(lra)). replace (0 + 1 / (1 + 1) * (1 - 0)) with (1 / 2) in E by field. lra.
- destruct (C107_run _ _ _ _ _ 0 2 hs f0 f1) as (_ & _ & g1 & g2); try lra.
  + intros r y hi. assert (c : r = o /\ (y = o \/ y = fint 2)) by (destruct hi as [i|[i|[]]]; apply pair_equal_spec in i; destruct i; auto).
    destruct c as [-> [-> | ->]]; (split; [exact f1|]; split; [assumption|]; split; lra).
Qed.
(** From 3 to the measurement 4 of variance 1, with variance 1: between 3 and 4. *)
Example C107_between_case : exists x' p', fk_direct (fint 1) (fint 4) (fint 3) (fint 1) x' p' /\ 3 <= val x' <= 4.
Proof.
exists (fst (es_up (fint 1) (fint 4) (fint 3) (fint 1))), (snd (es_up (fint 1) (fint 4) (fint 3) (fint 1))). split; [apply es_upE|].
destruct (fint_val 1) as [e1 f1]; [lia|]. destruct (fint_val 3) as [e3 f3]; [lia|]. destruct (fint_val 4) as [e4 f4]; [lia|].
assert (c : 4 <= p2 1021) by (change 4 with (p2 2); apply bpow_le; lia). assert (c2 : 4 <= p2 1022) by (change 4 with (p2 2); apply bpow_le; lia).
pose proof (C107_between _ _ _ _ _ _ f1 f4 f3 f1 ltac:(lra) ltac:(lra) ltac:(rewrite e3, Rabs_pos_eq; lra) ltac:(rewrite e4, Rabs_pos_eq; lra) (es_upE (fint 1) (fint 4) (fint 3) (fint 1))) as E.
rewrite e3, e4, Rmin_left, Rmax_right in E by lra. apply E. lra.
Qed.

Print Assumptions C106_direct.
Print Assumptions C107_towards.
Print Assumptions C107_between.
Print Assumptions C107_error.
Print Assumptions C107_run.
Print Assumptions C107_overshoot_refuted.
