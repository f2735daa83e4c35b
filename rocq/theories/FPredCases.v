(** C108: a negative variance, and cases. *)
From Coq Require Import Reals ZArith Lia Lra List Bool.
From Flocq Require Import Core BinarySingleNaN.
From Verif Require Import LoopModel LoopFacts FPidModel FPidFacts FPidOut FQpModel FQpFacts FScaleModel FScaleProps FEkfModel FEkfProps FEkfCases
  FPredModel FPredProps FPredWalk.
Import ListNotations.
Open Scope R_scope.

Definition fp_up (a q s p : b64) : b64 := fadd p (fmul s (fadd (fadd (fmul a p) (fmul p a)) q)).
Lemma fp_upE a q s p : fp_step a q s p (fp_up a q s p).
Proof. exists (fadd (fadd (fmul a p) (fmul p a)) q). split; [now left|now left]. Qed.
Definition fp_a : b64 := fneg (fdiv (fint 7) (fint 27)).
Definition fp_s : b64 := fdiv (fdiv (fint 1) (fint 2)) (fabs fp_a).
Definition fp_p : b64 := fdiv (fint 253) (fint 4).
(** In exact arithmetic a step of Euler's method with -2 a s <= 1 leaves a nonnegative variance.  In doubles a = -7/27, s = 1/(2 |a|), p = 253/4
    and q = 0 give a negative one. *)
Theorem C108_negative_refuted : exists a q s p p', fin a /\ fin q /\ fin s /\ fin p /\ 0 <= val q /\ 0 < val s /\ 0 < val p /\ - 2 * val a * val s <= 1 /\
  0 <= val p + val s * (2 * val a * val p + val q) /\ fp_step a q s p p' /\ fin p' /\ val p' < 0.
Proof.
exists fp_a, (fint 0), fp_s, fp_p, (fp_up fp_a (fint 0) fp_s fp_p). destruct (fint_val 0) as [e0 f0]; [lia|].
assert (Ea : val fp_a = - (IZR 4670399613569403 * p2 (-54))) by (apply (sf_val _ true); vm_compute; reflexivity).
assert (Es : val fp_s = IZR 8685513567071671 * p2 (-52)) by (apply (sf_val _ false); vm_compute; reflexivity).
assert (Ep : val fp_p = IZR 8901646138474496 * p2 (-47)) by (apply (sf_val _ false); vm_compute; reflexivity).
assert (Er : val (fp_up fp_a (fint 0) fp_s fp_p) = - (IZR 4503599627370496 * p2 (-99))) by (apply (sf_val _ true); vm_compute; reflexivity).
pose proof (p2_pos (-99)) as q9. pose proof (p2_pos (-52)) as q5. pose proof (p2_pos (-47)) as q4.
assert (le1 : - 2 * val fp_a * val fp_s <= 1) by (rewrite Ea, Es; simpl; lra).
split; [vm_compute; reflexivity|]. split; [exact f0|]. split; [vm_compute; reflexivity|]. split; [vm_compute; reflexivity|].
split; [lra|]. split; [lra|]. split; [lra|]. split; [exact le1|]. split.
- rewrite e0. replace (val fp_p + val fp_s * (2 * val fp_a * val fp_p + 0)) with (val fp_p * (1 - - 2 * val fp_a * val fp_s)) by ring. apply Rmult_le_pos; lra.
- split; [apply fp_upE|]. split; [vm_compute; reflexivity|]. rewrite Er. lra.
Qed.

(** A step of length 1/4 of dx = -x with q = 1 from the variance 1: nonnegative, and 3/4 up to rounding. *)
Example C108_step_case : let s := fdiv (fint 1) (fint 4) in exists p', fp_step (fneg (fint 1)) (fint 1) s (fint 1) p' /\ 0 <= val p' /\ Rabs (val p' - 3 / 4) <= / 100000000000000.
Proof.
intros s. exists (fp_up (fneg (fint 1)) (fint 1) s (fint 1)). split; [apply fp_upE|]. destruct (fint_val 1) as [e1 f1]; [lia|]. destruct (neg_val _ f1) as [en fn]. rewrite e1 in en.
assert (fs : fin s) by (vm_compute; reflexivity). assert (Es : val s = / 4) by (rewrite (sf_val s false 4503599627370496 (-54)) by (vm_compute; reflexivity); simpl; lra).
assert (c1 : 1 <= p2 300) by (change 1 with (p2 0); apply bpow_le; lia). assert (c2 : p2 (-300) <= 1) by (change 1 with (p2 0); apply bpow_le; lia).
pose proof (fp_upE (fneg (fint 1)) (fint 1) s (fint 1)) as h.
assert (ba : Rabs (val (fneg (fint 1))) <= p2 300) by (rewrite en, Rabs_Ropp, Rabs_pos_eq; lra).
destruct (C108_nonneg _ _ _ _ _ fn f1 fs f1 ba ltac:(lra) ltac:(lra) ltac:(lra) h) as [_ nn]; [right; lra|rewrite en, Es; lra|]. split; [exact nn|].
pose proof (C108_error _ _ _ _ _ fn f1 fs f1 ba ltac:(lra) ltac:(lra) ltac:(lra) h) as E. rewrite en, Es, e1, Rabs_Ropp, (Rabs_pos_eq 1) in E by lra.
assert (c3 : p2 (-700) <= p2 (-100)) by (apply bpow_le; lia). assert (c4 : p2 (-100) <= / 1000000000000000000) by (simpl; lra).
apply Rabs_le_inv in E. apply Rabs_le. lra.
Qed.
Fixpoint fp_ups (a q : b64) (l : list (b64 * b64)) (p : b64) : b64 := match l with [] => p | (_, s) :: l => fp_ups a q l (fp_up a q s p) end.
Lemma fp_upsE a q l p : fp_steps a q l p (fp_ups a q l p).
Proof. revert p. induction l as [|[t s] l IH]; intros p; simpl; [constructor|]. apply fp_cons with (1 := fp_upE a q s p). apply IH. Qed.
(** A random walk with q = 1 from the variance 2 over the time 1 in four steps: 3 up to rounding. *)
Example C108_walk_case : let dt := fdiv (fint 1) (fint 4) in exists l p', length l = 4%nat /\ fp_predict (fint 0) (fint 1) (fint 1) dt l (fint 2) p' /\ Rabs (val p' - 3) <= / 10000000000000.
Proof.
intros dt. destruct (ekf_predict 9 (fint 1) (Some dt)) as [l|] eqn:El; [|exfalso; assert (match ekf_predict 9 (fint 1) (Some dt) with Some _ => true | None => false end = true) by (vm_compute; reflexivity); rewrite El in H; discriminate].
assert (L : length l = 4%nat). { assert (H : match ekf_predict 9 (fint 1) (Some dt) with Some l => length l | None => O end = 4%nat) by (vm_compute; reflexivity). now rewrite El in H. }
exists l, (fp_ups (fint 0) (fint 1) l (fint 2)). split; [exact L|].
assert (h : fp_predict (fint 0) (fint 1) (fint 1) dt l (fint 2) (fp_ups (fint 0) (fint 1) l (fint 2))) by (exists 9%nat; split; [exact El|apply fp_upsE]).
split; [exact h|]. destruct (fint_val 0) as [e0 f0]; [lia|]. destruct (fint_val 1) as [e1 f1]; [lia|]. destruct (fint_val 2) as [e2 f2]; [lia|].
assert (fd : fin dt) by (vm_compute; reflexivity). assert (Ed : val dt = / 4) by (rewrite (sf_val dt false 4503599627370496 (-54)) by (vm_compute; reflexivity); simpl; lra).
assert (c1 : 1 <= p2 400) by (change 1 with (p2 0); apply bpow_le; lia). assert (c2 : 2 <= p2 900) by (change 2 with (p2 1); apply bpow_le; lia).
destruct (C108_walk (fint 0) (fint 1) (fint 1) dt l (fint 2) _ f0 e0 f1 f1 fd f2 ltac:(lra) ltac:(lra) ltac:(lra) ltac:(lra) ltac:(rewrite L; simpl; lra) h) as (_ & _ & E).
rewrite e1, e2, L in E. replace (2 + 1 * 1) with 3 in E by ring. replace (INR 4) with 4 in E by (simpl; lra).
assert (c3 : p2 (-1074) <= p2 (-100)) by (apply bpow_le; lia). assert (c4 : p2 (-100) <= / 1000000000000000000) by (simpl; lra). simpl pow in E. lra.
Qed.

Print Assumptions C108_nonneg.
Print Assumptions C108_error.
Print Assumptions C108_walk.
Print Assumptions C108_negative_refuted.
