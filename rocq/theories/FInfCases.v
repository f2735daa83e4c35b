(** Concrete cases for C103: x <= 1 and x >= 2 with dy = (1, -1), and min -x subject to x >= 0 with dx = 1. *)
From Coq Require Import Reals ZArith Lia Lra List Bool Permutation.
From Flocq Require Import Core BinarySingleNaN Relative.
From Verif Require Import LoopModel LoopFacts FPidModel FPidFacts FPidOut FQpModel FQpFacts FQpProps FQpCases FInfModel FInfProps.
Import ListNotations.
Open Scope R_scope.

Definition qp_p : fqp := FQp (fun _ _ => fint 0) (fun _ => fint 0) (fun _ _ => fint 1)
  (fun i => if Nat.eqb i 0 then fneg finf else fint 2) (fun i => if Nat.eqb i 0 then fint 1 else finf).
Definition dy_p : fvec := fun i => if Nat.eqb i 0 then fint 1 else fint (-1).
Lemma vm1 : val (fint (-1)) = -1 /\ fin (fint (-1)). Proof. apply (neg_int 1); [lia|vm_compute; reflexivity]. Qed.
Example C103_pinf_case : f_pinf 1 2 qp_p ea2 dy_p.
Proof.
exists (fun _ => fadd (fmul (fint 1) (fint 1)) (fmul (fint 1) (fint (-1)))). do 3 eexists.
split; [intros i hi; eapply dot_add; [apply dot_one|apply dot_one|apply Permutation_refl]|].
split; [intros _; reflexivity|]. split; [intros _; reflexivity|]. split.
- change (seq 0 2) with [0%nat; 1%nat]. eapply sup_go.
  + unfold f_up. replace (feq (f_u qp_p 0%nat) finf) with false by (vm_compute; reflexivity). eexists. split; [left; reflexivity|reflexivity].
  + unfold f_lo. replace (feq (f_l qp_p 0%nat) (fneg finf)) with true by (vm_compute; reflexivity).
    match goal with |- context [if ?b then _ else _] => replace b with false by (vm_compute; reflexivity) end. reflexivity.
  + eapply sup_go.
    * unfold f_up. replace (feq (f_u qp_p 1%nat) finf) with true by (vm_compute; reflexivity).
      match goal with |- context [if ?b then _ else _] => replace b with false by (vm_compute; reflexivity) end. reflexivity.
    * unfold f_lo. replace (feq (f_l qp_p 1%nat) (fneg finf)) with false by (vm_compute; reflexivity). eexists. split; [right; reflexivity|reflexivity].
    * apply sup_end.
- vm_compute. reflexivity.
Qed.
(** All hypotheses of C103_primal hold with D = 1 and T = 3; the point w = (1, 2) lies within the bounds. *)
Example C103_primal_case :
  Rabs (rsumn 2 (fun i => val (f_A qp_p i 0%nat) * val (dy_p i))) <= / 1000 /\
  rsumn 2 (fun i => val (dy_p i) * (if Nat.eqb i 0 then 1 else 2)) <= / 200.
Proof.
destruct ea2_val as [ve fe]. pose proof b900 as b9.
assert (e1 : bpow radix2 (-1074) <= / 1048576) by (replace (/ 1048576) with (bpow radix2 (-20)) by (simpl; lra); apply bpow_le; lia).
pose proof (bpow_ge_0 radix2 (-1074)) as e0.
assert (tb : rsumn 2 (bound_terms qp_p dy_p) <= 3).
{ unfold rsumn, bound_terms, qp_p, dy_p; cbn [f_l f_u Nat.eqb].
  replace (is_finite (fint 1)) with true by (symmetry; apply v1). replace (is_finite (fint 2)) with true by (symmetry; apply v2).
  change (is_finite (fneg finf)) with false. change (is_finite finf) with false. cbv iota. rewrite (proj1 vm1). vals.
  rewrite Rmax_right, Rmin_right by lra. rewrite Rabs_pos_eq by lra. replace (2 * -1) with (- (2)) by ring. rewrite Rabs_Ropp, Rabs_pos_eq; lra. }
destruct (C103_primal 1 2 qp_p ea2 dy_p 1 3) as [_ [h1 h2]].
- exact C103_pinf_case.
- intros i hi. destruct (two_cases i hi) as [->| ->]; cbn [qp_p f_l f_u Nat.eqb].
  + split; cbn [qp_p f_l f_u Nat.eqb]; [left; reflexivity|right; apply v1].
  + split; cbn [qp_p f_l f_u Nat.eqb]; [right; apply v2|left; reflexivity].
- intros; apply v1.
- intros i hi. destruct (two_cases i hi) as [->| ->]; unfold dy_p; cbn [Nat.eqb].
  + split; [apply v1|]. vals. rewrite Rabs_R1. lra.
  + split; [apply vm1|]. rewrite (proj1 vm1). unfold Rabs. destruct Rcase_abs; lra.
- exact fe.
- lra.
- lra.
- simpl. lra.
- lra.
- intros j hj. unfold rsumn, qp_p, dy_p; cbn [f_A Nat.eqb]. rewrite (proj1 vm1). vals. unfold Rabs. repeat destruct Rcase_abs; lra.
- exact tb.
- split.
  + eapply Rle_trans; [apply h1; lia|]. unfold rnd. change (INR 2) with 2. rewrite ve. lra.
  + eapply Rle_trans; [apply (h2 (fun i => if Nat.eqb i 0 then 1 else 2))|].
    * intros i hi. destruct (two_cases i hi) as [->| ->]; cbn [qp_p f_l f_u Nat.eqb]; split; intros h; try discriminate h; vals; lra.
    * unfold rnd. change (INR (2 * 2)) with (2 + 1 + 1). simpl rsumn. rewrite Rabs_R1, (Rabs_pos_eq 2), ve by lra. lra.
Qed.
Definition qp_d : fqp := one_qp (fint 0) (fint (-1)) (fint 1) (fint 0) finf.
Example C103_dinf_case : f_dinf 1 1 qp_d ea2 (fun _ => fint 1).
Proof.
exists (fun _ => fmul (fint 1) (fint 1)). eexists. exists (fun _ => fmul (fint 0) (fint 1)). do 2 eexists.
split; [intros i hi; apply dot_one|]. split; [intros _; reflexivity|]. split; [intros i hi; apply dot_one|]. split; [intros _; reflexivity|].
split; [apply dot_one|]. split; [vm_compute; reflexivity|]. split; [vm_compute; reflexivity|]. intros i hi. vm_compute. reflexivity.
Qed.
(** All hypotheses of C103_dual hold with D = T = 1. *)
Example C103_dual_case : rsumn 1 (fun k => val (f_q qp_d k) * val (fint 1)) <= / 1000 /\ - / 1000 <= rsumn 1 (fun k => val (f_A qp_d 0%nat k) * val (fint 1)).
Proof.
destruct ea2_val as [ve fe]. pose proof b900 as b9.
assert (e1 : bpow radix2 (-1074) <= / 1048576) by (replace (/ 1048576) with (bpow radix2 (-20)) by (simpl; lra); apply bpow_le; lia).
pose proof (bpow_ge_0 radix2 (-1074)) as e0.
destruct (C103_dual 1 1 qp_d ea2 (fun _ => fint 1) 1 1) as [_ [h2 h3]].
- exact C103_dinf_case.
- intros i hi. split; [right; apply v0|now left].
- intros; apply v1.
- intros; apply v0.
- intros; apply vm1.
- intros. split; [apply v1|]. vals. rewrite Rabs_R1. lra.
- exact fe.
- lra.
- lra.
- simpl. lra.
- lra.
- intros j hj. unfold rsumn, qp_d, one_qp; cbn [f_P]. vals. rewrite Rmult_0_l, Rabs_R0. lra.
- intros j hj. unfold rsumn, qp_d, one_qp; cbn [f_A]. vals. rewrite Rmult_1_l, Rabs_R1. lra.
- unfold rsumn, qp_d, one_qp; cbn [f_q]. rewrite (proj1 vm1). vals. unfold Rabs. destruct Rcase_abs; lra.
- split.
  + eapply Rle_trans; [exact h2|]. unfold rnd. change (INR 1) with 1. rewrite ve. lra.
  + destruct (h3 0%nat ltac:(lia)) as [_ h]. eapply Rle_trans; [|apply h; apply v0]. unfold rnd. change (INR 1) with 1. rewrite ve. lra.
Qed.
(** C103_stalled for min -x subject to x >= 0, with dx = 0. *)
Example C103_stalled_case : f_dinf 1 1 qp_d ea2 (fun _ => fint 0).
Proof.
apply C103_stalled.
- apply ea2_val.
- intros; apply v1.
- intros; apply v0.
- intros; apply vm1.
- intros j _. split; apply v0.
- intros i _. now left.
Qed.
Print Assumptions C103_primal.
Print Assumptions C103_overflow_refuted.
