(** Concrete cases for C104. *)
From Coq Require Import Reals ZArith Lia Lra List Bool Permutation.
From Flocq Require Import Core BinarySingleNaN Relative.
From Verif Require Import LoopModel LoopFacts FPidModel FPidFacts FPidOut FQpModel FQpFacts FQpProps FQpCases FInfModel FInfProps
  FScaleModel FScaleProps.
Import ListNotations.
Open Scope R_scope.

(** The problem of C102: one round of scaling, the cost factor is the double next to 1/3. *)
Definition third : b64 := fdiv (fint 1) (fint 3).
Definition start2 : fscal := FScal third (fun _ => fint 1) (fun _ => fint 1).
Example C104_scale_case : f_scale 2 1 qp2 (f_loop 10 2 1 qp2 start2).
Proof.
exists (fadd (fmul (fint 1) (fint 1)) (fmul (fint 1) (fint 1))), (fnorm 2 (f_q qp2)). split; [|split; [intros _; reflexivity|]].
- assert (c : forall j, (j < 2)%nat -> f_cost_col 2 qp2 j = fint 1).
  { intros j hj. destruct (two_cases j hj) as [->| ->]; apply B2SF_inj; vm_compute; reflexivity. }
  simpl map. rewrite (c 0%nat), (c 1%nat) by lia. eapply dot_add; [apply dot_one|apply dot_one|apply Permutation_refl].
- unfold start2. do 2 f_equal.
Qed.
Example C104_factors_case : let s := f_loop 10 2 1 qp2 start2 in
  fs_c s = third /\ fs_x s 0%nat = fint 1 /\ fs_x s 1%nat = fint 1 /\ fs_y s 0%nat = fint 1.
Proof.
intros s. split; [apply loop_c|]. assert (E : s = f_round 2 1 qp2 start2).
{ unfold s. change (f_loop 10 2 1 qp2 start2) with
    (if flt f_tenth (f_spread 2 1 qp2 start2) then f_loop 9 2 1 qp2 (f_round 2 1 qp2 start2) else f_round 2 1 qp2 start2).
  replace (flt f_tenth (f_spread 2 1 qp2 start2)) with false by (vm_compute; reflexivity). reflexivity. }
rewrite E. repeat split; apply B2SF_inj; vm_compute; reflexivity.
Qed.
Lemma p137 e : (2 <= e)%Z -> 3 <= bpow radix2 e.
Proof. intros h. apply Rle_trans with (bpow radix2 2); [simpl; lra|now apply bpow_le]. Qed.
Lemma data2 e : (2 <= e)%Z -> (forall i j, Rabs (val (f_P qp2 i j)) <= bpow radix2 e) /\ (forall i j, Rabs (val (f_A qp2 i j)) <= bpow radix2 e) /\
  (forall j, Rabs (val (f_q qp2 j)) <= bpow radix2 e).
Proof.
intros h. pose proof (p137 e h). unfold qp2; cbn [f_P f_A f_q]. split; [|split].
- intros i j. destruct (Nat.eqb i j); vals; unfold Rabs; destruct Rcase_abs; lra.
- intros i j. vals. unfold Rabs; destruct Rcase_abs; lra.
- intros j. destruct (Nat.eqb j 0); vals; unfold Rabs; destruct Rcase_abs; lra.
Qed.
Example C104_range_case : let s := f_loop 10 2 1 qp2 start2 in bpow radix2 (-3) <= val (fs_c s) <= bpow radix2 20 /\
  bpow radix2 (-165) <= val (fs_x s 0%nat) <= bpow radix2 154.
Proof.
intros s. destruct C102_finite_case as (fA & fP & fq & _). destruct (data2 2 ltac:(lia)) as (h1 & h2 & h3).
destruct (C104_range 2 1 qp2 s 2 C104_scale_case) as [[_ a] [b _]]; [lia|simpl; lra|lia|intros; split; auto..|].
split; [exact a|]. apply (b 0%nat). lia.
Qed.

(** A complete answer: the point (1, 2) in the scaled variables, multiplier 1/3 before unscaling, 1 after. *)
Definition s2 : fscal := f_loop 10 2 1 qp2 start2.
Lemma s2_round : s2 = f_round 2 1 qp2 start2.
Proof.
unfold s2. change (f_loop 10 2 1 qp2 start2) with
  (if flt f_tenth (f_spread 2 1 qp2 start2) then f_loop 9 2 1 qp2 (f_round 2 1 qp2 start2) else f_round 2 1 qp2 start2).
replace (flt f_tenth (f_spread 2 1 qp2 start2)) with false by (vm_compute; reflexivity). reflexivity.
Qed.
Definition x4 : fvec := fun j => if Nat.eqb j 0 then fint 1 else fint 2.
Definition y4 : fvec := fun _ => third.
Definition prim4 : fvec := f_x_us (fs_x s2) x4.
Definition dual4 : fvec := f_y_us (fs_c s2) (fs_y s2) y4.
Lemma p40 : prim4 0%nat = fint 1. Proof. unfold prim4. rewrite s2_round. apply B2SF_inj; vm_compute; reflexivity. Qed.
Lemma p41 : prim4 1%nat = fint 2. Proof. unfold prim4. rewrite s2_round. apply B2SF_inj; vm_compute; reflexivity. Qed.
Lemma d40 : dual4 0%nat = fint 1. Proof. unfold dual4. rewrite s2_round. apply B2SF_inj; vm_compute; reflexivity. Qed.
Lemma z40 : f_z_us (fs_y s2) (f_clamp (fs_y s2) qp2 w2) 0%nat = fint 3. Proof. rewrite s2_round. apply B2SF_inj; vm_compute; reflexivity. Qed.
Example C104_returns_case : f_returns 2 1 qp2 ea2 ea2 (fs_c s2) (fs_x s2) (fs_y s2) x4 y4 w2 prim4 dual4.
Proof.
split; [reflexivity|]. split; [reflexivity|]. fold prim4. fold dual4.
set (two := fun (M : fmat) (i : nat) => fadd (fmul (M i 0%nat) (prim4 0%nat)) (fmul (M i 1%nat) (prim4 1%nat))).
exists (fun i => ffma (f_A qp2 i 1%nat) (prim4 1%nat) (fmul (f_A qp2 i 0%nat) (prim4 0%nat))), (two (f_P qp2)),
  (fun j => fmul (f_A qp2 0%nat j) (dual4 0%nat)).
do 7 eexists.
split; [intros i hi; eapply dot_fma; [apply dot_one|apply perm_swap]|].
split; [intros _; reflexivity|]. split; [intros _; reflexivity|]. split; [intros _; reflexivity|].
split; [unfold prim4; rewrite s2_round; vm_compute; reflexivity|].
split; [intros i hi; eapply dot_add; [apply dot_one|apply dot_one|apply Permutation_refl]|].
split; [intros i hi; apply dot_one|].
split; [intros _; reflexivity|]. split; [intros _; reflexivity|]. split; [intros _; reflexivity|]. split; [intros _; reflexivity|].
unfold two, dual4, prim4. rewrite s2_round. vm_compute. reflexivity.
Qed.
Example C104_answer_case :
  rsumn 2 (fun j => val (f_A qp2 0%nat j) * val (prim4 j)) <= 3 + / 200 /\
  Rabs (rsumn 2 (fun k => val (f_P qp2 0%nat k) * val (prim4 k)) + val (f_q qp2 0%nat) + rsumn 1 (fun i => val (f_A qp2 i 0%nat) * val (dual4 i))) <= / 200.
Proof.
pose proof b600 as b6. pose proof b900 as b9. destruct ea2_val as [ve fe].
assert (e1 : bpow radix2 (-1074) <= / 1048576) by (replace (/ 1048576) with (bpow radix2 (-20)) by (simpl; lra); apply bpow_le; lia).
assert (e2 : bpow radix2 (-1073) <= / 1048576) by (replace (/ 1048576) with (bpow radix2 (-20)) by (simpl; lra); apply bpow_le; lia).
assert (e3 : bpow radix2 (-774) <= / 1048576) by (replace (/ 1048576) with (bpow radix2 (-20)) by (simpl; lra); apply bpow_le; lia).
destruct (data2 137 ltac:(lia)) as (d1 & d2 & d3).
destruct (C104_answer 2 1 qp2 s2 ea2 ea2 x4 y4 w2 prim4 dual4 2 3 3) as [_ [h1 h2]].
- exact C104_scale_case.
- exact C104_returns_case.
- exact C102_finite_case.
- lia.
- intros; apply d1.
- intros; apply d2.
- intros; apply d3.
- intros j hj. destruct (two_cases j hj) as [->| ->]; [rewrite p40; apply v1|rewrite p41; apply v2].
- intros i hi. replace i with 0%nat by lia. rewrite d40. apply v1.
- intros i _. unfold w2. split; [apply v4|]. vals. rewrite Rabs_pos_eq; lra.
- exact fe.
- exact fe.
- lra.
- lra.
- lia.
- lia.
- simpl. lra.
- lra.
- lra.
- split.
  + intros i hi. replace i with 0%nat by lia. rewrite z40. unfold rsumn, qp2; cbn [f_A]. rewrite p40, p41. vals. rewrite !Rmult_1_l.
    rewrite !Rabs_pos_eq by lra. lra.
  + intros j hj. destruct (two_cases j hj) as [->| ->]; unfold rsumn, qp2; cbn [f_P f_q f_A Nat.eqb]; rewrite p40, p41, !d40; vals;
    rewrite ?Rmult_1_l, ?Rmult_0_l, ?Rplus_0_l, ?Rplus_0_r; repeat split; repeat (unfold Rabs; destruct Rcase_abs); lra.
- set (tol := _ + bpow radix2 (-1073)) in h1, h2.
  assert (ht : tol <= / 201).
  { unfold tol, rnd. rewrite ve. change (INR 2) with 2. pose proof (bpow_ge_0 radix2 (-1074)). lra. }
  split.
  + specialize (h1 0%nat ltac:(lia)). unfold qp2 in h1; cbn [f_u] in h1. specialize (h1 (proj2 v3)). fold qp2 in h1.
    rewrite (proj1 v3), (Rabs_pos_eq 3) in h1 by lra. change (f_A _ 0%nat) with (f_A qp2 0%nat) in h1. lra.
  + specialize (h2 0%nat ltac:(lia)). lra.
Qed.
Print Assumptions C104_range.
Print Assumptions C104_answer.
Print Assumptions C104_overflow_refuted.
