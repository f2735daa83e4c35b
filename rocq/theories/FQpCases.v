(** A concrete run for C102: two variables, one constraint x0 + x1 <= 3, P the identity, q = (-2, -3); the solution is (1, 2)
    with multiplier 1.  The scale factors are 2 and 1/2. *)
From Coq Require Import Reals ZArith Lia Lra List Bool Permutation.
From Flocq Require Import Core BinarySingleNaN Relative.
From Verif Require Import LoopModel LoopFacts FPidModel FPidFacts FPidOut FQpModel FQpFacts FQpProps.
Import ListNotations.
Open Scope R_scope.

Definition qp2 : fqp := FQp (fun i j => if Nat.eqb i j then fint 1 else fint 0) (fun j => if Nat.eqb j 0 then fint (-2) else fint (-3))
  (fun _ _ => fint 1) (fun _ => B754_infinity true) (fun _ => fint 3).
Definition half : b64 := fdiv (fint 1) (fint 2).
Definition sx2 : fvec := fun _ => fint 2.
Definition sy2 : fvec := fun _ => half.
Definition x2 : fvec := fun j => if Nat.eqb j 0 then half else fint 1.
Definition y2 : fvec := fun _ => fint 2.
Definition w2 : fvec := fun _ => fint 4.
Definition ea2 : b64 := fdiv (fint 1) (fint 1024).
Definition prim2 : fvec := f_x_us sx2 x2.
Definition dual2 : fvec := f_y_us (fint 1) sy2 y2.
Lemma p20 : prim2 0%nat = fint 1. Proof. apply B2SF_inj; vm_compute; reflexivity. Qed.
Lemma p21 : prim2 1%nat = fint 2. Proof. apply B2SF_inj; vm_compute; reflexivity. Qed.
Lemma d20 i : dual2 i = fint 1. Proof. apply B2SF_inj; vm_compute; reflexivity. Qed.
Lemma z20 i : f_z_us sy2 (f_clamp sy2 qp2 w2) i = fint 3. Proof. apply B2SF_inj; vm_compute; reflexivity. Qed.
Lemma neg_int n : (0 <= n <= 2 ^ 53)%Z -> B2SF (fint (- n)) = B2SF (fneg (fint n)) -> val (fint (- n)) = - IZR n /\ fin (fint (- n)).
Proof. intros h e. apply B2SF_inj in e. rewrite e. destruct (fint_val n h) as [v f]. destruct (neg_val _ f) as [v2 f2]. now rewrite v2, v. Qed.

Example C102_returns_case : f_returns 2 1 qp2 ea2 ea2 (fint 1) sx2 sy2 x2 y2 w2 prim2 dual2.
Proof.
split; [reflexivity|]. split; [reflexivity|]. fold prim2. fold dual2.
set (two := fun (M : fmat) (i : nat) => fadd (fmul (M i 0%nat) (prim2 0%nat)) (fmul (M i 1%nat) (prim2 1%nat))).
exists (fun i => ffma (f_A qp2 i 1%nat) (prim2 1%nat) (fmul (f_A qp2 i 0%nat) (prim2 0%nat))), (two (f_P qp2)),
  (fun j => fmul (f_A qp2 0%nat j) (dual2 0%nat)).
do 7 eexists.
split; [intros i hi; eapply dot_fma; [apply dot_one|apply perm_swap]|].
split; [intros _; reflexivity|]. split; [intros _; reflexivity|]. split; [intros _; reflexivity|].
split; [vm_compute; reflexivity|].
split; [intros i hi; eapply dot_add; [apply dot_one|apply dot_one|apply Permutation_refl]|].
split; [intros i hi; apply dot_one|].
split; [intros _; reflexivity|]. split; [intros _; reflexivity|]. split; [intros _; reflexivity|]. split; [intros _; reflexivity|].
vm_compute. reflexivity.
Qed.
Lemma half_val : val half = / 2 /\ fin half.
Proof.
split; [|vm_compute; reflexivity]. unfold val. rewrite <- SF2R_B2SF.
replace (B2SF half) with (SpecFloat.S754_finite false 4503599627370496 (-53)) by (vm_compute; reflexivity).
unfold SF2R, F2R. simpl. lra.
Qed.
Lemma ea2_val : val ea2 = / 1024 /\ fin ea2.
Proof.
split; [|vm_compute; reflexivity]. unfold val. rewrite <- SF2R_B2SF.
replace (B2SF ea2) with (SpecFloat.S754_finite false 4503599627370496 (-62)) by (vm_compute; reflexivity).
unfold SF2R, F2R. simpl. lra.
Qed.
Lemma v0 : val (fint 0) = 0 /\ fin (fint 0). Proof. now apply fint_val. Qed.
Lemma v1 : val (fint 1) = 1 /\ fin (fint 1). Proof. now apply fint_val. Qed.
Lemma v2 : val (fint 2) = 2 /\ fin (fint 2). Proof. now apply fint_val. Qed.
Lemma v3 : val (fint 3) = 3 /\ fin (fint 3). Proof. now apply fint_val. Qed.
Lemma v4 : val (fint 4) = 4 /\ fin (fint 4). Proof. now apply fint_val. Qed.
Lemma vm2 : val (fint (-2)) = -2 /\ fin (fint (-2)). Proof. apply (neg_int 2); [lia|vm_compute; reflexivity]. Qed.
Lemma vm3 : val (fint (-3)) = -3 /\ fin (fint (-3)). Proof. apply (neg_int 3); [lia|vm_compute; reflexivity]. Qed.
Lemma two_cases (j : nat) : (j < 2)%nat -> j = 0%nat \/ j = 1%nat. Proof. lia. Qed.
Lemma b600 : 8 <= bpow radix2 400. Proof. change 8 with (bpow radix2 3). apply bpow_le. lia. Qed.
Lemma b900 : 8 <= bpow radix2 900. Proof. change 8 with (bpow radix2 3). apply bpow_le. lia. Qed.
Ltac vals := rewrite ?(proj1 v0), ?(proj1 v1), ?(proj1 v2), ?(proj1 v3), ?(proj1 v4), ?(proj1 vm2), ?(proj1 vm3).

Example C102_finite_case : finite_qp 2 1 qp2.
Proof.
split; [intros; apply v1|]. split; [|split].
- intros i j hi hj. unfold qp2; cbn [f_P]. destruct (Nat.eqb i j); [apply v1|apply v0].
- intros j hj. unfold qp2; cbn [f_q]. destruct (Nat.eqb j 0); [apply vm2|apply vm3].
- intros i _. unfold qp2; cbn [f_l f_u]. split; [now left|]. split; [|easy]. right. split; [apply v3|]. vals.
  rewrite Rabs_pos_eq by lra. pose proof b600. lra.
Qed.
Example C102_sized_case : sized 2 1 qp2 prim2 dual2 (f_z_us sy2 (f_clamp sy2 qp2 w2)) 3 3.
Proof.
split.
- intros i hi. rewrite z20. unfold rsumn, qp2; cbn [f_A]. rewrite p20, p21. vals. rewrite !Rmult_1_l.
  rewrite !Rabs_pos_eq by lra. lra.
- intros j hj. destruct (two_cases j hj) as [->| ->]; unfold rsumn, qp2; cbn [f_P f_q f_A Nat.eqb]; rewrite p20, p21, !d20; vals;
    rewrite ?Rmult_1_l, ?Rmult_0_l, ?Rplus_0_l, ?Rplus_0_r; repeat split; repeat (unfold Rabs; destruct Rcase_abs); lra.
Qed.
(** All hypotheses of C102_answer hold; the bound of the tolerance is about 1/1024 + 3/1024. *)
Example C102_answer_case :
  rsumn 2 (fun j => val (f_A qp2 0%nat j) * val (prim2 j)) <= 3 + / 200 /\
  Rabs (rsumn 2 (fun k => val (f_P qp2 0%nat k) * val (prim2 k)) + val (f_q qp2 0%nat) + rsumn 1 (fun i => val (f_A qp2 i 0%nat) * val (dual2 i))) <= / 200.
Proof.
pose proof b600 as b6. pose proof b900 as b9. destruct ea2_val as [ve fe]. destruct half_val as [vh fh].
assert (e1 : bpow radix2 (-1074) <= / 1048576) by (replace (/ 1048576) with (bpow radix2 (-20)) by (simpl; lra); apply bpow_le; lia).
assert (e2 : bpow radix2 (-1073) <= / 1048576) by (replace (/ 1048576) with (bpow radix2 (-20)) by (simpl; lra); apply bpow_le; lia).
assert (e3 : bpow radix2 (-774) <= / 1048576) by (replace (/ 1048576) with (bpow radix2 (-20)) by (simpl; lra); apply bpow_le; lia).
assert (e4 : bpow radix2 (-300) <= / 2) by (replace (/ 2) with (bpow radix2 (-1)) by (simpl; lra); apply bpow_le; lia).
assert (e5 : 1 <= bpow radix2 300) by (change 1 with (bpow radix2 0); apply bpow_le; lia).
destruct (C102_answer 2 1 qp2 ea2 ea2 (fint 1) sx2 sy2 x2 y2 w2 prim2 dual2 2 3 3) as [_ [h1 h2]].
- exact C102_returns_case.
- exact C102_finite_case.
- intros j hj. destruct (two_cases j hj) as [->| ->]; [rewrite p20; apply v1|rewrite p21; apply v2].
- intros i _. rewrite d20. apply v1.
- intros i _. unfold w2. split; [apply v4|]. vals. rewrite Rabs_pos_eq; lra.
- intros i _. unfold sy2. split; [exact fh|]. lra.
- exact fe.
- exact fe.
- lra.
- lra.
- lia.
- lia.
- simpl. lra.
- lra.
- lra.
- exact C102_sized_case.
- set (tol := _ + bpow radix2 (-1073)) in h1, h2.
  assert (ht : tol <= / 201).
  { unfold tol, rnd. rewrite ve. change (INR 2) with 2. pose proof (bpow_ge_0 radix2 (-1074)). lra. }
  split.
  + specialize (h1 0%nat ltac:(lia)). unfold qp2 in h1; cbn [f_u] in h1. specialize (h1 (proj2 v3)). fold qp2 in h1.
    rewrite (proj1 v3), (Rabs_pos_eq 3) in h1 by lra. change (f_A _ 0%nat) with (f_A qp2 0%nat) in h1. lra.
  + specialize (h2 0%nat ltac:(lia)). lra.
Qed.
Print Assumptions C102_answer.
Print Assumptions C102_overflow_refuted.
