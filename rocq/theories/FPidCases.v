(** Cases and refutations for C99. *)
From Coq Require Import Reals ZArith Lia Lra List Bool.
From Flocq Require Import Core BinarySingleNaN.
From Verif Require Import LoopModel LoopFacts FPidModel FPidFacts FPidProps.
Import ListNotations.
Local Open Scope R_scope.

(** A call at time t with error e; trajectory and velocity at rest. *)
Definition at_rest (t e : b64) : fcall := FCall t (fun _ => e) (fun _ => fint 0) (fun _ => fint 0) (fun _ => fint 0).
Definition minf : b64 := B754_infinity true.

(** Limit 1; infinite errors of both signs, a time that is not a number, a repeated time, a changed gain and a reset. *)
Definition wild : list fop :=
  [PCall (at_rest (fint 0) finf); PCall (at_rest (fint 1) finf); PCall (at_rest B754_nan (fint 5)); PCall (at_rest (fint 2) (fint 5));
   PKi (fun _ => fint 3); PCall (at_rest (fint 2) (fint 5)); PCall (at_rest (fint 3) minf)].
Lemma small_time n : (0 <= n <= 2 ^ 53)%Z -> time_ok (fint n).
Proof.
intros h. right. destruct (fint_val n h) as [e f]. split; [exact f|]. rewrite e, Rabs_pos_eq by (apply IZR_le; lia).
apply Rle_trans with (bpow radix2 53); [|apply bpow_le; lia]. rewrite bp53. change 9007199254740992 with (IZR (2 ^ 53)). apply IZR_le. lia.
Qed.
Example C99_bounded_case : (forall k o, In o wild -> num_op k o) /\ fin (fint 1) /\ 0 <= val (fint 1) /\
  B2SF (f_i (f_run (fpid_new (fint 1)) (firstn 2 wild)) 0%nat) = B2SF (fint 1) /\
  B2SF (f_i (f_run (fpid_new (fint 1)) wild) 0%nat) = B2SF (fneg (fint 1)).
Proof.
split; [|split; [reflexivity|split; [destruct (fint_val 1 ltac:(lia)) as [-> _]; lra|split; reflexivity]]].
intros k o h. unfold wild in h. cbn [In] in h.
repeat destruct h as [<-|h]; try contradiction; try exact I; (split; [|easy]); try (apply small_time; lia). left. reflexivity.
Qed.

(** One wrong measurement at time 1 and correct ones before and after; default gains (ki = 0), limit 1. *)
Definition glitch : list fop := [PCall (at_rest (fint 0) (fint 1)); PCall (at_rest (fint 1) B754_nan); PKi (fun _ => fint 0)].
Example C99_nan_case : f_last (f_run (fpid_new (fint 1)) (firstn 1 glitch)) = Some (fint 0) /\ flt (fint 0) (fint 1) = true /\
  nan (B754_nan : b64) /\ ~ In PReset (skipn 2 glitch) /\
  nan (snd (f_call (f_run (fpid_new (fint 1)) glitch) (at_rest (fint 2) (fint 0))) 0%nat).
Proof. repeat (split; [try reflexivity|]); try reflexivity. now intros [|[]]. Qed.

(** The claim that a call made with finite data and finite gains returns a number is false: the controller keeps what an
    earlier call has left behind, also when its integral gain is 0. *)
Definition finite_call (c : fcall) : Prop := fin (c_t c) /\ forall k, fin (c_err c k) /\ fin (c_ades c k) /\ fin (c_vdes c k) /\ fin (c_v c k).
Theorem C99_refuted : exists (w : b64) (h : list fop) (c : fcall), fin w /\ 0 <= val w /\
  (forall k, f_ki (f_run (fpid_new w) h) k = fint 0) /\ finite_call c /\ nan (snd (f_call (f_run (fpid_new w) h) c) 0%nat) /\
  (forall h', ~ In PReset h' -> nan (snd (f_call (f_run (fpid_new w) (h ++ h')) c) 0%nat)).
Proof.
exists (fint 1), glitch, (at_rest (fint 2) (fint 0)).
split; [reflexivity|]. split; [destruct (fint_val 1 ltac:(lia)) as [-> _]; lra|]. split; [reflexivity|].
split; [now repeat split|]. split; [reflexivity|].
intros h' hr. change (glitch ++ h') with (firstn 1 glitch ++ PCall (at_rest (fint 1) B754_nan) :: (PKi (fun _ => fint 0) :: h')).
apply C99_nan with (fint 0); try reflexivity. intros [|h]; [easy|now apply hr].
Qed.
(** Also when all data of all calls is finite, with the default parameters (limit infinity): the integral can overflow, and
    0 times infinity is not a number. *)
Definition huge : list fop := [PCall (at_rest (fint 0) (fint 0)); PCall (at_rest (fint 2) (fint (2 ^ 1023)))].
Theorem C99_overflow_refuted : exists (h : list fop) (c : fcall),
  (forall o, In o h -> match o with PCall c1 => finite_call c1 | _ => False end) /\ finite_call c /\
  f_i (f_run (fpid_new finf) h) 0%nat = finf /\ nan (snd (f_call (f_run (fpid_new finf) h) c) 0%nat).
Proof.
exists huge, (at_rest (fint 3) (fint 0)). split; [|split; [now repeat split|]].
- intros o [<-|[<-|[]]]; repeat split.
- split; [|vm_compute; reflexivity]. apply B2SF_inj. vm_compute. reflexivity.
Qed.

(** Error 1/3 (not a double) during two steps of length 1 with limit 1: the bound is 3 * (2^-53 + 2^-1074) + 2^-51 * 2/3. *)
Definition third : b64 := fdiv (fint 1) (fint 3).
Lemma third_mild : mild third /\ 0 <= val third.
Proof.
destruct (fint_val 1 ltac:(lia)) as [e1 f1]. destruct (fint_val 3 ltac:(lia)) as [e3 f3].
destruct (fdiv_val (fint 1) (fint 3) f1) as [e f].
- rewrite e3. lra.
- rewrite e1, e3. split; [lra|]. apply Rle_trans with (bpow radix2 0); [simpl; lra|apply bpow_le; lia].
- split; [split; [exact f|]|]; unfold third; rewrite e, e1, e3.
  + apply abs_round_le_generic; auto with typeclass_instances; [apply bpow_fmt; lia|].
    rewrite Rabs_pos_eq by lra. apply Rle_trans with (bpow radix2 0); [simpl; lra|apply bpow_le; lia].
  + apply RN_pos. lra.
Qed.
Lemma mild_int n : (0 <= n <= 2 ^ 53)%Z -> mild (fint n).
Proof.
intros h. destruct (fint_val n h) as [e f]. split; [exact f|]. rewrite e, Rabs_pos_eq by (apply IZR_le; lia).
apply Rle_trans with (bpow radix2 53); [|apply bpow_le; lia]. rewrite bp53. change 9007199254740992 with (IZR (2 ^ 53)). apply IZR_le. lia.
Qed.
Definition steps3 : list fop := [PCall (at_rest (fint 0) third); PCall (at_rest (fint 1) third); PCall (at_rest (fint 2) third)].
Example C99_accuracy_case : mild (fint 1) /\ 0 <= val (fint 1) /\ (forall k o, In o steps3 -> mild_op k o) /\
  ncalls steps3 = 3%nat /\ work 0 None steps3 = 2 * val third /\
  (val third <= 1 / 2 -> exact_int (val (fint 1)) 0 steps3 = 2 * val third).
Proof.
destruct third_mild as [h3 p3]. destruct (fint_val 1 ltac:(lia)) as [e1 f1]. destruct (fint_val 2 ltac:(lia)) as [e2 f2].
split; [apply mild_int; lia|]. split; [rewrite e1; lra|]. split.
- intros k o [<-|[<-|[<-|[]]]]; (split; [apply mild_int; lia|exact h3]).
- split; [reflexivity|]. split.
  + unfold steps3, work. cbn [at_rest c_t c_err]. change (val (fint 0)) with 0. rewrite e1, e2.
    rewrite !Rabs_mult, !(Rabs_pos_eq (val third)) by exact p3. rewrite !Rabs_pos_eq by lra. ring.
  + intros ht. unfold exact_int, steps3. cbn [fold_left exact_step fst snd at_rest c_t c_err]. change (val (fint 0)) with 0. rewrite e1, e2.
    destruct (Rlt_dec 0 1); [|lra]. destruct (Rlt_dec 1 2); [|lra]. unfold rclamp.
    rewrite (Rmax_left (0 + (1 - 0) * val third)) by lra. rewrite (Rmin_left (0 + (1 - 0) * val third)) by lra.
    rewrite Rmax_left by lra. rewrite Rmin_left by lra. ring.
Qed.
