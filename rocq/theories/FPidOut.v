(** Property C99: accuracy of the control returned in double arithmetic. *)
From Coq Require Import Reals ZArith Lia Lra List Bool.
From Flocq Require Import Core BinarySingleNaN Relative Plus_error.
From Verif Require Import LoopModel LoopFacts FPidModel FPidFacts FPidProps FPidCases.
Import ListNotations.
Local Open Scope R_scope.

Lemma ulp1_val : ulp1 = / 9007199254740992. Proof. unfold ulp1. simpl. lra. Qed.
Lemma prod_le a b A B : Rabs a <= A -> Rabs b <= B -> Rabs (a * b) <= A * B.
Proof. intros h1 h2. rewrite Rabs_mult. apply Rmult_le_compat; auto using Rabs_pos. Qed.
(** A product of values, rounded. *)
Lemma mul_lin x y : fin x -> fin y -> Rabs (val x * val y) <= bpow radix2 1002 ->
  fin (fmul x y) /\ Rabs (val (fmul x y) - val x * val y) <= / 9007199254740992 * Rabs (val x * val y) + bpow radix2 (-1075).
Proof.
intros hx hy hb. destruct (mul_val x y hx hy) as [e f].
{ eapply Rle_trans; [exact hb|]. apply bpow_le. lia. }
split; [exact f|]. rewrite e. destruct (RN_err (val x * val y)) as [d [h [hd [hh E]]]]. rewrite E, <- ulp1_val.
set (z := val x * val y) in *. replace (z * (1 + d) + h - z) with (d * z + h) by ring.
eapply Rle_trans; [apply Rabs_triang|]. apply Rplus_le_compat; [|exact hh]. apply prod_le; [exact hd|lra].
Qed.
Lemma add_lin x y : fin x -> fin y -> Rabs (val x + val y) <= bpow radix2 1023 ->
  fin (fadd x y) /\ Rabs (val (fadd x y) - (val x + val y)) <= / 9007199254740992 * Rabs (val x + val y).
Proof.
intros hx hy hb. destruct (add_val x y hx hy hb) as [e f]. split; [exact f|]. rewrite e.
destruct (add_err _ _ (val_fmt x) (val_fmt y)) as [d [hd E]]. rewrite E, <- ulp1_val.
set (z := val x + val y) in *. replace (z * (1 + d) - z) with (d * z) by ring. apply prod_le; [exact hd|lra].
Qed.
Lemma sub_lin x y : fin x -> fin y -> Rabs (val x - val y) <= bpow radix2 1023 ->
  fin (fsub x y) /\ Rabs (val (fsub x y) - (val x - val y)) <= / 9007199254740992 * Rabs (val x - val y).
Proof.
intros hx hy hb. destruct (sub_val x y hx hy hb) as [e f]. split; [exact f|]. rewrite e.
destruct (sub_err _ _ (val_fmt x) (val_fmt y)) as [d [hd E]]. rewrite E, <- ulp1_val.
set (z := val x - val y) in *. replace (z * (1 + d) - z) with (d * z) by ring. apply prod_le; [exact hd|lra].
Qed.

(** For data of moderate size the control is finite, and it is a_des + kp e + kd (v_des - v) + ki i up to a relative error of
    2^-50 of the sum of the absolute values of the terms. *)
Theorem C99_output (s : fpid) (c : fcall) (k : nat) :
  let s' := fst (f_call s c) in let u := snd (f_call s c) in
  mild (c_ades c k) -> mild (f_kp s k) -> mild (c_err c k) -> mild (f_kd s k) -> mild (c_vdes c k) -> mild (c_v c k) ->
  mild (f_ki s k) -> mild (f_i s' k) ->
  let a := val (c_ades c k) in let p := val (f_kp s k) * val (c_err c k) in
  let d := val (f_kd s k) * (val (c_vdes c k) - val (c_v c k)) in let i := val (f_ki s k) * val (f_i s' k) in
  fin (u k) /\ Rabs (val (u k) - (a + p + d + i)) <= bpow radix2 (-50) * (Rabs a + Rabs p + Rabs d + Rabs i) + bpow radix2 (-1072).
Proof.
intros s' u [fa ba] [fp bp] [fe be] [fd bd] [fvd bvd] [fv bv] [fi bi] [fk bk] a p d i.
set (ik := f_i s' k) in *.
destruct bp_mild as [_ [b2 b3]].
assert (bpow radix2 500 * bpow radix2 500 = bpow radix2 1000) as b1 by (rewrite <- bpow_plus; reflexivity).
set (h := bpow radix2 (-1075)). assert (0 < h) as h0 by apply bpow_gt_0.
assert (bpow radix2 (-1072) = 8 * h) as h8.
{ unfold h. change (-1072)%Z with (3 + -1075)%Z. rewrite bpow_plus. reflexivity. }
assert (h <= 1) as h1. { change 1 with (bpow radix2 0). apply bpow_le. lia. }
set (M := bpow radix2 1001). assert (1 <= M) as M1. { change 1 with (bpow radix2 0). apply bpow_le. lia. }
assert (bpow radix2 1002 = 2 * M) as M2. { unfold M. change 1002%Z with (1 + 1001)%Z. rewrite bpow_plus. reflexivity. }
assert (bpow radix2 1000 * 2 = M) as M0. { unfold M. change 1001%Z with (1000 + 1)%Z. rewrite bpow_plus. reflexivity. }
assert (32 * M <= bpow radix2 1023) as M3.
{ apply Rle_trans with (bpow radix2 1006); [|apply bpow_le; lia]. change 1006%Z with (5 + 1001)%Z. rewrite bpow_plus. fold M. simpl (bpow radix2 5). lra. }
assert (bpow radix2 (-50) = 8 * / 9007199254740992) as e50 by (simpl; lra).
assert (bpow radix2 500 <= bpow radix2 501) as b4 by (apply bpow_le; lia).
assert (bpow radix2 501 <= M) as b5 by (apply bpow_le; lia).
assert (Rabs p <= M) as hp. { eapply Rle_trans; [apply prod_le; eassumption|]. rewrite b1. lra. }
assert (Rabs i <= M) as hi. { eapply Rle_trans; [apply prod_le; eassumption|]. rewrite b1. lra. }
set (v := val (c_vdes c k) - val (c_v c k)) in *.
assert (Rabs v <= bpow radix2 501) as hv. { apply Rabs_le. apply Rabs_le_inv in bvd. apply Rabs_le_inv in bv. unfold v. lra. }
assert (Rabs d <= M) as hd. { eapply Rle_trans; [apply prod_le; eassumption|]. rewrite Rmult_comm. fold M in b3. lra. }
destruct (mul_lin _ _ fp fe) as [f1 e1]. { fold p. lra. } fold p in e1. fold h in e1.
destruct (sub_lin _ _ fvd fv) as [f2 e2]. { fold v. lra. } fold v in e2.
destruct (mul_lin _ _ fi fk) as [f3 e3]. { fold i. lra. } fold i in e3. fold h in e3.
set (m1 := fmul (f_kp s k) (c_err c k)) in *. set (w := fsub (c_vdes c k) (c_v c k)) in *. set (m3 := fmul (f_ki s k) ik) in *.
(* kd (v_des - v) *)
assert (Rabs (val (f_kd s k) * val w - d) <= / 9007199254740992 * Rabs d) as e4.
{ unfold d. replace (val (f_kd s k) * val w - val (f_kd s k) * v) with (val (f_kd s k) * (val w - v)) by ring.
  rewrite !Rabs_mult. replace (/ 9007199254740992 * (Rabs (val (f_kd s k)) * Rabs v)) with (Rabs (val (f_kd s k)) * (/ 9007199254740992 * Rabs v)) by ring.
  apply Rmult_le_compat_l; [apply Rabs_pos|exact e2]. }
set (dw := val (f_kd s k) * val w) in *.
assert (Rabs dw <= Rabs d + / 9007199254740992 * Rabs d) as e5.
{ replace dw with (d + (dw - d)) by ring. eapply Rle_trans; [apply Rabs_triang|]. lra. }
pose proof (Rabs_pos a). pose proof (Rabs_pos p). pose proof (Rabs_pos d). pose proof (Rabs_pos i).
destruct (mul_lin _ _ fd f2) as [f4 e6]. { fold dw. lra. } fold dw in e6. fold h in e6. set (m2 := fmul (f_kd s k) w) in *.
assert (Rabs a <= M) as ha by (unfold a; lra).
assert (forall x, - Rabs x <= x <= Rabs x) as AB. { intros x. split; [|apply Rle_abs]. apply Ropp_le_cancel. rewrite Ropp_involutive, <- Rabs_Ropp. apply Rle_abs. }
pose proof (AB a). pose proof (AB p). pose proof (AB d). pose proof (AB i). pose proof (AB dw).
apply Rabs_le_inv in e1. apply Rabs_le_inv in e3. apply Rabs_le_inv in e4. apply Rabs_le_inv in e6.
assert (Rabs (a + val m1) <= Rabs a + Rabs p + / 9007199254740992 * Rabs p + h) as g1 by (apply Rabs_le; lra).
destruct (add_lin (c_ades c k) m1 fa f1) as [f5 e7]. { fold a. lra. } fold a in e7. set (s1 := fadd (c_ades c k) m1) in *.
apply Rabs_le_inv in e7.
assert (Rabs (val s1 + val m2) <= 2 * (Rabs a + Rabs p + Rabs d) + 3 * h) as g2'. { apply Rabs_le. lra. }
assert (Rabs (val s1 + val m2) <= (1 + 4 * / 9007199254740992) * (Rabs a + Rabs p + Rabs d) + 3 * h) as g2. { apply Rabs_le. lra. }
destruct (add_lin s1 m2 f5 f4) as [f6 e8]. { lra. } set (s2 := fadd s1 m2) in *. apply Rabs_le_inv in e8.
assert (Rabs (val s2 + val m3) <= (1 + 6 * / 9007199254740992) * (Rabs a + Rabs p + Rabs d + Rabs i) + 5 * h) as g3. { apply Rabs_le. lra. }
destruct (add_lin s2 m3 f6 f3) as [f7 e9]. { lra. }
change (u k) with (fadd s2 m3). split; [exact f7|]. rewrite e50, h8. apply Rabs_le_inv in e9. apply Rabs_le. lra.
Qed.
(** The hypotheses hold for the third call of steps3 with limit 1. *)
Example C99_output_case : let s := f_run (fpid_new (fint 1)) (firstn 2 steps3) in let c := at_rest (fint 2) third in
  mild (c_ades c 0%nat) /\ mild (f_kp s 0%nat) /\ mild (c_err c 0%nat) /\ mild (f_kd s 0%nat) /\ mild (c_vdes c 0%nat) /\ mild (c_v c 0%nat) /\
  mild (f_ki s 0%nat) /\ mild (f_i (fst (f_call s c)) 0%nat).
Proof.
destruct third_mild as [h3 p3]. intros s c.
assert (mild (fint 0)) as m0 by (apply mild_int; lia). assert (mild (fint 1)) as m1 by (apply mild_int; lia).
repeat (split; [assumption|]).
destruct (C99_bounded (fint 1) steps3 0%nat) as [h1 h2].
- apply m1.
- destruct (fint_val 1 ltac:(lia)) as [-> _]. lra.
- intros o [<-|[<-|[<-|[]]]]; (split; [apply small_time; lia|intros hn; apply nan_fin in hn; apply hn, h3]).
- split; [exact h1|]. eapply Rle_trans; [exact h2|]. eapply Rle_trans; [apply Rle_abs|]. apply m1.
Qed.
Print Assumptions C99_output.
