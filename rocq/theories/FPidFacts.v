(** Facts about the operations of the PID controller in double arithmetic. *)
From Coq Require Import Reals ZArith Lia Lra List Bool.
From Flocq Require Import Core BinarySingleNaN Relative Plus_error.
From Verif Require Import LoopModel LoopFacts FPidModel.
Import ListNotations.
Local Open Scope R_scope.

Definition nan (x : b64) : Prop := is_nan x = true.
Definition big : R := bpow radix2 1024.

Lemma nan_fin x : nan x -> ~ fin x. Proof. destruct x; easy. Qed.
Lemma ovf_inf (z : b64) s : B2SF z = binary_overflow 53 1024 mode_NE s -> z = B754_infinity s.
Proof. unfold binary_overflow, overflow_to_inf. simpl. destruct z; try easy. simpl. now intros [= ->]. Qed.

Lemma mul_cases x y : fin x -> fin y ->
  (val (fmul x y) = RN (val x * val y) /\ fin (fmul x y)) \/ (exists s, fmul x y = B754_infinity s).
Proof.
intros hx hy. pose proof (Bmult_correct 53 1024 p53_gt0 p53_lt mode_NE x y) as h.
destruct (Rlt_bool _ _) in h.
- left. destruct h as [h1 [h2 _]]. split; [exact h1|]. unfold fin, fmul. rewrite h2. unfold fin in *. now rewrite hx, hy.
- right. eexists. apply ovf_inf. exact h.
Qed.
Lemma add_cases x y : fin x -> fin y ->
  (val (fadd x y) = RN (val x + val y) /\ fin (fadd x y)) \/ (exists s, fadd x y = B754_infinity s).
Proof.
intros hx hy. pose proof (Bplus_correct 53 1024 p53_gt0 p53_lt mode_NE x y hx hy) as h.
destruct (Rlt_bool _ _) in h.
- left. destruct h as [h1 [h2 _]]. now split.
- right. eexists. apply ovf_inf. apply h.
Qed.
Lemma in_range x : Rabs x <= bpow radix2 1023 -> Rabs (RN x) < big.
Proof.
intros h. unfold big. apply Rle_lt_trans with (bpow radix2 1023); [|apply bpow_lt; lia].
apply abs_round_le_generic; auto with typeclass_instances. apply bpow_fmt. lia.
Qed.
Lemma add_val x y : fin x -> fin y -> Rabs (val x + val y) <= bpow radix2 1023 -> val (fadd x y) = RN (val x + val y) /\ fin (fadd x y).
Proof.
intros hx hy h. pose proof (Bplus_correct 53 1024 p53_gt0 p53_lt mode_NE x y hx hy) as g.
rewrite Rlt_bool_true in g by (apply in_range; exact h). destruct g as [g1 [g2 _]]. now split.
Qed.
Lemma sub_val x y : fin x -> fin y -> Rabs (val x - val y) <= bpow radix2 1023 -> val (fsub x y) = RN (val x - val y) /\ fin (fsub x y).
Proof.
intros hx hy h. pose proof (Bminus_correct 53 1024 p53_gt0 p53_lt mode_NE x y hx hy) as g.
rewrite Rlt_bool_true in g by (apply in_range; exact h). destruct g as [g1 [g2 _]]. now split.
Qed.
Lemma mul_val x y : fin x -> fin y -> Rabs (val x * val y) <= bpow radix2 1023 -> val (fmul x y) = RN (val x * val y) /\ fin (fmul x y).
Proof.
intros hx hy h. pose proof (Bmult_correct 53 1024 p53_gt0 p53_lt mode_NE x y) as g.
rewrite Rlt_bool_true in g by (apply in_range; exact h). destruct g as [g1 [g2 _]]. split; [exact g1|].
unfold fin, fmul. rewrite g2. unfold fin in *. now rewrite hx, hy.
Qed.
Lemma neg_val x : fin x -> val (fneg x) = - val x /\ fin (fneg x).
Proof. intros h. split; [apply B2R_Bopp|]. unfold fin, fneg. now rewrite is_finite_Bopp. Qed.

(** Gradual underflow: later times have a positive difference. *)
Lemma dt_pos t tl : fin t -> fin tl -> flt tl t = true -> Rabs (val t) <= bpow radix2 1022 -> Rabs (val tl) <= bpow radix2 1022 ->
  fin (fsub t tl) /\ 0 < val (fsub t tl).
Proof.
intros ht hl h b1 b2. apply flt_val in h; [|assumption..].
assert (Rabs (val t - val tl) <= bpow radix2 1023) as hb.
{ apply Rabs_le. apply Rabs_le_inv in b1. apply Rabs_le_inv in b2.
  replace (bpow radix2 1023) with (2 * bpow radix2 1022); [lra|]. change 1023%Z with (1 + 1022)%Z. rewrite bpow_plus. reflexivity. }
destruct (sub_val t tl ht hl hb) as [e f]. split; [exact f|]. rewrite e.
destruct (fmt_int _ (val_fmt t)) as [a ha]. destruct (fmt_int _ (val_fmt tl)) as [b hb'].
apply Rlt_le_trans with (bpow radix2 (-1074)); [apply bpow_gt_0|].
rewrite <- (RN_id (bpow radix2 (-1074))) by (apply bpow_fmt; lia). apply RN_le.
rewrite ha, hb' in h |- *. rewrite <- Rmult_minus_distr_r, <- minus_IZR.
rewrite <- (Rmult_1_l (bpow radix2 (-1074))) at 1. apply Rmult_le_compat_r; [apply bpow_ge_0|].
apply IZR_le. assert (b < a)%Z; [|lia]. apply lt_IZR. apply Rmult_lt_reg_r with (2 := h). apply bpow_gt_0.
Qed.

(** A positive finite number times a number is a number; a finite number plus a number is a number. *)
Lemma mul_num x e : fin x -> 0 < val x -> ~ nan e -> ~ nan (fmul x e).
Proof.
intros hx px he. destruct (is_finite e) eqn:fe.
- destruct (mul_cases x e hx fe) as [[_ f]|[s ->]]; [|easy]. intros n. now apply (nan_fin _ n).
- destruct e; try easy; [|now exfalso; apply he]. destruct x; try easy. simpl in px. lra.
Qed.
Lemma add_num x e : fin x -> ~ nan e -> ~ nan (fadd x e).
Proof.
intros hx he. destruct (is_finite e) eqn:fe.
- destruct (add_cases x e hx fe) as [[_ f]|[s ->]]; [|easy]. intros n. now apply (nan_fin _ n).
- destruct e; try easy; [|now exfalso; apply he]. now destruct x.
Qed.

Definition rclamp (w x : R) : R := Rmin (Rmax x (- w)) w.
(** The limiter on numbers and on infinities. *)
Lemma clamp_fin w x : fin w -> fin x -> fin (fmin (fmax x (fneg w)) w) /\ val (fmin (fmax x (fneg w)) w) = rclamp (val w) (val x).
Proof.
intros hw hx. destruct (neg_val w hw) as [en fn].
assert (fin (fmax x (fneg w)) /\ val (fmax x (fneg w)) = Rmax (val x) (- val w)) as [f1 e1].
{ unfold fmax. destruct (flt x (fneg w)) eqn:h.
  - apply flt_val in h; [|assumption..]. rewrite en in h. split; [exact fn|]. rewrite en. rewrite Rmax_right; lra.
  - apply flt_valF in h; [|assumption..]. rewrite en in h. split; [exact hx|]. rewrite Rmax_left; lra. }
unfold fmin, rclamp. rewrite <- e1. destruct (flt w _) eqn:h.
- apply flt_val in h; [|assumption..]. split; [exact hw|]. rewrite Rmin_right; lra.
- apply flt_valF in h; [|assumption..]. split; [exact f1|]. rewrite Rmin_left; lra.
Qed.
Lemma rclamp_bound w x : 0 <= w -> Rabs (rclamp w x) <= w.
Proof. intros h. unfold rclamp, Rmin, Rmax. apply Rabs_le. destruct (Rle_dec x (- w)); destruct (Rle_dec _ w); lra. Qed.
Lemma rclamp_lip w x y : Rabs (rclamp w x - rclamp w y) <= Rabs (x - y).
Proof.
unfold rclamp, Rmin, Rmax. unfold Rabs.
destruct (Rle_dec x (- w)); destruct (Rle_dec y (- w));
repeat match goal with |- context [Rle_dec ?a ?b] => destruct (Rle_dec a b) end;
repeat match goal with |- context [Rcase_abs ?a] => destruct (Rcase_abs a) end; lra.
Qed.
Lemma clamp_num w x : fin w -> 0 <= val w -> ~ nan x ->
  fin (fmin (fmax x (fneg w)) w) /\ Rabs (val (fmin (fmax x (fneg w)) w)) <= val w.
Proof.
intros hw pw hx. destruct (is_finite x) eqn:fx.
- destruct (clamp_fin w x hw fx) as [h ->]. split; [exact h|]. now apply rclamp_bound.
- destruct x as [|s| |]; try easy; [|now exfalso; apply hx].
  destruct (neg_val w hw) as [en fn].
  assert (fmax (B754_infinity s) (fneg w) = if s then fneg w else B754_infinity false) as ->.
  { unfold fmax, flt. destruct s; destruct w; try easy. }
  destruct s.
  + unfold fmin. destruct (flt w (fneg w)).
    * split; [exact hw|]. rewrite Rabs_pos_eq; lra.
    * split; [exact fn|]. rewrite en, Rabs_Ropp, Rabs_pos_eq; lra.
  + assert (fmin (B754_infinity false) w = w) as -> by (unfold fmin, flt; destruct w; easy).
    split; [exact hw|]. rewrite Rabs_pos_eq; lra.
Qed.

(** NaN goes through every operation. *)
Lemma nan_add_l x y : nan x -> nan (fadd x y). Proof. destruct x, y; easy. Qed.
Lemma nan_add_r x y : nan y -> nan (fadd x y). Proof. destruct x, y; easy. Qed.
Lemma nan_mul_r x y : nan y -> nan (fmul x y). Proof. destruct x, y; easy. Qed.
Lemma nan_clamp w x : nan x -> nan (fmin (fmax x (fneg w)) w).
Proof. destruct x; try easy. intros _. unfold fmax, fmin, flt. destruct w; easy. Qed.

(** Rounding errors. *)
Definition ulp1 : R := bpow radix2 (-53).
Lemma RN_err x : exists d h, Rabs d <= ulp1 /\ Rabs h <= bpow radix2 (-1075) /\ RN x = x * (1 + d) + h.
Proof.
destruct (error_N_FLT radix2 (-1074) 53 ltac:(lia) (fun n => negb (Z.even n)) x) as [d [h [h1 [h2 [_ h4]]]]].
exists d, h. split; [|split; [|exact h4]].
- eapply Rle_trans; [exact h1|]. unfold ulp1, u_ro. simpl. lra.
- eapply Rle_trans; [exact h2|]. change (-1075)%Z with (-1 + -1074)%Z. rewrite bpow_plus. simpl (bpow radix2 (-1)). lra.
Qed.
