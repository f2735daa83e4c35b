(** Lemmas on binary64 loops. *)
From Coq Require Import Reals ZArith Lia Lra List Bool.
From Flocq Require Import Core BinarySingleNaN Sterbenz Plus_error Relative.
From Verif Require Import LoopModel.
Import ListNotations.
Local Open Scope R_scope.

Notation fx := (FLT_exp (-1074) 53).
Definition RN (x : R) : R := round radix2 fx ZnearestE x.
Definition fmt (x : R) : Prop := generic_format radix2 fx x.
Definition val (x : b64) : R := B2R x.
Definition fin (x : b64) : Prop := is_finite x = true.
Global Instance vfx : Valid_exp fx := FLT_exp_valid (-1074) 53.
Global Instance mfx : Monotone_exp fx := FLT_exp_monotone (-1074) 53.
Global Instance efx : Exists_NE radix2 fx := exists_NE_FLT radix2 (-1074) 53 (or_intror eq_refl).

Lemma val_fmt x : fmt (val x).
Proof. exact (generic_format_B2R 53 1024 x). Qed.
Lemma RN_fmt x : fmt (RN x).
Proof. apply generic_format_round; auto with typeclass_instances. Qed.
Lemma RN_id x : fmt x -> RN x = x.
Proof. intros h; apply round_generic; auto with typeclass_instances. Qed.
Lemma RN_le x y : x <= y -> RN x <= RN y.
Proof. intros h; apply round_le; auto with typeclass_instances. Qed.
Lemma RN_0 : RN 0 = 0.
Proof. apply round_0; auto with typeclass_instances. Qed.
Lemma RN_pos x : 0 <= x -> 0 <= RN x.
Proof. intros h; rewrite <- RN_0; now apply RN_le. Qed.
Lemma bpow_fmt e : (-1074 <= e)%Z -> fmt (bpow radix2 e).
Proof. intros h; apply generic_format_bpow; unfold FLT_exp; lia. Qed.
Lemma big_ok x : 0 <= x <= bpow radix2 1023 -> Rabs (RN x) < bpow radix2 1024.
Proof.
intros [h1 h2]. rewrite Rabs_pos_eq by now apply RN_pos.
apply Rle_lt_trans with (RN (bpow radix2 1023)); [now apply RN_le|].
rewrite RN_id by (apply bpow_fmt; lia). apply bpow_lt; lia.
Qed.
Lemma flt_val x y : fin x -> fin y -> flt x y = true <-> val x < val y.
Proof.
intros hx hy. unfold flt. rewrite Bltb_correct by assumption. fold (val x) (val y).
destruct (Rlt_bool_spec (val x) (val y)); split; intros; try easy; lra.
Qed.
Lemma flt_valF x y : fin x -> fin y -> flt x y = false <-> val y <= val x.
Proof.
intros hx hy. pose proof (flt_val x y hx hy) as h. destruct (flt x y); split; intros h1; try easy.
- pose proof (proj1 h eq_refl); lra.
- apply Rnot_lt_le; intros h2; apply h in h2; discriminate.
Qed.
Lemma fadd_val x y : fin x -> fin y -> 0 <= val x + val y <= bpow radix2 1023 ->
  val (fadd x y) = RN (val x + val y) /\ fin (fadd x y).
Proof.
intros hx hy hb. pose proof (Bplus_correct 53 1024 p53_gt0 p53_lt mode_NE x y hx hy) as h.
rewrite Rlt_bool_true in h by exact (big_ok _ hb). destruct h as [h1 [h2 _]]. split; assumption.
Qed.
Lemma fsub_val x y : fin x -> fin y -> 0 <= val x - val y <= bpow radix2 1023 ->
  val (fsub x y) = RN (val x - val y) /\ fin (fsub x y).
Proof.
intros hx hy hb. pose proof (Bminus_correct 53 1024 p53_gt0 p53_lt mode_NE x y hx hy) as h.
rewrite Rlt_bool_true in h by exact (big_ok _ hb). destruct h as [h1 [h2 _]]. split; assumption.
Qed.
Lemma fmul_val x y : fin x -> fin y -> 0 <= val x * val y <= bpow radix2 1023 ->
  val (fmul x y) = RN (val x * val y) /\ fin (fmul x y).
Proof.
intros hx hy hb. pose proof (Bmult_correct 53 1024 p53_gt0 p53_lt mode_NE x y) as h.
rewrite Rlt_bool_true in h by exact (big_ok _ hb). destruct h as [h1 [h2 _]].
unfold fin in *. unfold fmul. rewrite h2, hx, hy. now split.
Qed.
Lemma fdiv_val x y : fin x -> val y <> 0 -> 0 <= val x / val y <= bpow radix2 1023 ->
  val (fdiv x y) = RN (val x / val y) /\ fin (fdiv x y).
Proof.
intros hx hy hb. pose proof (Bdiv_correct 53 1024 p53_gt0 p53_lt mode_NE x y hy) as h.
rewrite Rlt_bool_true in h by exact (big_ok _ hb). destruct h as [h1 [h2 _]].
unfold fin in *. unfold fdiv. rewrite h2, hx. now split.
Qed.
Lemma int_fmt n e : (Z.abs n <= 2 ^ 53)%Z -> (-1074 <= e)%Z -> fmt (IZR n * bpow radix2 e).
Proof.
intros hn he. destruct (Z.eq_dec (Z.abs n) (2 ^ 53)) as [E|E].
- assert (s : n = (2 ^ 53)%Z \/ n = (- 2 ^ 53)%Z) by lia.
  assert (h : fmt (IZR (2 ^ 53) * bpow radix2 e)).
    change (IZR (2 ^ 53)) with (bpow radix2 53). rewrite <- bpow_plus. apply bpow_fmt; lia.
  destruct s as [->| ->]; [exact h|]. rewrite opp_IZR, Ropp_mult_distr_l_reverse. now apply generic_format_opp.
- apply generic_format_FLT. exists (Float radix2 n e); simpl; [reflexivity|lia|assumption].
Qed.
Lemma fint_val n : (0 <= n <= 2 ^ 53)%Z -> val (fint n) = IZR n /\ fin (fint n).
Proof.
intros hn. pose proof (binary_normalize_correct 53 1024 p53_gt0 p53_lt mode_NE n 0 false) as h. cbv zeta in h.
assert (E : F2R (Float radix2 n 0) = IZR n) by (unfold F2R; simpl; ring). rewrite E in h.
assert (f : fmt (IZR n)) by (replace (IZR n) with (IZR n * bpow radix2 0) by (simpl; ring); apply int_fmt; lia).
rewrite Rlt_bool_true in h.
- destruct h as [h1 [h2 _]]. split; [|exact h2]. unfold val, fint. rewrite h1. exact (RN_id _ f).
- apply big_ok. split; [apply (IZR_le 0); lia|]. apply Rle_trans with (IZR (2 ^ 53)); [apply IZR_le; lia|].
  change (IZR (2 ^ 53)) with (bpow radix2 53). apply bpow_le; lia.
Qed.
(** t + d is not rounded to t as long as t < 2^53 d. *)
Lemma progress t d : fmt t -> fmt d -> 0 <= t -> 0 < d -> t < bpow radix2 53 * d -> t < RN (t + d).
Proof.
intros ft fd t0 d0 h.
assert (md : bpow radix2 (-1074) <= d).
  apply (generic_format_FIX_FLT radix2 (-1074) 53) in fd. apply FIX_format_generic in fd. destruct fd as [[n e'] E1 E2].
  simpl in E2. subst e'. rewrite E1 in *. unfold F2R in *. simpl Fnum in *. simpl Fexp in *.
  pose proof (bpow_gt_0 radix2 (-1074)) as p. assert (0 < IZR n) by nra. apply lt_IZR in H.
  assert (1 <= IZR n) by (apply (IZR_le 1); lia). nra.
assert (u : ulp radix2 fx t < 2 * d).
{ destruct (Rlt_le_dec t (bpow radix2 (-1074 + 53))) as [c|c].
  - rewrite (ulp_FLT_small radix2 (-1074) 53 t) by (rewrite Rabs_pos_eq; assumption). pose proof (bpow_gt_0 radix2 (-1074)); lra.
  - apply Rle_lt_trans with (t * bpow radix2 (-52)).
    + pose proof (ulp_FLT_le radix2 (-1074) 53 t) as hu. rewrite Rabs_pos_eq in hu by assumption. apply hu.
      apply Rle_trans with (2 := c). apply bpow_le; lia.
    + assert (E53 : bpow radix2 53 = 2 * bpow radix2 52) by (simpl; lra). rewrite E53 in h.
      pose proof (bpow_gt_0 radix2 (-52)) as p. pose proof (bpow_gt_0 radix2 52) as q.
      assert (pq : bpow radix2 52 * bpow radix2 (-52) = 1) by (rewrite <- bpow_plus; reflexivity).
      apply Rlt_le_trans with (2 * bpow radix2 52 * d * bpow radix2 (-52)); [nra|].
      replace (2 * bpow radix2 52 * d * bpow radix2 (-52)) with (2 * d * (bpow radix2 52 * bpow radix2 (-52))) by ring.
      rewrite pq; lra. }
assert (s : succ radix2 fx t = t + ulp radix2 fx t) by (apply succ_eq_pos; assumption).
assert (g : succ radix2 fx t <= RN (t + d)).
{ apply round_N_ge_midp; auto with typeclass_instances.
  - apply generic_format_succ; auto with typeclass_instances.
  - rewrite pred_succ by auto with typeclass_instances. rewrite s. lra. }
apply Rlt_le_trans with (2 := g). rewrite s.
assert (0 < ulp radix2 fx t); [|lra].
destruct (Req_dec t 0) as [->|tn].
- rewrite ulp_FLT_0 by auto with typeclass_instances. apply bpow_gt_0.
- rewrite ulp_neq_0 by assumption. apply bpow_gt_0.
Qed.
(** Doubles are multiples of 2^-1074. *)
Lemma fmt_int x : fmt x -> exists n, x = IZR n * bpow radix2 (-1074).
Proof.
intros h. apply (generic_format_FIX_FLT radix2 (-1074) 53) in h. apply FIX_format_generic in h.
destruct h as [[n e] E1 E2]. simpl in E2. subst e. now exists n.
Qed.
Lemma bp53 : bpow radix2 53 = 9007199254740992. Proof. simpl. lra. Qed.
