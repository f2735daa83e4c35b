(** Properties of time arithmetic. *)
From Coq Require Import Reals ZArith Lia Lra Psatz.
From Flocq Require Import Core Sterbenz Relative.
From Verif Require Import TimeModel.
Local Open Scope R_scope.

Section Float.
Variables (prec emin : Z).
Hypotheses (p0 : (0 < prec)%Z).
Local Instance pp : Prec_gt_0 prec := p0.
Local Notation fl := (isfl prec emin).
Local Notation r := (rnd prec emin).
Lemma rnd_fl x : fl x -> r x = x.
Proof. intros h. apply round_generic; [apply valid_rnd_N|exact h]. Qed.
Lemma rnd_is x : fl (r x).
Proof. apply generic_format_round; [apply FLT_exp_valid; exact p0|apply valid_rnd_N]. Qed.
Lemma rnd_le x y : x <= y -> r x <= r y.
Proof. apply round_le; [apply FLT_exp_valid; exact p0|apply valid_rnd_N]. Qed.
Lemma fl_opp x : fl x -> fl (- x).
Proof. apply generic_format_opp. Qed.
End Float.
Lemma p53 : (0 < 53)%Z. Proof. lia. Qed.
Local Instance vd : Valid_exp (FLT_exp (-1074) 53) := FLT_exp_valid (-1074) 53 (prec_gt_0_ := p53).

(** * Floating point times, T = double *)
Local Notation plus := (f_plus 53 (-1074)).
Local Notation minus := (f_minus 53 (-1074)).
Lemma minusE a b : minus a b = rd (a - b).
Proof. unfold f_minus. apply rnd_fl. apply (rnd_is _ _ p53). Qed.
Lemma plusE t s : dbl s -> plus t s = rd (t + s).
Proof. intros h. unfold f_plus. rewrite (rnd_fl 53 (-1074) s h). reflexivity. Qed.
(** The round trips are exact whenever the exact result of the first operation is a floating point number. *)
Theorem C66_plus_exact t s : dbl s -> dbl (t + s) -> minus (plus t s) t = s.
Proof.
intros hs hts. rewrite plusE by exact hs. rewrite minusE. unfold rd. rewrite (rnd_fl _ _ (t + s)) by exact hts.
replace (t + s - t) with s by ring. apply rnd_fl; exact hs.
Qed.
Theorem C66_minus_exact t1 t2 : dbl t1 -> dbl t2 -> dbl (t2 - t1) -> plus t1 (minus t2 t1) = t2.
Proof.
intros h1 h2 hd. rewrite minusE. unfold rd. rewrite (rnd_fl _ _ (t2 - t1)) by exact hd.
rewrite plusE by exact hd. replace (t1 + (t2 - t1)) with t2 by ring. apply rnd_fl; exact h2.
Qed.
(** In particular for times within a factor of two of each other. *)
Theorem C66_near t1 t2 : dbl t1 -> dbl t2 -> t1 / 2 <= t2 <= 2 * t1 -> plus t1 (minus t2 t1) = t2.
Proof.
intros h1 h2 hb. apply C66_minus_exact; auto. apply sterbenz; auto; [apply FLT_exp_valid; exact p53|apply FLT_exp_monotone].
Qed.
(** In general the results are within half a unit in the last place of each rounded quantity. *)
Theorem C66_float_bound t s : dbl t -> dbl s ->
  Rabs (minus (plus t s) t - s) <=
  / 2 * ulp radix2 (FLT_exp (-1074) 53) (t + s) + / 2 * ulp radix2 (FLT_exp (-1074) 53) (plus t s - t).
Proof.
intros ht hs. rewrite minusE. rewrite (plusE t s hs).
pose proof (error_le_half_ulp radix2 (FLT_exp (-1074) 53) (fun x => negb (Z.even x)) (t + s)) as e1.
pose proof (error_le_half_ulp radix2 (FLT_exp (-1074) 53) (fun x => negb (Z.even x)) (rd (t + s) - t)) as e2.
change (Rabs (rd (t + s) - (t + s)) <= / 2 * ulp radix2 (FLT_exp (-1074) 53) (t + s)) in e1.
change (Rabs (rd (rd (t + s) - t) - (rd (t + s) - t)) <= / 2 * ulp radix2 (FLT_exp (-1074) 53) (rd (t + s) - t)) in e2.
replace (rd (rd (t + s) - t) - s) with ((rd (t + s) - (t + s)) + (rd (rd (t + s) - t) - (rd (t + s) - t))) by ring.
eapply Rle_trans; [apply Rabs_triang|]. lra.
Qed.

(** * Integral clocks of period 1/N seconds (N = 1000 for milliseconds, ..., 10^9 for nanoseconds) *)
Section Chrono.
Variable N : Z.
Hypothesis N1 : (1 < N <= 2 ^ 53)%Z.
Lemma int_dbl n : (Z.abs n <= 2 ^ 53)%Z -> dbl (IZR n).
Proof.
intros h. destruct (Z_le_lt_eq_dec _ _ h) as [h'|h'].
  apply generic_format_FLT. exists (Float radix2 n 0); [unfold F2R; simpl; ring|exact h'|simpl; lia].
assert (hp : dbl (IZR (2 ^ 53))).
  change (dbl (bpow radix2 53)). apply generic_format_bpow. unfold FLT_exp. simpl. lia.
destruct (Z.abs_eq_or_opp n) as [e|e]; rewrite h' in e.
  rewrite <- e. exact hp.
replace n with (- 2 ^ 53)%Z by lia. rewrite opp_IZR. apply fl_opp. exact hp.
Qed.
Lemma half_dbl n : (Z.abs n <= 2 ^ 53 - 1)%Z -> dbl (IZR n / 2).
Proof.
intros h. apply generic_format_FLT. exists (Float radix2 n (-1)); [unfold F2R; simpl Fnum; simpl Fexp; change (bpow radix2 (-1)) with (/ 2); reflexivity|simpl; lia|simpl; lia].
Qed.
(** A quotient of moderate size has a relative error of at most 2^-53. *)
Lemma quot_err n : (Z.abs n <= 2 ^ 53)%Z -> Rabs (rd (IZR n / IZR N) * IZR N - IZR n) <= bpow radix2 (-53) * Rabs (IZR n).
Proof.
intros h. destruct (Z.eq_dec n 0) as [->|n0].
  unfold Rdiv. rewrite Rmult_0_l. unfold rd. rewrite rnd_fl by apply generic_format_0. rewrite Rmult_0_l, Rminus_0_r, Rabs_R0. lra.
assert (hN : 0 < IZR N) by (apply IZR_lt; lia).
assert (lo : bpow radix2 (-1074 + 53 - 1) <= Rabs (IZR n / IZR N)).
  unfold Rdiv. rewrite Rabs_mult, Rabs_inv, (Rabs_pos_eq (IZR N)) by lra. rewrite <- abs_IZR.
  apply Rle_trans with (bpow radix2 (-53)); [apply bpow_le; lia|].
  apply Rmult_le_reg_r with (IZR N); [exact hN|]. rewrite Rmult_assoc, Rinv_l, Rmult_1_r by lra.
  apply Rle_trans with 1; [|apply IZR_le; lia].
  apply Rle_trans with (bpow radix2 (-53) * bpow radix2 53); [|rewrite <- bpow_plus; simpl; lra].
  apply Rmult_le_compat_l; [apply bpow_ge_0|]. change (IZR N <= IZR (2 ^ 53)). apply IZR_le; lia.
pose proof (relative_error_N_FLT radix2 (-1074) 53 p53 (fun x => negb (Z.even x)) (IZR n / IZR N) lo) as e.
change (round radix2 (FLT_exp (-1074) 53) (Znearest (fun x => negb (Z.even x))) (IZR n / IZR N)) with (rd (IZR n / IZR N)) in e.
replace (rd (IZR n / IZR N) * IZR N - IZR n) with ((rd (IZR n / IZR N) - IZR n / IZR N) * IZR N) by (field; lra).
rewrite Rabs_mult, (Rabs_pos_eq (IZR N)) by lra.
replace (Rabs (IZR n)) with (Rabs (IZR n / IZR N) * IZR N).
2:{ unfold Rdiv. rewrite Rabs_mult, Rabs_inv, (Rabs_pos_eq (IZR N)) by lra. field; lra. }
rewrite <- Rmult_assoc. apply Rmult_le_compat_r; [lra|].
eapply Rle_trans; [exact e|]. apply Rmult_le_compat_r; [apply Rabs_pos|].
rewrite bpow_plus. change (bpow radix2 1) with 2. change (- (53))%Z with (-53)%Z. lra.
Qed.
Lemma bu n : (Z.abs n <= 2 ^ 53)%Z -> bpow radix2 (-53) * Rabs (IZR n) <= 1.
Proof.
intros h. rewrite <- abs_IZR. apply Rle_trans with (bpow radix2 (-53) * bpow radix2 53).
  apply Rmult_le_compat_l; [apply bpow_ge_0|]. change (IZR (Z.abs n) <= IZR (2 ^ 53)). apply IZR_le; lia.
rewrite <- bpow_plus. simpl. lra.
Qed.
Lemma den1 : (N =? 1)%Z = false. Proof. apply Z.eqb_neq. lia. Qed.
Lemma trunc_bound b n : IZR n - 1 <= b <= IZR n + 1 -> (Z.abs (Ztrunc b - n) <= 1)%Z.
Proof.
intros [h1 h2].
assert (a1 : (n - 1 <= Ztrunc b)%Z) by (rewrite <- (Ztrunc_IZR (n - 1)); apply Ztrunc_le; rewrite minus_IZR; exact h1).
assert (a2 : (Ztrunc b <= n + 1)%Z) by (rewrite <- (Ztrunc_IZR (n + 1)); apply Ztrunc_le; rewrite plus_IZR; exact h2).
lia.
Qed.
(** plus(t1, minus(t2, t1)) is at most one tick from t2, for differences of less than 2^53 ticks. *)
Theorem C66_ticks t1 t2 : (Z.abs (t2 - t1) < 2 ^ 53)%Z ->
  exists d k, c_minus 1 N t2 t1 = Some d /\ (Z.abs (k - t2) <= 1)%Z /\ c_plus 1 N t1 d = int64 k.
Proof.
intros h. set (n := (t2 - t1)%Z) in *.
assert (i64 : forall m, (Z.abs (m - n) <= 1)%Z -> int64 m = Some m).
  intros m hm. unfold int64. replace (- 2 ^ 63 <=? m)%Z with true by (symmetry; apply Z.leb_le; lia).
  replace (m <? 2 ^ 63)%Z with true by (symmetry; apply Z.ltb_lt; lia). reflexivity.
exists (rd (IZR n / IZR N)), (t1 + Ztrunc (rd (rd (IZR n / IZR N) * IZR N)))%Z.
unfold c_minus, c_plus. fold n. rewrite i64 by lia. unfold from_ticks, to_ticks. rewrite den1. simpl (1 =? 1)%Z. cbv iota.
assert (en : rd (IZR n) = IZR n) by (apply rnd_fl; apply int_dbl; lia). rewrite en.
assert (hn : (Z.abs n <= 2 ^ 53)%Z) by lia.
pose proof (quot_err n hn) as e. pose proof (bu n hn) as e'.
assert (hb : IZR n - 1 <= rd (rd (IZR n / IZR N) * IZR N) <= IZR n + 1).
  apply Rabs_le_inv in e. split.
    rewrite <- (rnd_fl 53 (-1074) (IZR n - 1)); [|rewrite <- minus_IZR; apply int_dbl; lia]. apply (rnd_le _ _ p53). lra.
  rewrite <- (rnd_fl 53 (-1074) (IZR n + 1)); [|rewrite <- plus_IZR; apply int_dbl; lia]. apply (rnd_le _ _ p53). lra.
pose proof (trunc_bound _ _ hb) as ht.
split; [reflexivity|]. split; [unfold n in *; lia|]. rewrite i64 by exact ht. reflexivity.
Qed.
(** Below 2^52 ticks the result is never beyond t2: it is t2, or the tick before it. *)
Theorem C66_ticks_before t1 t2 : (Z.abs (t2 - t1) < 2 ^ 52)%Z ->
  exists d k, c_minus 1 N t2 t1 = Some d /\ (Z.abs (k - t2) <= 1 /\ Z.abs (k - t1) <= Z.abs (t2 - t1))%Z /\ c_plus 1 N t1 d = int64 k.
Proof.
intros h. set (n := (t2 - t1)%Z) in *.
assert (i64 : forall m, (Z.abs (m - n) <= 1)%Z -> int64 m = Some m).
  intros m hm. unfold int64. replace (- 2 ^ 63 <=? m)%Z with true by (symmetry; apply Z.leb_le; lia).
  replace (m <? 2 ^ 63)%Z with true by (symmetry; apply Z.ltb_lt; lia). reflexivity.
exists (rd (IZR n / IZR N)), (t1 + Ztrunc (rd (rd (IZR n / IZR N) * IZR N)))%Z.
unfold c_minus, c_plus. fold n. rewrite i64 by lia. unfold from_ticks, to_ticks. rewrite den1. simpl (1 =? 1)%Z. cbv iota.
assert (en : rd (IZR n) = IZR n) by (apply rnd_fl; apply int_dbl; lia). rewrite en.
assert (hn : (Z.abs n <= 2 ^ 53)%Z) by lia.
pose proof (quot_err n hn) as e.
assert (e' : bpow radix2 (-53) * Rabs (IZR n) <= / 2).
  rewrite <- abs_IZR. apply Rle_trans with (bpow radix2 (-53) * bpow radix2 52).
    apply Rmult_le_compat_l; [apply bpow_ge_0|]. change (IZR (Z.abs n) <= IZR (2 ^ 52)). apply IZR_le; lia.
  rewrite <- bpow_plus. simpl. lra.
set (b := rd (rd (IZR n / IZR N) * IZR N)).
assert (hb : IZR n - / 2 <= b <= IZR n + / 2).
  apply Rabs_le_inv in e. unfold b. split.
    rewrite <- (rnd_fl 53 (-1074) (IZR n - / 2)).
      apply (rnd_le _ _ p53). lra.
    replace (IZR n - / 2) with (IZR (2 * n - 1) / 2) by (rewrite minus_IZR, mult_IZR; field). apply half_dbl. lia.
  rewrite <- (rnd_fl 53 (-1074) (IZR n + / 2)).
    apply (rnd_le _ _ p53). lra.
  replace (IZR n + / 2) with (IZR (2 * n + 1) / 2) by (rewrite plus_IZR, mult_IZR; field). apply half_dbl. lia.
assert (ht : (Z.abs (Ztrunc b - n) <= 1)%Z) by (apply trunc_bound; lra).
split; [reflexivity|]. split; [|rewrite i64 by exact ht; reflexivity].
split; [unfold n in *; lia|].
replace (t1 + Ztrunc b - t1)%Z with (Ztrunc b) by lia.
destruct (Z_lt_le_dec n 0) as [s|s].
  assert (b0 : b <= 0) by (assert (IZR n <= -1) by (apply IZR_le; lia); lra).
  rewrite (Ztrunc_ceil b b0) in *.
  assert (n <= Zceil b)%Z; [|assert (Zceil b <= 0)%Z by (apply Zceil_glb; simpl; lra); lia].
  apply le_IZR. destruct (Z_lt_le_dec (Zceil b) n) as [l|l]; [|apply IZR_le; exact l].
  pose proof (Zceil_ub b) as u. assert (IZR (Zceil b) <= IZR n - 1) by (rewrite <- minus_IZR; apply IZR_le; lia). lra.
destruct (Z.eq_dec n 0) as [z|z].
  assert (b0 : rd (IZR n / IZR N) = 0).
    rewrite z. unfold Rdiv. rewrite Rmult_0_l. apply rnd_fl. apply generic_format_0.
  unfold b. rewrite b0, Rmult_0_l. change (rd 0) with (rnd 53 (-1074) 0). rewrite (rnd_fl 53 (-1074) 0) by apply generic_format_0. change 0 with (IZR 0). rewrite Ztrunc_IZR. lia.
assert (b0 : 0 <= b) by (assert (1 <= IZR n) by (apply IZR_le; lia); lra).
rewrite (Ztrunc_floor b b0) in *.
assert (Zfloor b <= n)%Z; [|assert (0 <= Zfloor b)%Z by (apply Zfloor_lub; simpl; lra); lia].
destruct (Z_lt_le_dec n (Zfloor b)) as [l|l]; [|exact l].
pose proof (Zfloor_lb b) as u. assert (IZR n + 1 <= IZR (Zfloor b)) by (rewrite <- plus_IZR; apply IZR_le; lia). lra.
Qed.
(** plus adds a number of ticks that is within one tick of the duration, and minus recovers it up to one rounding. *)
Theorem C66_duration t s : dbl s -> Rabs (s * IZR N) <= IZR (2 ^ 53 - 2) ->
  exists k r, c_plus 1 N t s = int64 (t + k) /\ Rabs (IZR k - s * IZR N) <= 1 /\
    c_minus 1 N (t + k) t = Some r /\ Rabs (r - s) <= (1 + bpow radix2 (-53) * Rabs (IZR k)) / IZR N.
Proof.
intros hs hb. set (x := s * IZR N) in *. set (b := rd x). set (k := Ztrunc b).
assert (hN : 0 < IZR N) by (apply IZR_lt; lia).
assert (mono : forall z, (Z.abs z <= 2 ^ 53)%Z -> (IZR z <= x -> IZR z <= b) /\ (x <= IZR z -> b <= IZR z)).
  intros z hz. pose proof (rnd_fl 53 (-1074) (IZR z) (int_dbl z hz)) as ez. split; intros h; rewrite <- ez; apply (rnd_le _ _ p53); exact h.
assert (bb : Rabs b <= IZR (2 ^ 53 - 2)).
  apply Rabs_le_inv in hb. apply Rabs_le. split.
    rewrite <- opp_IZR. apply mono; [lia|]. rewrite opp_IZR. lra.
  apply mono; [lia|lra].
assert (hk : (Z.abs k <= 2 ^ 53 - 2)%Z).
  apply le_IZR. rewrite abs_IZR. unfold k.
  apply Rle_trans with (Rabs b); [|exact bb]. rewrite <- abs_IZR. 
  destruct (Rle_or_lt 0 b) as [p|p].
    rewrite (Ztrunc_floor b p), (Rabs_pos_eq b p). rewrite Z.abs_eq; [apply Zfloor_lb|]. apply Zfloor_lub; simpl; lra.
  rewrite (Ztrunc_ceil b) by lra. rewrite (Rabs_left b p). rewrite Z.abs_neq; [|apply Zceil_glb; simpl; lra].
  rewrite opp_IZR. pose proof (Zceil_ub b). lra.
assert (kx : Rabs (IZR k - x) <= 1).
  apply Rabs_le.
  assert (hkb : IZR k - 1 < b < IZR k + 1).
    unfold k. destruct (Rle_or_lt 0 b) as [p|p].
      rewrite (Ztrunc_floor b p). pose proof (Zfloor_lb b). pose proof (Zfloor_ub b). lra.
    rewrite (Ztrunc_ceil b) by lra. pose proof (Zceil_ub b). pose proof (Zceil_lb b). lra.
  split.
    assert (~ IZR (k + 1) < x); [|rewrite plus_IZR in *; lra].
    intros l. assert (IZR (k + 1) <= b) by (apply mono; [lia|lra]). rewrite plus_IZR in *. lra.
  assert (~ x < IZR (k - 1)); [|rewrite minus_IZR in *; lra].
  intros l. assert (b <= IZR (k - 1)) by (apply mono; [lia|lra]). rewrite minus_IZR in *. lra.
assert (i64 : int64 k = Some k).
  unfold int64. replace (- 2 ^ 63 <=? k)%Z with true by (symmetry; apply Z.leb_le; lia).
  replace (k <? 2 ^ 63)%Z with true by (symmetry; apply Z.ltb_lt; lia). reflexivity.
exists k, (rd (IZR k / IZR N)).
unfold c_plus, c_minus, to_ticks, from_ticks. rewrite den1. simpl (1 =? 1)%Z. cbv iota. fold x b k. rewrite i64.
replace (t + k - t)%Z with k by lia. rewrite i64.
assert (ek : rd (IZR k) = IZR k) by (apply rnd_fl; apply int_dbl; lia). rewrite ek.
split; [reflexivity|]. split; [exact kx|]. split; [reflexivity|].
assert (hk' : (Z.abs k <= 2 ^ 53)%Z) by lia. pose proof (quot_err k hk') as e.
apply Rmult_le_reg_r with (IZR N); [exact hN|]. unfold Rdiv. rewrite Rmult_assoc, Rinv_l, Rmult_1_r by lra.
apply Rle_trans with (Rabs ((rd (IZR k * / IZR N) - s) * IZR N)); [rewrite Rabs_mult, (Rabs_pos_eq (IZR N)) by lra; apply Rle_refl|].
replace ((rd (IZR k * / IZR N) - s) * IZR N) with ((rd (IZR k / IZR N) * IZR N - IZR k) + (IZR k - x)) by (unfold x, Rdiv; ring).
eapply Rle_trans; [apply Rabs_triang|]. lra.
Qed.
End Chrono.
