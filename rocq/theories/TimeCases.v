(** Concrete cases and counterexamples for time arithmetic. *)
From Coq Require Import Reals ZArith Lia Lra Psatz.
From Flocq Require Import Core.
From Verif Require Import TimeModel TimeProps.
Local Open Scope R_scope.
Local Instance vd53 : Valid_exp (FLT_exp (-1074) 53) := FLT_exp_valid (-1074) 53 (prec_gt_0_ := p53).

(** Rounding of a number whose binary exponent is known. *)
Lemma rdE x e n : (-1074 <= e)%Z -> bpow radix2 (e + 52) <= x < bpow radix2 (e + 53) -> Rabs (x - IZR n * bpow radix2 e) < / 2 * bpow radix2 e -> rd x = IZR n * bpow radix2 e.
Proof.
intros he hx hn. unfold rd, rnd, round, F2R, scaled_mantissa. simpl Fnum. simpl Fexp.
assert (x0 : 0 < x) by (pose proof (bpow_gt_0 radix2 (e + 52)); lra).
assert (ce : cexp radix2 (FLT_exp (-1074) 53) x = e).
  unfold cexp. rewrite (mag_unique radix2 x (e + 53)); [unfold FLT_exp; lia|].
  rewrite Rabs_pos_eq by lra. replace (e + 53 - 1)%Z with (e + 52)%Z by lia. exact hx.
rewrite ce. rewrite (Znearest_imp _ _ n); [reflexivity|].
pose proof (bpow_gt_0 radix2 e) as p. pose proof (bpow_gt_0 radix2 (- e)) as p'.
replace (x * bpow radix2 (- e) - IZR n) with ((x - IZR n * bpow radix2 e) * bpow radix2 (- e)).
2:{ rewrite Rmult_minus_distr_r, Rmult_assoc, <- bpow_plus. replace (e + - e)%Z with 0%Z by lia. simpl. ring. }
rewrite Rabs_mult, (Rabs_pos_eq (bpow radix2 (- e))) by lra.
apply Rlt_le_trans with (/ 2 * bpow radix2 e * bpow radix2 (- e)); [apply Rmult_lt_compat_r; assumption|].
rewrite Rmult_assoc, <- bpow_plus. replace (e + - e)%Z with 0%Z by lia. simpl. lra.
Qed.
Ltac bp := unfold bpow; simpl Z.add; cbv beta iota; unfold Z.pow_pos; simpl Pos.iter.
Ltac rcalc := apply rdE; [lia|split; bp; lra|bp; apply Rabs_lt; split; lra].

(** C66: 15 ns after t the round trip gives 14 ns. *)
Theorem C66_tick_refuted : exists t1 t2 d, c_minus 1 1000000000 t2 t1 = Some d /\ c_plus 1 1000000000 t1 d = Some (t2 - 1)%Z.
Proof.
exists 0%Z, 15%Z, (rd (IZR 15 / IZR 1000000000)).
assert (e15 : rd 15 = 15) by (apply rnd_fl; apply (int_dbl 15); lia).
split; [unfold c_minus, from_ticks; simpl; rewrite e15; reflexivity|].
assert (ea : rd (15 / 1000000000) = IZR 0x101b2b29a4692b * bpow radix2 (-78)) by rcalc.
assert (eb : rd (IZR 0x101b2b29a4692b * bpow radix2 (-78) * 1000000000) = IZR 0x1dffffffffffff * bpow radix2 (-49)) by rcalc.
unfold c_plus, to_ticks. simpl (_ =? _)%Z. cbv iota. rewrite ea, eb.
assert (et : Ztrunc (IZR 0x1dffffffffffff * bpow radix2 (-49)) = 14%Z).
  rewrite Ztrunc_floor; [|bp; lra]. apply Zfloor_imp. split; bp; lra.
rewrite et. reflexivity.
Qed.
(** C66: a difference of 2^60 + 100 ns comes back 100 ticks short. *)
Theorem C66_long_refuted : exists t1 t2 d, c_minus 1 1000000000 t2 t1 = Some d /\ c_plus 1 1000000000 t1 d = Some (t2 - 100)%Z.
Proof.
exists 0%Z, 1152921504606847076%Z, (rd (rd (IZR 1152921504606847076) / IZR 1000000000)).
split; [reflexivity|].
assert (e0 : rd (IZR 1152921504606847076) = IZR 0x10000000000000 * bpow radix2 8) by rcalc.
assert (ea : rd (IZR 0x10000000000000 * bpow radix2 8 / 1000000000) = IZR 0x112e0be826d695 * bpow radix2 (-22)) by rcalc.
assert (eb : rd (IZR 0x112e0be826d695 * bpow radix2 (-22) * 1000000000) = IZR 0x10000000000000 * bpow radix2 8) by rcalc.
unfold c_plus, to_ticks. simpl (_ =? _)%Z. cbv iota. rewrite e0, ea, eb.
assert (et : Ztrunc (IZR 0x10000000000000 * bpow radix2 8) = 1152921504606846976%Z).
  replace (IZR 0x10000000000000 * bpow radix2 8) with (IZR 1152921504606846976) by (bp; lra). apply Ztrunc_IZR.
rewrite et. reflexivity.
Qed.
(** C66, floating point: t = 2^53 and s = 1/2: the time does not advance. *)
Theorem C66_float_refuted : exists t s, dbl t /\ dbl s /\ s <> 0 /\ f_minus 53 (-1074) (f_plus 53 (-1074) t s) t = 0.
Proof.
exists (IZR (2 ^ 53)), (/ 2).
assert (h1 : dbl (IZR (2 ^ 53))) by (apply (int_dbl (2 ^ 53)); lia).
assert (h2 : dbl (/ 2)) by (replace (/ 2) with (IZR 1 / 2) by (simpl; lra); apply (half_dbl 1); lia).
split; [exact h1|]. split; [exact h2|]. split; [lra|].
rewrite minusE, plusE by exact h2.
assert (e : rd (IZR (2 ^ 53) + / 2) = IZR 0x10000000000000 * bpow radix2 1) by rcalc.
rewrite e. replace (IZR 0x10000000000000 * bpow radix2 1 - IZR (2 ^ 53)) with 0 by (bp; simpl; lra).
apply rnd_fl. apply generic_format_0.
Qed.
(** Cases of the theorems. *)
Example C66_exact_case : f_minus 53 (-1074) (f_plus 53 (-1074) 3 (1 / 2)) 3 = 1 / 2.
Proof.
apply C66_plus_exact; [apply (half_dbl 1); lia|]. replace (3 + 1 / 2) with (IZR 7 / 2) by lra. apply half_dbl; lia.
Qed.
Example C66_near_case : f_plus 53 (-1074) 3 (f_minus 53 (-1074) 5 3) = 5.
Proof. apply C66_near; [apply (int_dbl 3); lia|apply (int_dbl 5); lia|lra]. Qed.
Example C66_minus_case : f_plus 53 (-1074) 3 (f_minus 53 (-1074) 500 3) = 500.
Proof. apply C66_minus_exact; [apply (int_dbl 3); lia|apply (int_dbl 500); lia|]. replace (500 - 3) with (IZR 497) by lra. apply int_dbl; lia. Qed.
Example C66_ticks_case : exists d k, c_minus 1 1000000000 90000000015 90000000000 = Some d /\ (Z.abs (k - 90000000015) <= 1)%Z /\ c_plus 1 1000000000 90000000000 d = int64 k.
Proof. apply C66_ticks; lia. Qed.
Example C66_duration_case : exists k r, c_plus 1 1000000000 5 (1 / 2) = int64 (5 + k) /\ Rabs (IZR k - 1 / 2 * IZR 1000000000) <= 1 /\
    c_minus 1 1000000000 (5 + k) 5 = Some r /\ Rabs (r - 1 / 2) <= (1 + bpow radix2 (-53) * Rabs (IZR k)) / IZR 1000000000.
Proof.
apply C66_duration; [lia|apply (half_dbl 1); lia|].
rewrite Rabs_pos_eq by lra. apply Rle_trans with (IZR 500000000); [lra|apply IZR_le; lia].
Qed.
Print Assumptions C66_plus_exact.
Print Assumptions C66_minus_exact.
Print Assumptions C66_near.
Print Assumptions C66_float_bound.
Print Assumptions C66_ticks.
Print Assumptions C66_ticks_before.
Print Assumptions C66_duration.
Print Assumptions C66_tick_refuted.
Print Assumptions C66_long_refuted.
Print Assumptions C66_float_refuted.
