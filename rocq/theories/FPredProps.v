(** C108: the variance of a scalar EKF after predict, in double arithmetic. *)
From Coq Require Import Reals ZArith Lia Lra List Bool.
From Flocq Require Import Core BinarySingleNaN Relative.
From Verif Require Import LoopModel LoopFacts LoopEkf FPidModel FPidFacts FPidOut FQpModel FQpFacts FScaleModel FScaleProps FEvalProps FEkfModel FEkfProps FPredModel.
Import ListNotations.
Open Scope R_scope.
Notation eta := (p2 (-1075)).

Lemma err_b x b : Rabs x <= b -> Rabs (RN x - x) <= uu * b + eta.
Proof.
intros hx. destruct (RN_err x) as [x1 [z1 [hx1 [hz1 E1]]]]. rewrite E1, ulp1_val in *. pose proof (prod_le x1 x _ _ hx1 hx) as kk.
replace (x * (1 + x1) + z1 - x) with (x1 * x + z1) by ring. eapply Rle_trans; [apply Rabs_triang|]. lra.
Qed.
Section Step.
Variables (a q s p p' : b64).
Hypotheses (fa : fin a) (fq : fin q) (fs : fin s) (fp : fin p) (ba : Rabs (val a) <= p2 300) (bq : 0 <= val q <= p2 300) (bs : 0 <= val s <= p2 300)
  (bp : 0 <= val p <= p2 300) (hu : fp_step a q s p p').
Let up (i j : Z) : (i <= j)%Z -> p2 i <= p2 j. Proof. apply bpow_le. Qed.
Let dbl i : 2 * p2 i = p2 (1 + i). Proof. now rewrite bpow_plus. Qed.
(** g = a p + p a and the derivative d, rounded. *)
Lemma rate_val : exists g d, fmt g /\ fin d /\ val d = RN (g + val q) /\ Rabs g <= p2 602 /\ Rabs (val d) <= p2 603 /\
  Rabs (g - 2 * val a * val p) <= 41 / 10 * uu * Rabs (val a * val p) + 3 * eta /\ (0 <= val a * val p -> 0 <= g) /\
  (val p' = RN (val p + RN (val s * val d)) \/ val p' = RN (val p + val s * val d)) /\ fin p'.
Proof.
destruct hu as (d & hd & hp). set (w := val a * val p).
assert (bw : Rabs w <= p2 600) by (unfold w; change 600%Z with (300 + 300)%Z; rewrite bpow_plus; apply prod_le; [exact ba|rewrite Rabs_pos_eq; lra]).
assert (bm : Rabs (RN w) <= p2 600). { apply Rabs_le_inv in bw. apply Rabs_le. split; [apply RN_lower; [apply generic_format_opp, bpow_fmt; lia|lra]|apply RN_upper; [apply bpow_fmt; lia|lra]]. }
assert (b61 : p2 601 = 2 * p2 600) by now rewrite dbl. assert (b62 : p2 602 = 2 * p2 601) by now rewrite dbl. assert (b63 : p2 603 = 2 * p2 602) by now rewrite dbl.
pose proof (p2_pos 600) as q6. pose proof (up 603 1023 ltac:(lia)) as u3. pose proof (up 300 600 ltac:(lia)) as u6. pose proof (p2_pos (-1075)) as q7.
destruct (mul_val a p fa fp) as [e1 f1]; [fold w; lra|]. destruct (mul_val p a fp fa) as [e2 f2]; [rewrite Rmult_comm; fold w; lra|]. rewrite Rmult_comm in e2. fold w in e1, e2.
pose proof (err_b w _ (Rle_refl _)) as ew. pose proof (Rabs_le_inv _ _ bw) as bw'. pose proof (Rabs_le_inv _ _ bm) as bm'.
assert (G : exists g, fin g /\ d = fadd g q /\ Rabs (val g) <= p2 602 /\ Rabs (val g - 2 * w) <= 41 / 10 * uu * Rabs w + 3 * eta /\ (0 <= w -> 0 <= val g)).
{ assert (z0 : 0 <= w -> 0 <= RN w) by apply RN_pos. pose proof (Rabs_pos w) as w0. destruct hd as [-> | ->].
  - exists (fadd (fmul a p) (fmul p a)). destruct (add_val (fmul a p) (fmul p a) f1 f2) as [e3 f3]; [rewrite e1, e2; apply Rabs_le; lra|]. rewrite e1, e2 in e3.
    split; [exact f3|]. split; [reflexivity|]. rewrite e3. destruct (sub_rel (RN w) (- RN w) (RN_fmt w)) as [t [ht Et]]; [apply generic_format_opp, RN_fmt|].
    replace (RN w - - RN w) with (RN w + RN w) in Et by ring. assert (Rb : Rabs (RN w + RN w) <= 202 / 100 * Rabs w + 3 * eta).
    { replace (RN w + RN w) with (2 * (RN w - w) + 2 * w) by ring. eapply Rle_trans; [apply Rabs_triang|]. rewrite !Rabs_mult, (Rabs_pos_eq 2) by lra. lra. }
    split; [apply Rabs_le; split; [apply RN_lower; [apply generic_format_opp, bpow_fmt; lia|lra]|apply RN_upper; [apply bpow_fmt; lia|lra]]|]. split; [|intros h; specialize (z0 h); apply RN_pos; lra].
    rewrite Et. replace ((RN w + RN w) * (1 + t) - 2 * w) with (t * (RN w + RN w) + 2 * (RN w - w)) by ring.
    pose proof (prod_le _ _ _ _ ht Rb) as k1. eapply Rle_trans; [apply Rabs_triang|]. rewrite (Rabs_mult 2), (Rabs_pos_eq 2) by lra.
    lra.
  - exists (ffma a p (fmul p a)). destruct (fma_val a p (fmul p a) fa fp f2) as [e3 f3]; [rewrite e2; fold w; apply Rabs_le; lra|]. rewrite e2 in e3. fold w in e3.
    split; [exact f3|]. split; [reflexivity|]. rewrite e3.
    assert (Rb : Rabs (w + RN w) <= 201 / 100 * Rabs w + eta).
    { replace (w + RN w) with ((RN w - w) + 2 * w) by ring. eapply Rle_trans; [apply Rabs_triang|]. rewrite (Rabs_mult 2), (Rabs_pos_eq 2) by lra. lra. }
    split; [apply Rabs_le; split; [apply RN_lower; [apply generic_format_opp, bpow_fmt; lia|lra]|apply RN_upper; [apply bpow_fmt; lia|lra]]|]. split; [|intros h; specialize (z0 h); apply RN_pos; lra].
    pose proof (err_b _ _ Rb) as k1. replace (RN (w + RN w) - 2 * w) with ((RN (w + RN w) - (w + RN w)) + (RN w - w)) by ring. eapply Rle_trans; [apply Rabs_triang|]. lra. }
destruct G as (g & fg & -> & bg & eg & zg). pose proof (Rabs_le_inv _ _ bg) as bg'.
destruct (add_val g q fg fq) as [ed fd]; [apply Rabs_le; lra|].
assert (bd : Rabs (val (fadd g q)) <= p2 603) by (rewrite ed; apply Rabs_le; split; [apply RN_lower; [apply generic_format_opp, bpow_fmt; lia|lra]|apply RN_upper; [apply bpow_fmt; lia|lra]]).
assert (bsd : Rabs (val s * val (fadd g q)) <= p2 903) by (change 903%Z with (300 + 603)%Z; rewrite bpow_plus; apply prod_le; [rewrite Rabs_pos_eq; lra|exact bd]).
pose proof (up 903 1022 ltac:(lia)) as u9. pose proof (up 300 903 ltac:(lia)) as u93. assert (b22 : p2 1023 = 2 * p2 1022) by now rewrite dbl. pose proof (Rabs_le_inv _ _ bsd) as bsd'.
exists (val g), (fadd g q). split; [apply val_fmt|]. split; [exact fd|]. split; [exact ed|]. split; [exact bg|]. split; [exact bd|].
split; [replace (2 * val a * val p) with (2 * w) by (unfold w; ring); exact eg|]. split; [exact zg|].
destruct hp as [-> | ->].
- destruct (mul_val s (fadd g q) fs fd) as [em fm]; [lra|]. assert (bmm : Rabs (val (fmul s (fadd g q))) <= p2 903) by (rewrite em; apply Rabs_le; split; [apply RN_lower; [apply generic_format_opp, bpow_fmt; lia|lra]|apply RN_upper; [apply bpow_fmt; lia|lra]]).
  apply Rabs_le_inv in bmm. destruct (add_val p (fmul s (fadd g q)) fp fm) as [er fr]; [apply Rabs_le; lra|]. split; [left; now rewrite er, em|exact fr].
- destruct (fma_val s (fadd g q) p fs fd fp) as [er fr]; [apply Rabs_le; lra|]. split; [right; now rewrite er, Rplus_comm|exact fr].
Qed.
(** C108: a step with -2 a s <= 1 - 2^-50 leaves the variance nonnegative. *)
Theorem C108_nonneg : val p = 0 \/ p2 (-300) <= val p -> - 2 * val a * val s <= 1 - / 1125899906842624 -> fin p' /\ 0 <= val p'.
Proof.
intros hp hs. destruct rate_val as (g & d & fg & fd & ed & bg & bd & eg & zg & ep & fp'). split; [exact fp'|].
assert (dg : g <= val d) by (rewrite ed; apply RN_lower; [exact fg|lra]).
assert (sd : - val p <= val s * val d).
{ destruct (Rle_or_lt 0 (val a * val p)) as [h|h].
  - specialize (zg h). assert (0 <= val s * val d) by (apply Rmult_le_pos; lra). lra.
  - destruct hp as [hp|hp]; [rewrite hp, Rmult_0_r in h; lra|]. pose proof (p2_pos (-300)) as q3.
    rewrite (Rabs_left (val a * val p)) in eg by exact h. apply Rabs_le_inv in eg.
    assert (gl : 2 * (val a * val p) * (1 + 21 / 10 * uu) - 3 * eta <= g) by lra.
    apply Rle_trans with (val s * g); [|apply Rmult_le_compat_l; lra].
    apply Rle_trans with (val s * (2 * (val a * val p) * (1 + 21 / 10 * uu) - 3 * eta)); [|apply Rmult_le_compat_l; lra].
    assert (m1 : - 2 * val a * val s * val p <= (1 - / 1125899906842624) * val p) by (apply Rmult_le_compat_r; lra).
    assert (m2 : val s * eta <= / 1000 * uu * val p).
    { apply Rle_trans with (p2 300 * eta); [apply Rmult_le_compat_r; [apply bpow_ge_0|lra]|]. rewrite <- bpow_plus. apply Rle_trans with (p2 (-100) * p2 (-300)); [rewrite <- bpow_plus; apply up; lia|].
      apply Rmult_le_compat; try lra; try apply bpow_ge_0. simpl. lra. }
    replace (val s * (2 * (val a * val p) * (1 + 21 / 10 * uu) - 3 * eta)) with (- (- 2 * val a * val s * val p) * (1 + 21 / 10 * uu) - 3 * (val s * eta)) by ring. lra. }
destruct ep as [-> | ->]; apply RN_pos; [|lra]. assert (- val p <= RN (val s * val d)) by (apply RN_lower; [apply generic_format_opp, val_fmt|lra]). lra.
Qed.
(** One step of Euler's method for the variance, up to rounding. *)
Theorem C108_error : Rabs (val p' - (val p + val s * (2 * val a * val p + val q))) <=
  / 1125899906842624 * (val p + val s * (2 * Rabs (val a) * val p + val q)) + p2 (-700).
Proof.
destruct rate_val as (g & d & fg & fd & ed & bg & bd & eg & zg & ep & _). set (w := val a * val p) in *.
replace (2 * val a * val p) with (2 * w) in * by (unfold w; ring). replace (2 * Rabs (val a) * val p) with (2 * Rabs w) by (unfold w; rewrite Rabs_mult, (Rabs_pos_eq (val p)) by lra; ring).
pose proof (Rabs_pos w) as w0. pose proof (p2_pos (-1075)) as e0. set (V := 2 * Rabs w + val q). assert (V0 : 0 <= V) by (unfold V; lra).
destruct (sub_rel g (- val q) fg) as [t [ht Et]]; [apply generic_format_opp, val_fmt|]. replace (g - - val q) with (g + val q) in Et by ring. rewrite <- ed in Et.
assert (gb : Rabs (g + val q) <= 101 / 100 * V + 3 * eta).
{ replace (g + val q) with ((g - 2 * w) + (2 * w + val q)) by ring. eapply Rle_trans; [apply Rabs_triang|]. assert (Rabs (2 * w + val q) <= V); [|unfold V in *; lra].
  unfold V. eapply Rle_trans; [apply Rabs_triang|]. rewrite Rabs_mult, (Rabs_pos_eq 2), (Rabs_pos_eq (val q)); lra. }
pose proof (prod_le _ _ _ _ ht gb) as k1.
assert (dd : Rabs (val d - (2 * w + val q)) <= 32 / 10 * uu * V + 4 * eta).
{ rewrite Et. replace ((g + val q) * (1 + t) - (2 * w + val q)) with (t * (g + val q) + (g - 2 * w)) by ring. eapply Rle_trans; [apply Rabs_triang|]. unfold V in *. lra. }
assert (db : Rabs (val d) <= 102 / 100 * V + 4 * eta).
{ replace (val d) with ((val d - (2 * w + val q)) + (2 * w + val q)) by ring. eapply Rle_trans; [apply Rabs_triang|]. assert (Rabs (2 * w + val q) <= V); [|lra].
  unfold V. eapply Rle_trans; [apply Rabs_triang|]. rewrite Rabs_mult, (Rabs_pos_eq 2), (Rabs_pos_eq (val q)); lra. }
assert (se : 0 <= val s * eta <= p2 (-770)). { split; [apply Rmult_le_pos; lra|]. apply Rle_trans with (p2 300 * eta); [apply Rmult_le_compat_r; lra|]. rewrite <- bpow_plus. apply up. lia. }
assert (s1 : Rabs (val s * (val d - (2 * w + val q))) <= val s * (32 / 10 * uu * V + 4 * eta)) by (rewrite Rabs_mult, (Rabs_pos_eq (val s)) by lra; apply Rmult_le_compat_l; lra).
assert (s2 : Rabs (val s * val d) <= val s * (102 / 100 * V + 4 * eta)) by (rewrite Rabs_mult, (Rabs_pos_eq (val s)) by lra; apply Rmult_le_compat_l; lra).
set (SV := val s * V) in *. assert (SV0 : 0 <= SV) by (apply Rmult_le_pos; lra). set (se' := val s * eta) in *.
replace (val s * (32 / 10 * uu * V + 4 * eta)) with (32 / 10 * uu * SV + 4 * se') in s1 by (unfold SV, se'; ring).
replace (val s * (102 / 100 * V + 4 * eta)) with (102 / 100 * SV + 4 * se') in s2 by (unfold SV, se'; ring).
assert (c7 : 100 * p2 (-770) <= p2 (-700)). { apply Rle_trans with (p2 7 * p2 (-770)); [apply Rmult_le_compat_r; [apply bpow_ge_0|simpl; lra]|]. rewrite <- bpow_plus. apply up. lia. }
assert (c8 : eta <= p2 (-770)) by (apply up; lia).
assert (fin1 : exists m, val p' = RN (val p + m) /\ Rabs (m - val s * val d) <= uu * (102 / 100 * SV + 4 * se') + eta).
{ destruct ep as [E|E]; [exists (RN (val s * val d)); split; [exact E|now apply err_b]|exists (val s * val d); split; [exact E|]]. unfold Rminus. rewrite Rplus_opp_r, Rabs_R0. lra. }
destruct fin1 as (m & E & em). assert (bpm : Rabs (val p + m) <= val p + 103 / 100 * SV + 5 * se' + eta).
{ replace (val p + m) with (val p + ((m - val s * val d) + val s * val d)) by ring. eapply Rle_trans; [apply Rabs_triang|]. rewrite (Rabs_pos_eq (val p)) by lra. pose proof (Rabs_triang (m - val s * val d) (val s * val d)). lra. }
pose proof (err_b _ _ bpm) as k3. rewrite <- E in k3.
replace (val p' - (val p + val s * (2 * w + val q))) with ((val p' - (val p + m)) + (m - val s * val d) + val s * (val d - (2 * w + val q))) by ring.
fold V. fold SV. apply Rabs_le_inv in k3. apply Rabs_le_inv in em. apply Rabs_le_inv in s1. apply Rabs_le. lra.
Qed.
End Step.
