(** Property C95: the steps of EKF::predict in double arithmetic. *)
From Coq Require Import Reals ZArith Lia Lra List Bool.
From Flocq Require Import Core BinarySingleNaN Sterbenz Plus_error Relative.
From Verif Require Import LoopModel LoopFacts.
Import ListNotations.
Local Open Scope R_scope.

(** Half a unit in the last place of 1. *)
Notation u := (bpow radix2 (-53)).
Lemma plus_rel x y : fmt x -> fmt y -> 0 <= x + y -> (x + y) * (1 - u) <= RN (x + y) <= (x + y) * (1 + u).
Proof.
intros hx hy h.
destruct (FLT_plus_error_N_ex radix2 (-1074) 53 (fun z => negb (Z.even z)) x y hx hy) as [e [he E]].
unfold RN. rewrite E.
assert (E1 : u_ro radix2 53 = u) by (unfold u_ro; simpl; lra). rewrite E1 in he.
pose proof (bpow_gt_0 radix2 (-53)) as p.
assert (he' : Rabs e <= u).
{ apply Rle_trans with (1 := he). apply Rmult_le_reg_r with (1 + u); [lra|].
  unfold Rdiv. rewrite Rmult_assoc, Rinv_l by lra. nra. }
apply Rabs_le_inv in he'. nra.
Qed.
(** The guard t + dt < tau, also when the sum overflows. *)
Lemma guard t dt tau : fin t -> fin dt -> fin tau -> 0 <= val t -> 0 < val dt ->
  if flt (fadd t dt) tau then fin (fadd t dt) /\ val (fadd t dt) = RN (val t + val dt) /\ RN (val t + val dt) < val tau
  else val tau <= RN (val t + val dt).
Proof.
intros ht hd hT t0 d0. pose proof (Bplus_correct 53 1024 p53_gt0 p53_lt mode_NE t dt ht hd) as h.
change (round radix2 (SpecFloat.fexp 53 1024) (round_mode mode_NE) (B2R t + B2R dt)) with (RN (val t + val dt)) in h.
assert (r0 : 0 <= RN (val t + val dt)) by (apply RN_pos; lra).
destruct (Rlt_bool_spec (Rabs (RN (val t + val dt))) (bpow radix2 1024)) as [c|c].
- destruct h as [h1 [h2 _]]. change (val (fadd t dt) = RN (val t + val dt)) in h1. change (fin (fadd t dt)) in h2.
  destruct (flt (fadd t dt) tau) eqn:E.
  + apply flt_val in E; [|assumption|assumption]. rewrite h1 in E. now repeat split.
  + apply flt_valF in E; [|assumption|assumption]. now rewrite h1 in E.
- destruct h as [h1 h2]. rewrite Rabs_pos_eq in c by assumption.
  assert (sd : Bsign dt = false).
  { destruct dt as [s|s| |s m e q]; try discriminate; [unfold val in d0; simpl in d0; lra|].
    destruct s; [|reflexivity]. exfalso. change (0 < F2R (Float radix2 (Z.neg m) e)) in d0.
    pose proof (F2R_lt_0 radix2 (Float radix2 (Z.neg m) e) ltac:(simpl; lia)). lra. }
  rewrite h2, sd in h1.
  assert (E : flt (fadd t dt) tau = false).
  { unfold flt, Bltb, fadd. rewrite h1. destruct tau; try discriminate; reflexivity. }
  rewrite E. pose proof (abs_B2R_lt_emax 53 1024 tau) as b. apply Rabs_lt_inv in b. fold (val tau) in b. lra.
Qed.
Section Ekf.
Variables tau dt : b64.
Hypotheses (hT : fin tau) (hd : fin dt) (d0 : 0 < val dt).
(** The loop ends if tau <= 2^53 dt. *)
Lemma ekf_loop_ends n t : fin t -> 0 <= val t -> val t < bpow radix2 53 * val dt ->
  val tau <= bpow radix2 53 * val dt ->
  (exists a b, val t = IZR a * bpow radix2 (-1074) /\ val tau = IZR b * bpow radix2 (-1074) /\ (b - a <= Z.of_nat n)%Z) ->
  exists fuel l, ekf_loop fuel tau dt t = Some l.
Proof.
revert t. induction n as [|n IH]; intros t ht t0 tl hl [a [b [Ea [Eb ab]]]].
- exists O. simpl. pose proof (guard t dt tau ht hd hT t0 d0) as g. destruct (flt (fadd t dt) tau); [|eexists; reflexivity].
  exfalso. destruct g as [_ [_ g]]. pose proof (progress _ _ (val_fmt t) (val_fmt dt) t0 d0 tl) as q.
  assert (val t < val tau) by lra. rewrite Ea, Eb in H. pose proof (bpow_gt_0 radix2 (-1074)).
  apply Rmult_lt_reg_r in H; [|assumption]. apply lt_IZR in H. lia.
- pose proof (guard t dt tau ht hd hT t0 d0) as g. destruct (flt (fadd t dt) tau) eqn:E.
  + destruct g as [g1 [g2 g3]]. pose proof (progress _ _ (val_fmt t) (val_fmt dt) t0 d0 tl) as q.
    destruct (fmt_int _ (val_fmt (fadd t dt))) as [c Ec].
    destruct (IH (fadd t dt)) as [fuel [l hl']].
    * exact g1.
    * rewrite g2. lra.
    * rewrite g2. lra.
    * exact hl.
    * exists c, b. repeat split; [exact Ec|exact Eb|]. rewrite <- g2, Ea, Ec in q.
      pose proof (bpow_gt_0 radix2 (-1074)). apply Rmult_lt_reg_r in q; [|assumption]. apply lt_IZR in q. lia.
    * exists (S fuel), ((t, dt) :: l). simpl. rewrite E, hl'. reflexivity.
  + exists O. simpl. rewrite E. eexists; reflexivity.
Qed.
Theorem C95_ekf_ends : val tau <= bpow radix2 53 * val dt -> exists fuel l, ekf_predict fuel tau (Some dt) = Some l.
Proof.
intros h. destruct (fint_val 0) as [e f]; [lia|]. destruct (fmt_int _ (val_fmt tau)) as [b Eb].
apply (ekf_loop_ends (Z.to_nat b) (fint 0) f).
- rewrite e. lra.
- rewrite e. pose proof (bpow_gt_0 radix2 53). nra.
- exact h.
- exists 0%Z, b. rewrite e. repeat split; [lra|exact Eb|lia].
Qed.
(** Every call of do_step but the last has step dt, the last one ends at tau; the k-th one starts at k dt up to the relative error
    (1 + 2^-53)^k - 1 and before tau; the last step is positive if tau is, and exceeds dt only by rounding. *)
Lemma ekf_loop_steps fuel i t l : fin t -> 0 <= val t ->
  INR i * val dt * (1 - u) ^ i <= val t <= INR i * val dt * (1 + u) ^ i -> (0 < val tau -> val t < val tau) ->
  ekf_loop fuel tau dt t = Some l ->
  exists n, length l = S n /\ forall k, (k <= n)%nat -> exists tk s, nth_error l k = Some (tk, s) /\ fin tk /\
    INR (i + k) * val dt * (1 - u) ^ (i + k) <= val tk <= INR (i + k) * val dt * (1 + u) ^ (i + k) /\
    (0 < val tau -> val tk < val tau) /\
    ((k < n)%nat -> s = dt) /\
    (k = n -> s = fsub tau tk /\ val tau <= RN (val tk + val dt)).
Proof.
pose proof (bpow_gt_0 radix2 (-53)) as p.
assert (p1 : u < 1) by (simpl; lra).
revert i t l. induction fuel as [|fuel IH]; intros i t l ht t0 hi hb; simpl; pose proof (guard t dt tau ht hd hT t0 d0) as g;
  destruct (flt (fadd t dt) tau) eqn:E; try discriminate.
- intros [= <-]. exists O. split; [reflexivity|]. intros k hk. assert (k = O) by lia. subst k.
  exists t, (fsub tau t). rewrite Nat.add_0_r. now repeat split.
- destruct g as [g1 [g2 g3]]. destruct (ekf_loop fuel tau dt (fadd t dt)) as [l'|] eqn:E2; [|discriminate]. intros [= <-].
  destruct (IH (S i) (fadd t dt) l') as [n [hn H]].
  + exact g1.
  + rewrite g2. apply RN_pos. lra.
  + rewrite g2. pose proof (plus_rel _ _ (val_fmt t) (val_fmt dt) ltac:(lra)) as [r1 r2].
    assert (q1 : 0 <= (1 - u) ^ i <= 1) by (split; [apply pow_le; lra|apply Rle_trans with (1 ^ i); [apply pow_incr; lra|rewrite pow1; lra]]).
    assert (q2 : 1 <= (1 + u) ^ i) by (apply pow_R1_Rle; lra).
    pose proof (pos_INR i) as pi. rewrite S_INR, <- !tech_pow_Rmult.
    assert (m1 : 0 <= INR i * val dt) by nra.
    split.
    * apply Rle_trans with (2 := r1). replace ((INR i + 1) * val dt * ((1 - u) * (1 - u) ^ i)) with ((INR i * val dt * (1 - u) ^ i + val dt * (1 - u) ^ i) * (1 - u)) by ring.
      apply Rmult_le_compat_r; [lra|]. apply Rplus_le_compat; [lra|]. nra.
    * apply Rle_trans with (1 := r2). replace ((INR i + 1) * val dt * ((1 + u) * (1 + u) ^ i)) with ((INR i * val dt * (1 + u) ^ i + val dt * (1 + u) ^ i) * (1 + u)) by ring.
      apply Rmult_le_compat_r; [lra|]. apply Rplus_le_compat; [lra|]. nra.
  + intros _. rewrite g2. exact g3.
  + exact E2.
  + exists (S n). split; [simpl; lia|]. intros [|k] hk.
    * exists t, dt. rewrite Nat.add_0_r. split; [reflexivity|]. repeat split; try assumption; try lia; try apply hi; try reflexivity.
    * destruct (H k) as [tk [s [h1 [h2 [h3 [h4 [h5 h6]]]]]]]; [lia|].
      exists tk, s. replace (i + S k)%nat with (S i + k)%nat by lia. repeat split; try assumption; try apply h3.
      -- intros c. apply h5. lia.
      -- apply h6. lia.
      -- apply h6. lia.
- intros [= <-]. exists O. split; [reflexivity|]. intros k hk. assert (k = O) by lia. subst k.
  exists t, (fsub tau t). rewrite Nat.add_0_r. now repeat split.
Qed.
Theorem C95_ekf_steps fuel l : 0 < val tau <= bpow radix2 1023 -> ekf_predict fuel tau (Some dt) = Some l ->
  exists n, length l = S n /\ forall k, (k <= n)%nat -> exists tk s, nth_error l k = Some (tk, s) /\
    INR k * val dt * (1 - u) ^ k <= val tk <= INR k * val dt * (1 + u) ^ k /\ val tk < val tau /\
    ((k < n)%nat -> s = dt) /\
    (k = n -> val s = RN (val tau - val tk) /\ 0 < val s <= RN (val dt + u * (val tk + val dt))).
Proof.
intros T0 h. destruct (fint_val 0) as [e f]; [lia|].
destruct (ekf_loop_steps fuel 0 (fint 0) l) as [n [hn H]]; try assumption.
- rewrite e. lra.
- rewrite e. simpl. lra.
- rewrite e. lra.
- exists n. split; [exact hn|]. intros k hk. destruct (H k hk) as [tk [s [h1 [h2 [h3 [h4 [h5 h6]]]]]]].
  exists tk, s. specialize (h4 (proj1 T0)). simpl in h3. repeat split; try assumption; try apply h3.
  + destruct (h6 H0) as [-> _]. apply fsub_val; try assumption.
    assert (0 <= val tk); [|lra]. apply Rle_trans with (2 := proj1 h3). pose proof (pos_INR k).
    apply Rmult_le_pos; [nra|]. apply pow_le. simpl. lra.
  + destruct (h6 H0) as [-> _].
    assert (k0 : 0 <= val tk).
    { apply Rle_trans with (2 := proj1 h3). pose proof (pos_INR k). apply Rmult_le_pos; [nra|]. apply pow_le. simpl. lra. }
    destruct (fsub_val tau tk) as [-> _]; try assumption; [lra|].
    pose proof (RN_pos (val tau - val tk) ltac:(lra)) as [c|c]; [exact c|].
    exfalso. symmetry in c. revert c. apply (round_plus_neq_0 radix2 fx ZnearestE (val tau) (- val tk)).
    * apply val_fmt.
    * apply generic_format_opp, val_fmt.
    * lra.
  + destruct (h6 H0) as [-> hh].
    assert (k0 : 0 <= val tk).
    { apply Rle_trans with (2 := proj1 h3). pose proof (pos_INR k). apply Rmult_le_pos; [nra|]. apply pow_le. simpl. lra. }
    destruct (fsub_val tau tk) as [-> _]; try assumption; [lra|]. apply RN_le.
    pose proof (plus_rel _ _ (val_fmt tk) (val_fmt dt) ltac:(lra)) as [_ r2]. lra.
Qed.
End Ekf.

(** 2^53 dt + dt is rounded to 2^53 dt if dt is a power of two. *)
Lemma stuck e : (-1074 <= e)%Z -> RN (bpow radix2 (53 + e) + bpow radix2 e) = bpow radix2 (53 + e).
Proof.
intros he. set (x := bpow radix2 (53 + e) + bpow radix2 e).
pose proof (bpow_gt_0 radix2 e) as p.
assert (E0 : bpow radix2 (53 + e) = 9007199254740992 * bpow radix2 e) by (rewrite bpow_plus, bp53; ring).
assert (ce : cexp radix2 fx x = (e + 1)%Z).
{ unfold cexp. rewrite (mag_unique radix2 x (e + 54)); [unfold FLT_exp; lia|].
  rewrite Rabs_pos_eq by (unfold x; lra). replace (e + 54 - 1)%Z with (53 + e)%Z by lia.
  replace (e + 54)%Z with (1 + (53 + e))%Z by lia. rewrite (bpow_plus radix2 1). simpl (bpow radix2 1). unfold x. lra. }
unfold RN, round, scaled_mantissa. rewrite ce.
assert (sm : x * bpow radix2 (- (e + 1)) = IZR (2 ^ 52) + / 2).
{ unfold x. rewrite E0. replace (- (e + 1))%Z with (- e + - (1))%Z by lia. rewrite bpow_plus.
  assert (pe : bpow radix2 e * bpow radix2 (- e) = 1) by (rewrite <- bpow_plus, Z.add_opp_diag_r; reflexivity).
  replace ((9007199254740992 * bpow radix2 e + bpow radix2 e) * (bpow radix2 (- e) * bpow radix2 (- (1))))
    with (9007199254740993 * (bpow radix2 e * bpow radix2 (- e)) * bpow radix2 (- (1))) by ring.
  rewrite pe. simpl. lra. }
rewrite sm.
assert (fl : Zfloor (IZR (2 ^ 52) + / 2) = (2 ^ 52)%Z) by (apply Zfloor_imp; rewrite plus_IZR; lra).
unfold Znearest. rewrite fl. rewrite Rcompare_Eq by lra. simpl Z.even. cbv iota beta.
unfold F2R; simpl Fnum; simpl Fexp. rewrite E0, bpow_plus. simpl (bpow radix2 1). simpl. lra.
Qed.
(** The loop does not end if dt is a power of two and tau > 2^53 dt. *)
Theorem C95_ekf_forever tau dt e : fin tau -> fin dt -> (-1074 <= e)%Z -> val dt = bpow radix2 e ->
  bpow radix2 53 * val dt < val tau -> forall fuel, ekf_predict fuel tau (Some dt) = None.
Proof.
intros hT hd he Ed h fuel. destruct (fint_val 0) as [e0 f0]; [lia|].
assert (d0 : 0 < val dt) by (rewrite Ed; apply bpow_gt_0).
assert (G : forall fuel t j, fin t -> (0 <= j <= 2 ^ 53)%Z -> val t = IZR j * bpow radix2 e -> ekf_loop fuel tau dt t = None).
2:{ apply (G fuel (fint 0) 0%Z f0); [lia|]. rewrite e0. ring. }
clear fuel. induction fuel as [|fuel IH]; intros t j ht hj Et.
all: assert (t0 : 0 <= val t) by (rewrite Et; apply Rmult_le_pos; [apply (IZR_le 0); lia|apply bpow_ge_0]).
all: assert (R1 : exists j', (0 <= j' <= 2 ^ 53)%Z /\ RN (val t + val dt) = IZR j' * bpow radix2 e).
1, 3: destruct (Z.eq_dec j (2 ^ 53)) as [E|E];
  [exists j; split; [exact hj|]; rewrite Et, Ed, E; change (IZR (2 ^ 53)) with (bpow radix2 53); rewrite <- bpow_plus; now apply stuck
  |exists (j + 1)%Z; split; [lia|]; rewrite Et, Ed; replace (IZR j * bpow radix2 e + bpow radix2 e) with (IZR (j + 1) * bpow radix2 e) by (rewrite plus_IZR; ring);
   apply RN_id, int_fmt; lia].
all: destruct R1 as [j' [hj' E']]; simpl; pose proof (guard t dt tau ht hd hT t0 d0) as g; destruct (flt (fadd t dt) tau) eqn:E.
- reflexivity.
- exfalso. rewrite E' in g. rewrite Ed in h. pose proof (bpow_gt_0 radix2 e).
  assert (IZR j' <= bpow radix2 53) by (change (bpow radix2 53) with (IZR (2 ^ 53)); apply IZR_le; lia). nra.
- destruct g as [g1 [g2 _]]. rewrite (IH (fadd t dt) j'); [reflexivity|exact g1|exact hj'|]. now rewrite g2.
- exfalso. rewrite E' in g. rewrite Ed in h. pose proof (bpow_gt_0 radix2 e).
  assert (IZR j' <= bpow radix2 53) by (change (bpow radix2 53) with (IZR (2 ^ 53)); apply IZR_le; lia). nra.
Qed.
(** So predict(f, Q, 1, 2^-54) never returns, although dt is positive. *)
Theorem C95_ekf_refuted : exists tau dt : b64, fin tau /\ fin dt /\ 0 < val dt /\ val tau = 1 /\ forall fuel, ekf_predict fuel tau (Some dt) = None.
Proof.
assert (q : SpecFloat.bounded 53 1024 (2 ^ 52) (-106) = true) by reflexivity.
set (dt := B754_finite false (2 ^ 52) (-106) q : b64).
assert (Ed : val dt = bpow radix2 (-54)) by (change (val dt) with (bpow radix2 52 * bpow radix2 (-106)); rewrite <- bpow_plus; reflexivity).
destruct (fint_val 1) as [e1 f1]; [lia|].
exists (fint 1), dt. repeat split.
- rewrite Ed. apply bpow_gt_0.
- exact e1.
- apply (C95_ekf_forever (fint 1) dt (-54)); [exact f1|reflexivity|lia|exact Ed|].
  rewrite Ed, e1, <- bpow_plus. simpl. lra.
Qed.
(** One second in steps of 0.1 (the nearest double): 10 passes of the loop (the rounded sums stay below 1) and a last step of about 1e-16. *)
Example C95_ekf_case : option_map (@length _) (ekf_predict 20 (fint 1) (Some (fdiv (fint 1) (fint 10)))) = Some 11%nat.
Proof. vm_compute. reflexivity. Qed.
