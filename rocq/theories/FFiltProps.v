(** C109: a whole scalar filter in double arithmetic. *)
From Coq Require Import Reals ZArith Lia Lra List Bool.
From Flocq Require Import Core BinarySingleNaN.
From Verif Require Import LoopModel LoopFacts LoopEkf FPidModel FPidFacts FPidOut FQpModel FQpFacts FScaleModel FScaleProps FEvalProps FEkfModel FEkfProps
  FEstModel FEstProps FPredModel FPredProps FPredWalk FFiltModel.
Import ListNotations.
Open Scope R_scope.

(** The number of steps of predict is at most 2 tau / dt + 1. *)
Lemma steps_bound tau dt fuel l : fin tau -> fin dt -> 0 < val dt -> 0 < val tau <= p2 1023 -> 2 * (val tau / val dt) + 1 <= 2 ^ 43 ->
  ekf_predict fuel tau (Some dt) = Some l -> INR (length l) <= 2 * (val tau / val dt) + 1.
Proof.
intros hT hd d0 bT hc hl. destruct (C95_ekf_steps tau dt hT hd d0 fuel l bT hl) as (n & hn & H). rewrite hn, S_INR.
set (K := Z.to_nat (2 ^ 43)). assert (EK : INR K = 2 ^ 43) by (unfold K; rewrite INR_IZR_INZ, Z2Nat.id by lia; simpl; lra). clearbody K.
set (k := Nat.min n K). assert (kn : (k <= n)%nat) by (unfold k; lia). assert (kK : INR k <= 2 ^ 43) by (rewrite <- EK; apply le_INR; unfold k; lia).
destruct (H k kn) as (tk & s & _ & (h1 & _) & h2 & _). pose proof (pos_INR k) as k0.
assert (bern : forall m, 1 - INR m * bpow radix2 (-53) <= (1 - bpow radix2 (-53)) ^ m).
{ intros m. induction m as [|m IH]; [simpl; lra|]. rewrite S_INR, <- tech_pow_Rmult. pose proof (pos_INR m). assert (e : bpow radix2 (-53) = uu) by (simpl; lra). rewrite e in *.
  apply Rle_trans with ((1 - uu) * (1 - INR m * uu)); [lra|apply Rmult_le_compat_l; lra]. }
specialize (bern k). assert (e : bpow radix2 (-53) = uu) by (simpl; lra). rewrite e in *.
assert (b99 : 99 / 100 <= (1 - uu) ^ k) by (simpl pow in kK; lra).
assert (q : INR k * (99 / 100) <= val tau / val dt).
{ apply Rmult_le_reg_r with (val dt); [exact d0|]. replace (val tau / val dt * val dt) with (val tau) by (field; lra). apply Rle_trans with (INR k * val dt * (1 - uu) ^ k); [|lra].
  replace (INR k * (99 / 100) * val dt) with (INR k * val dt * (99 / 100)) by ring. apply Rmult_le_compat_l; [apply Rmult_le_pos; lra|exact b99]. }
destruct (Nat.le_gt_cases n K) as [c|c].
- replace k with n in * by (unfold k; lia). lra.
- exfalso. replace k with K in * by (unfold k; lia). rewrite EK in q. simpl pow in *. lra.
Qed.
Lemma state_const l : Forall (fun c => fin (snd c) /\ 0 <= val (snd c)) l -> forall x x', ff_state l x x' -> fin x -> Rabs (val x) <= p2 1023 -> fin x' /\ val x' = val x.
Proof.
intros hl x x' h. destruct (fint_val 0) as [e0 f0]; [lia|]. pose proof (p2_pos 1023) as p0.
induction h as [x|t s l x x1 x' h1 _ IH]; intros fx bx; [now split|]. inversion hl as [|c l' [fs _] hl']; subst. unfold snd in fs.
assert (E : fin x1 /\ val x1 = val x).
{ destruct h1 as [-> | ->].
  - destruct (mul_val s (fint 0) fs f0) as [em fm]; [rewrite e0, Rmult_0_r, Rabs_R0; lra|]. rewrite e0, Rmult_0_r, RN_0 in em.
    destruct (add_val x _ fx fm) as [ea fa]; [rewrite em, Rplus_0_r; exact bx|]. rewrite em, Rplus_0_r, RN_id in ea by apply val_fmt. now split.
  - destruct (fma_val s (fint 0) x fs f0 fx) as [ea fa]; [rewrite e0, Rmult_0_r, Rplus_0_l; exact bx|]. rewrite e0, Rmult_0_r, Rplus_0_l, RN_id in ea by apply val_fmt. now split. }
destruct E as [f1 e1]. destruct (IH hl' f1) as [g1 g2]; [now rewrite e1|]. split; [exact g1|]. now rewrite g2.
Qed.
(** The process noise and the number of steps of the calls. *)
Definition noise (l : list ff_call) : R := fold_right (fun c s => match c with Update _ _ => 0 | Predict q tau _ => val q * val tau end + s) 0 l.
Definition cost (l : list ff_call) : R := fold_right (fun c s => match c with Update _ _ => 0 | Predict _ tau dt => 2 * (val tau / val dt) + 1 end + s) 0 l.
Definition call_ok (A B : R) (c : ff_call) : Prop :=
  match c with
  | Update r y => fin r /\ fin y /\ 0 <= val r <= p2 1022 /\ A <= val y <= B
  | Predict q tau dt => fin q /\ fin tau /\ fin dt /\ 0 <= val q <= p2 400 /\ 0 < val tau <= p2 400 /\ 0 < val dt
  end.
Lemma sums_pos A B l : Forall (call_ok A B) l -> 0 <= noise l /\ 0 <= cost l.
Proof.
induction 1 as [|c l hc _ [i1 i2]]; unfold noise, cost in *; simpl in *; [lra|]. destruct c as [r y|q tau dt]; simpl in hc; [lra|]. destruct hc as (_ & _ & _ & h1 & h2 & h3).
assert (0 <= val q * val tau) by (apply Rmult_le_pos; lra). assert (0 <= val tau / val dt) by (apply Rmult_le_pos; [lra|left; now apply Rinv_0_lt_compat]). lra.
Qed.
Notation c51 := (/ 2251799813685248).
Lemma filter_gen A B : A <= B -> - p2 1020 <= A -> B <= p2 1020 -> let W := c51 * (B - A) in forall l x p x' p', ff_run l x p x' p' ->
  Forall (call_ok A B) l -> fin x -> fin p -> A - W <= val x <= B + W -> 0 <= val p -> cost l <= 2 ^ 43 ->
  let T := val p + noise l in let C := c51 * cost l in T * (1 + 3 * C) + C <= p2 900 ->
  fin x' /\ fin p' /\ A - W <= val x' <= B + W /\ 0 <= val p' <= T * (1 + 3 * C) + C.
Proof.
intros AB hA hB W. assert (W0 : 0 <= W <= / 4 * (B - A)) by (unfold W; lra). assert (p20 : p2 1021 = 2 * p2 1020) by (change 1021%Z with (1 + 1020)%Z; now rewrite bpow_plus).
pose proof (p2_pos 1020) as q0. pose proof (bpow_le radix2 900 1022 ltac:(lia)) as u9. pose proof (bpow_le radix2 1021 1023 ltac:(lia)) as u23.
induction 1 as [x p|c l x p x1 p1 x' p' hs _ IH]; intros hl fx fp bx p0 hc; cbv zeta.
- unfold noise, cost. simpl fold_right. intros _. repeat split; try assumption; lra.
- inversion hl as [|c' l' hc1 hl']; subst. destruct (sums_pos A B l hl') as [n0 k0].
  assert (cx : Rabs (val x) <= p2 1021) by (apply Rabs_le; lra). destruct c as [r y|q tau dt].
  + change (noise (Update r y :: l)) with (0 + noise l). change (cost (Update r y :: l)) with (0 + cost l) in *. rewrite !Rplus_0_l in *. intros hT.
    destruct hc1 as (fr & fy & br & by1). assert (cy : Rabs (val y) <= p2 1021) by (apply Rabs_le; lra).
    set (C := c51 * cost l) in *. assert (C0 : 0 <= C) by (unfold C; lra). assert (TC : 0 <= (val p + noise l) * C) by (apply Rmult_le_pos; lra).
    assert (bp : 0 <= val p <= p2 1022) by lra.
    destruct (C106_direct r y x p x1 p1 fr fp bp br hs) as [f1 b1].
    destruct (C107_towards r y x p x1 p1 fr fy fx fp bp br cx cy hs) as (fx1 & t1 & t2).
    assert (c1 : A - W <= val x1 <= B + W).
    { destruct (Rle_or_lt (val x) (val y)) as [h|h]; [specialize (t1 h)|specialize (t2 (Rlt_le _ _ h))]; unfold W in *; lra. }
    assert (mono : (val p1 + noise l) * (1 + 3 * C) <= (val p + noise l) * (1 + 3 * C)) by (apply Rmult_le_compat_r; lra).
    destruct IH as (g1 & g2 & g3 & g4); try assumption; [lra|fold C; lra|]. fold C in g4.
    split; [exact g1|]. split; [exact g2|]. split; [exact g3|]. lra.
  + change (noise (Predict q tau dt :: l)) with (val q * val tau + noise l). change (cost (Predict q tau dt :: l)) with (2 * (val tau / val dt) + 1 + cost l) in *.
    set (k := 2 * (val tau / val dt) + 1) in *. intros hT. destruct hc1 as (fq & ft & fd & bq & bt & d0). destruct hs as (ls & (fuel & hp & hst) & hx).
    assert (k1 : 0 <= val tau / val dt) by (apply Rmult_le_pos; [lra|left; now apply Rinv_0_lt_compat]).
    pose proof (bpow_le radix2 400 1023 ltac:(lia)) as u4.
    pose proof (steps_bound tau dt fuel ls ft fd d0 ltac:(lra) ltac:(fold k; lra) hp) as sb. fold k in sb.
    destruct (fint_val 0) as [e0 f0]; [lia|].
    destruct (loop_total tau dt fuel ft fd d0 ltac:(lra) (fint 0) ls f0 ltac:(lra) ltac:(lra) hp) as [hf _].
    destruct (state_const ls hf x x1 hx fx ltac:(lra)) as [fx1 ex1].
    set (S0 := val q * val tau) in *. assert (S00 : 0 <= S0) by (apply Rmult_le_pos; lra).
    replace (c51 * (k + cost l)) with (c51 * k + c51 * cost l) in * by ring. set (C := c51 * cost l) in *. set (c := c51 * k) in *.
    assert (C0 : 0 <= C) by (unfold C; lra). assert (c0 : 0 < c) by (unfold c, k; lra). assert (cC : c + C <= / 200) by (unfold c, C; simpl pow in hc; lra).
    replace (val p + (S0 + noise l)) with (val p + S0 + noise l) in * by ring. set (T := val p + S0 + noise l) in *. assert (T0 : 0 <= T) by (unfold T; lra).
    assert (Tc : 0 <= T * c) by (apply Rmult_le_pos; lra). assert (TC : 0 <= T * C) by (apply Rmult_le_pos; lra).
    replace (T * (1 + 3 * (c + C))) with (T + 3 * (T * c) + 3 * (T * C)) in * by ring.
    assert (bp : 0 <= val p <= p2 900) by (unfold T in *; lra).
    destruct (C108_walk (fint 0) q tau dt ls p p1 f0 e0 fq ft fd fp bq ltac:(lra) d0 bp ltac:(lra) ltac:(exists fuel; now split)) as (f1 & p10 & er).
    fold S0 in er. set (m := INR (length ls)) in *. assert (m0 : 0 <= m) by apply pos_INR.
    assert (mm : m / 2 ^ 51 * (val p + S0) <= c * T).
    { apply Rmult_le_compat; [simpl pow; lra|lra|unfold c; simpl pow; lra|unfold T; lra]. }
    assert (me : m * p2 (-1074) <= / 2 * c).
    { apply Rle_trans with (k * p2 (-60)); [apply Rmult_le_compat; try lra; [apply bpow_ge_0|apply bpow_le; lia]|]. unfold c. assert (0 < k) by (unfold k; lra). simpl. lra. }
    apply Rabs_le_inv in er. rewrite (Rmult_comm c T) in mm.
    assert (T1 : val p1 + noise l <= T + T * c + / 2 * c) by (unfold T in *; lra).
    assert (T1C : (val p1 + noise l) * C <= T * C + / 200 * (T * c) + / 2 * (/ 200 * c)).
    { apply Rle_trans with ((T + T * c + / 2 * c) * C); [apply Rmult_le_compat_r; lra|]. replace ((T + T * c + / 2 * c) * C) with (T * C + T * c * C + / 2 * (c * C)) by ring.
      assert (T * c * C <= T * c * / 200) by (apply Rmult_le_compat_l; lra). assert (c * C <= c * / 200) by (apply Rmult_le_compat_l; lra). lra. }
    assert (T10 : 0 <= (val p1 + noise l) * C) by (apply Rmult_le_pos; lra).
    destruct IH as (g1 & g2 & g3 & g4); try assumption; [lra|lra| |].
    * fold C. replace ((val p1 + noise l) * (1 + 3 * C)) with (val p1 + noise l + 3 * ((val p1 + noise l) * C)) by ring. lra.
    * fold C in g4. replace ((val p1 + noise l) * (1 + 3 * C)) with (val p1 + noise l + 3 * ((val p1 + noise l) * C)) in g4 by ring.
      split; [exact g1|]. split; [exact g2|]. split; [exact g3|]. lra.
Qed.
(** C109: for any calls of predict and update, with less than 2^43 steps of the solver in total, the estimate stays in the range [A, B] of its first
    value and the measurements, up to 2^-51 (B - A); the variance stays nonnegative and at most its first value plus the sum of q tau, up to 1/80 of it. *)
Theorem C109_filter l x p x' p' A B : ff_run l x p x' p' -> Forall (call_ok A B) l -> fin x -> fin p -> A <= val x <= B -> - p2 1020 <= A -> B <= p2 1020 ->
  0 <= val p -> cost l <= 2 ^ 43 -> val p + noise l <= p2 890 ->
  fin x' /\ fin p' /\ A - c51 * (B - A) <= val x' <= B + c51 * (B - A) /\ 0 <= val p' <= 81 / 80 * (val p + noise l) + / 200.
Proof.
intros h hl fx fp bx hA hB p0 hc hn. destruct (sums_pos A B l hl) as [n0 k0].
assert (C1 : 0 <= c51 * cost l <= / 250) by (simpl pow in hc; lra). set (C := c51 * cost l) in *.
assert (TC : 0 <= (val p + noise l) * C <= (val p + noise l) * / 250) by (split; [apply Rmult_le_pos; lra|apply Rmult_le_compat_l; lra]).
assert (big : 4 * p2 890 <= p2 900). { apply Rle_trans with (p2 2 * p2 890); [apply Rmult_le_compat_r; [apply bpow_ge_0|simpl; lra]|]. rewrite <- bpow_plus. apply bpow_le. lia. }
assert (one : 1 <= p2 890) by (change 1 with (p2 0); apply bpow_le; lia).
destruct (filter_gen A B ltac:(lra) hA hB l x p x' p' h hl fx fp ltac:(lra) p0 hc) as (g1 & g2 & g3 & g4).
- fold C. replace ((val p + noise l) * (1 + 3 * C)) with (val p + noise l + 3 * ((val p + noise l) * C)) by ring. lra.
- fold C in g4. replace ((val p + noise l) * (1 + 3 * C)) with (val p + noise l + 3 * ((val p + noise l) * C)) in g4 by ring.
  split; [exact g1|]. split; [exact g2|]. split; [exact g3|]. lra.
Qed.
