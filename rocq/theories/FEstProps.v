(** C107: the estimate of a scalar EKF in double arithmetic. *)
From Coq Require Import Reals ZArith Lia Lra List Bool.
From Flocq Require Import Core BinarySingleNaN Relative Sterbenz.
From Verif Require Import LoopModel LoopFacts FPidModel FPidFacts FPidOut FQpModel FQpFacts FScaleModel FScaleProps FEvalProps FEkfModel FEkfProps FEstModel.
Import ListNotations.
Open Scope R_scope.

Lemma RN_best w y : fmt y -> Rabs (RN w - w) <= Rabs (y - w).
Proof. intros hy. exact (proj2 (round_N_pt radix2 (FLT_exp (-1074) 53) (fun z => negb (Z.even z)) w) y hy). Qed.
Section Step.
Variables (r y x p x' p' : b64).
Hypotheses (fr : fin r) (fy : fin y) (fx : fin x) (fp : fin p) (bp : 0 <= val p <= p2 1022) (br : 0 <= val r <= p2 1022)
  (bx : Rabs (val x) <= p2 1021) (by' : Rabs (val y) <= p2 1021) (hu : fk_direct r y x p x' p').
Let d := RN (val y - val x).
Let p0 : 0 < p2 1021. Proof. apply p2_pos. Qed.
Let E22 : p2 1022 = 2 * p2 1021. Proof. change 1022%Z with (1 + 1021)%Z. rewrite bpow_plus. reflexivity. Qed.
Let E23 : p2 1023 = 4 * p2 1021. Proof. change 1023%Z with (2 + 1021)%Z. rewrite bpow_plus. reflexivity. Qed.
Let f22 : fmt (p2 1022). Proof. apply bpow_fmt; lia. Qed.
Let one : val (fint 1) = 1 /\ fin (fint 1). Proof. apply fint_val. lia. Qed.

Lemma step_val : exists s k, fin k /\ 0 <= val k <= 1 /\ fin s /\ val s = RN (val p + val r) /\
  (p2 (-1022) < val s -> val k = RN (val p / val s)) /\ (val s <= p2 (-1022) -> val k = 0) /\
  fk_x x k y x' /\ fk_P (fint 1) p k p'.
Proof.
destruct hu as (s & k & hs & hk & hx & hp). exists s, k. destruct one as [e1 f1].
destruct (mul_val (fint 1) p f1 fp) as [ea fa]; [rewrite e1, Rmult_1_l, Rabs_pos_eq; lra|]. rewrite e1, Rmult_1_l, RN_id in ea by apply val_fmt.
assert (S : val s = RN (val p + val r) /\ fin s).
{ destruct hs as [-> | ->].
  - destruct (mul_val (fmul (fint 1) p) (fint 1) fa f1) as [eb fb]; [rewrite ea, e1, Rmult_1_r, Rabs_pos_eq; lra|]. rewrite ea, e1, Rmult_1_r, RN_id in eb by apply val_fmt.
    rewrite <- eb. apply add_val; try assumption. rewrite eb. rewrite Rabs_pos_eq; lra.
  - destruct (fma_val (fmul (fint 1) p) (fint 1) r fa f1 fr) as [eb fb]; [rewrite ea, e1, Rmult_1_r, Rabs_pos_eq; lra|]. rewrite ea, e1, Rmult_1_r in eb. now split. }
destruct S as [es fs]. assert (ps : val p <= val s) by (rewrite es; apply RN_lower; [apply val_fmt|lra]).
destruct min_val as [em fm]. destruct (fabs_val s fs) as [eab fab]. rewrite Rabs_pos_eq in eab by lra.
assert (K : fin k /\ 0 <= val k <= 1 /\ (p2 (-1022) < val s -> val k = RN (val p / val s)) /\ (val s <= p2 (-1022) -> val k = 0)).
{ rewrite hk. unfold fk_K. destruct (flt f_min (fabs s)) eqn:F.
  - apply flt_val in F; try assumption. rewrite em, eab in F. pose proof (p2_pos (-1022)) as pm.
    assert (q : 0 <= val p / val s <= 1).
    { split; [apply Rmult_le_pos; [lra|left; apply Rinv_0_lt_compat; lra]|]. apply Rmult_le_reg_r with (val s); [lra|]. unfold Rdiv. rewrite Rmult_assoc, Rinv_l; lra. }
    destruct (div_val (fmul (fint 1) p) s fa) as [ed fd]; [lra| |].
    + rewrite ea, Rabs_pos_eq by lra. apply Rle_trans with (p2 0); [simpl; lra|apply bpow_le; lia].
    + rewrite ea in ed. split; [exact fd|]. split; [rewrite ed; split; [apply RN_lower; [apply generic_format_0|lra]|apply RN_upper; [apply (bpow_fmt 0); lia|lra]]|]. split; [auto|lra].
  - apply flt_valF in F; try assumption. rewrite em, eab in F. destruct (fint_val 0) as [e0 f0]; [lia|]. split; [exact f0|]. rewrite e0. split; [lra|]. split; [lra|auto]. }
tauto.
Qed.
(** C106 for direct measurements: the variance is never negative and never grows, for every variance r >= 0 of the measurement. *)
Theorem C106_direct : fin p' /\ 0 <= val p' <= val p.
Proof.
destruct step_val as (s & k & fk & bk & _ & _ & _ & _ & _ & hp). destruct one as [e1 f1].
assert (c1 : forall z, 0 <= z <= 1 -> Rabs z <= p2 1023) by (intros z hz; rewrite Rabs_pos_eq by lra; apply Rle_trans with (p2 0); [simpl; lra|apply bpow_le; lia]).
assert (D : exists c, fin c /\ 0 <= val c <= 1 /\ p' = fmul c p).
{ assert (f1' : fmt 1) by (apply (bpow_fmt 0); lia). destruct hp as [-> | ->].
  - destruct (mul_val k (fint 1) fk f1) as [ea fa]; [rewrite e1, Rmult_1_r; now apply c1|]. rewrite e1, Rmult_1_r, RN_id in ea by apply val_fmt.
    destruct (sub_val (fint 1) (fmul k (fint 1)) f1 fa) as [eb fb]; [rewrite ea, e1; apply c1; lra|]. rewrite ea, e1 in eb.
    eexists. split; [exact fb|]. split; [|reflexivity]. rewrite eb. split; [apply RN_lower; [apply generic_format_0|lra]|apply RN_upper; [exact f1'|lra]].
  - destruct (neg_val k fk) as [en fn]. destruct (fma_val (fneg k) (fint 1) (fint 1) fn f1 f1) as [eb fb]; [rewrite en, e1; apply c1; lra|]. rewrite en, e1 in eb.
    eexists. split; [exact fb|]. split; [|reflexivity]. rewrite eb. split; [apply RN_lower; [apply generic_format_0|lra]|apply RN_upper; [exact f1'|lra]]. }
destruct D as (c & fc & bc & ->). assert (b : 0 <= val c * val p <= val p).
{ split; [apply Rmult_le_pos; lra|]. rewrite <- (Rmult_1_l (val p)) at 2. apply Rmult_le_compat_r; lra. }
destruct (mul_val c p fc fp) as [ev fv]; [rewrite Rabs_pos_eq; lra|]. split; [exact fv|]. rewrite ev. split; [apply RN_lower; [apply generic_format_0|lra]|apply RN_upper; [apply val_fmt|lra]].
Qed.
Lemma d_val : fin (fsub y x) /\ val (fsub y x) = d /\ Rabs d <= p2 1022 /\ (val x <= val y -> 0 <= d) /\ (val y <= val x -> d <= 0) /\
  Rabs (d - (val y - val x)) <= uu * Rabs (val y - val x).
Proof.
apply Rabs_le_inv in bx. apply Rabs_le_inv in by'. destruct (sub_val y x fy fx) as [e f]; [apply Rabs_le; lra|]. fold d in e.
split; [exact f|]. split; [exact e|]. split; [apply Rabs_le; split; [apply RN_lower; [now apply generic_format_opp|lra]|apply RN_upper; [assumption|lra]]|].
split; [intros; apply RN_lower; [apply generic_format_0|lra]|]. split; [intros; apply RN_upper; [apply generic_format_0|lra]|].
destruct (sub_rel (val y) (val x) (val_fmt y) (val_fmt x)) as [t [ht E]]. unfold d. rewrite E. replace ((val y - val x) * (1 + t) - (val y - val x)) with (t * (val y - val x)) by ring.
rewrite Rabs_mult. apply Rmult_le_compat_r; [apply Rabs_pos|exact ht].
Qed.
(** The new estimate is the rounding of x + m with m between 0 and the rounded innovation, close to k d. *)
Lemma x_val : exists k m, fin x' /\ val x' = RN (val x + m) /\ 0 <= val k <= 1 /\ (0 <= d -> 0 <= m <= d) /\ (d <= 0 -> d <= m <= 0) /\
  Rabs (m - val k * d) <= uu * Rabs d + p2 (-1075) /\
  exists s, val s = RN (val p + val r) /\ (p2 (-1022) < val s -> val k = RN (val p / val s)).
Proof.
destruct step_val as (s & k & fk & bk & fs & es & ek & ek0 & hx & _). destruct d_val as (fd & ed & bd & d1 & d2 & _). apply Rabs_le_inv in bd. pose proof (Rabs_le_inv _ _ bx) as bx'.
assert (k1 : 0 <= d -> 0 <= val k * d <= d). { intros h. split; [apply Rmult_le_pos; lra|]. rewrite <- (Rmult_1_l d) at 2. apply Rmult_le_compat_r; lra. }
assert (k2 : d <= 0 -> d <= val k * d <= 0). { intros h. assert (0 <= val k * - d <= - d); [|lra]. split; [apply Rmult_le_pos; lra|]. rewrite <- (Rmult_1_l (- d)) at 2. apply Rmult_le_compat_r; lra. }
assert (kb : - p2 1022 <= val k * d <= p2 1022) by (destruct (Rle_or_lt 0 d) as [h|h]; [specialize (k1 h)|specialize (k2 (Rlt_le _ _ h))]; lra).
exists k. destruct hx as [-> | ->].
- destruct (mul_val k (fsub y x) fk fd) as [em fm]; [rewrite ed; apply Rabs_le; lra|]. rewrite ed in em. exists (RN (val k * d)).
  assert (m1 : 0 <= d -> 0 <= RN (val k * d) <= d) by (intros h; specialize (k1 h); split; [apply RN_lower; [apply generic_format_0|lra]|apply RN_upper; [apply RN_fmt|lra]]).
  assert (m2 : d <= 0 -> d <= RN (val k * d) <= 0) by (intros h; specialize (k2 h); split; [apply RN_lower; [apply RN_fmt|lra]|apply RN_upper; [apply generic_format_0|lra]]).
  assert (mb : - p2 1022 <= RN (val k * d) <= p2 1022) by (destruct (Rle_or_lt 0 d) as [h|h]; [specialize (m1 h)|specialize (m2 (Rlt_le _ _ h))]; lra).
  destruct (add_val x (fmul k (fsub y x)) fx fm) as [ea fa]; [rewrite em; apply Rabs_le; lra|]. rewrite em in ea.
  split; [exact fa|]. split; [exact ea|]. split; [exact bk|]. split; [exact m1|]. split; [exact m2|]. split; [|exists s; now split].
  destruct (RN_err (val k * d)) as [a [z [ha [hz E]]]]. rewrite E. rewrite ulp1_val in *. replace (val k * d * (1 + a) + z - val k * d) with (a * (val k * d) + z) by ring.
  eapply Rle_trans; [apply Rabs_triang|]. apply Rplus_le_compat; [|exact hz]. apply prod_le; [exact ha|]. rewrite Rabs_mult, (Rabs_pos_eq (val k)) by lra.
  rewrite <- (Rmult_1_l (Rabs d)) at 2. apply Rmult_le_compat_r; [apply Rabs_pos|lra].
- exists (val k * d). destruct (fma_val k (fsub y x) x fk fd fx) as [ea fa]; [rewrite ed; apply Rabs_le; lra|]. rewrite ed, Rplus_comm in ea.
  split; [exact fa|]. split; [exact ea|]. split; [exact bk|]. split; [exact k1|]. split; [exact k2|]. split; [|exists s; now split].
  unfold Rminus. rewrite Rplus_opp_r, Rabs_R0. pose proof (Rabs_pos d). pose proof (bpow_ge_0 radix2 (-1075)). assert (0 <= uu * Rabs d) by (apply Rmult_le_pos; lra). lra.
Qed.
Lemma z_near : Rabs (RN (val x + d) - val y) <= / 4503599627370496 * Rabs (val y - val x).
Proof.
destruct d_val as (_ & _ & _ & _ & _ & hd). pose proof (RN_best (val x + d) (val y) (val_fmt y)) as hb.
assert (E : Rabs (val y - (val x + d)) = Rabs (d - (val y - val x))) by (rewrite <- Rabs_Ropp; f_equal; ring). rewrite E in hb.
replace (RN (val x + d) - val y) with ((RN (val x + d) - (val x + d)) + (d - (val y - val x))) by ring. eapply Rle_trans; [apply Rabs_triang|]. lra.
Qed.
(** C107: the estimate moves towards the measurement and passes it by at most 2^-52 of the distance. *)
Theorem C107_towards : fin x' /\ (val x <= val y -> val x <= val x' <= val y + / 4503599627370496 * (val y - val x)) /\
  (val y <= val x -> val y - / 4503599627370496 * (val x - val y) <= val x' <= val x).
Proof.
destruct x_val as (k & m & f & e & _ & m1 & m2 & _). destruct d_val as (_ & _ & _ & d1 & d2 & _). pose proof z_near as z. apply Rabs_le_inv in z.
split; [exact f|]. rewrite e. split; intros h.
- rewrite (Rabs_pos_eq (val y - val x)) in z by lra. specialize (m1 (d1 h)). split; [apply RN_lower; [apply val_fmt|lra]|]. pose proof (RN_le (val x + m) (val x + d) ltac:(lra)). lra.
- rewrite (Rabs_left1 (val y - val x)) in z by lra. specialize (m2 (d2 h)). split; [|apply RN_upper; [apply val_fmt|lra]]. pose proof (RN_le (val x + d) (val x + m) ltac:(lra)). lra.
Qed.
(** It does not pass a measurement of the same sign and at most a factor of two away. *)
Theorem C107_between : val y / 2 <= val x <= 2 * val y -> Rmin (val x) (val y) <= val x' <= Rmax (val x) (val y).
Proof.
intros hs. assert (E : d = val y - val x). { unfold d. apply RN_id. replace (val y - val x) with (- (val x - val y)) by ring. apply generic_format_opp, sterbenz; try apply val_fmt; auto with typeclass_instances. }
destruct x_val as (k & m & f & e & _ & m1 & m2 & _). rewrite e. destruct (Rle_or_lt (val x) (val y)) as [h|h].
- rewrite Rmin_left, Rmax_right by lra. specialize (m1 ltac:(lra)). split; [apply RN_lower|apply RN_upper]; try apply val_fmt; lra.
- rewrite Rmin_right, Rmax_left by lra. specialize (m2 ltac:(lra)). split; [apply RN_lower|apply RN_upper]; try apply val_fmt; lra.
Qed.
(** It is the exact estimate x + p / (p + r) (y - x) up to rounding. *)
Theorem C107_error : p2 (-1021) <= val p -> Rabs (val x' - (val x + val p / (val p + val r) * (val y - val x))) <=
  / 1125899906842624 * (Rabs (val x) + Rabs (val y)) + p2 (-1074).
Proof.
intros hp. destruct x_val as (k & m & f & e & bk & m1 & m2 & em & s & es & ek). destruct d_val as (_ & _ & _ & d1 & d2 & hd).
set (L := Rabs (val x) + Rabs (val y)). set (w := val y - val x) in *. assert (wL : Rabs w <= L) by (unfold w, L; eapply Rle_trans; [apply Rabs_triang|]; rewrite Rabs_Ropp; lra).
pose proof (Rabs_pos w) as w0. pose proof (p2_pos (-1021)) as q0.
assert (dL : Rabs d <= 101 / 100 * Rabs w). { replace d with (w + (d - w)) by ring. eapply Rle_trans; [apply Rabs_triang|]. lra. }
assert (ps : val p <= val s) by (rewrite es; apply RN_lower; [apply val_fmt|lra]).
assert (lt2 : p2 (-1022) < p2 (-1021)) by (apply bpow_lt; lia). specialize (ek ltac:(lra)).
assert (eta : p2 (-1075) <= / 1000 * uu) by (apply Rle_trans with (p2 (-100)); [apply bpow_le; lia|simpl; lra]).
assert (e74 : p2 (-1074) = 2 * p2 (-1075)) by (change (-1074)%Z with (1 + -1075)%Z; rewrite bpow_plus; reflexivity). pose proof (p2_pos (-1075)) as q1.
assert (kk : Rabs (val k - val p / (val p + val r)) <= 22 / 10 * uu).
{ destruct (sub_rel (val p) (- val r) (val_fmt p)) as [t [ht Et]]; [apply generic_format_opp, val_fmt|]. replace (val p - - val r) with (val p + val r) in Et by ring. rewrite <- es in Et. apply Rabs_le_inv in ht.
  set (g := val p / (val p + val r)). assert (g1 : 0 <= g <= 1). { unfold g. split; [apply Rmult_le_pos; [lra|left; apply Rinv_0_lt_compat; lra]|]. apply Rmult_le_reg_r with (val p + val r); [lra|]. unfold Rdiv. rewrite Rmult_assoc, Rinv_l; lra. }
  assert (Eg : val p / val s = g * / (1 + t)) by (rewrite Et; unfold g; field; lra).
  assert (it : 1 - 101 / 100 * uu <= / (1 + t) <= 1 + 101 / 100 * uu).
  { split; apply Rmult_le_reg_r with (1 + t); try lra; rewrite Rinv_l by lra.
    - apply Rle_trans with ((1 - 101 / 100 * uu) * (1 + uu)); [apply Rmult_le_compat_l; lra|lra].
    - apply Rle_trans with ((1 + 101 / 100 * uu) * (1 - uu)); [lra|apply Rmult_le_compat_l; lra]. }
  assert (gq : Rabs (val p / val s - g) <= 101 / 100 * uu).
  { rewrite Eg. replace (g * / (1 + t) - g) with (g * (/ (1 + t) - 1)) by ring. replace (101 / 100 * uu) with (1 * (101 / 100 * uu)) by ring. apply prod_le; apply Rabs_le; lra. }
  apply Rabs_le_inv in gq. destruct (RN_err (val p / val s)) as [a [z [ha [hz Ez]]]]. rewrite ulp1_val in *.
  assert (aq : Rabs (a * (val p / val s)) <= uu * (101 / 100)) by (apply prod_le; [exact ha|apply Rabs_le; lra]).
  apply Rabs_le_inv in aq. apply Rabs_le_inv in hz. rewrite ek, Ez. apply Rabs_le. lra. }
assert (g0 : 0 <= val p / (val p + val r)) by (apply Rmult_le_pos; [lra|left; apply Rinv_0_lt_compat; lra]).
set (g := val p / (val p + val r)) in *.
assert (a1 : Rabs ((val k - g) * w) <= 22 / 10 * uu * L) by (apply prod_le; [exact kk|exact wL]).
assert (a2 : Rabs (val k * (d - w)) <= 1 * (uu * L)) by (apply prod_le; [apply Rabs_le; lra|lra]).
assert (a3 : Rabs (m - val k * d) <= 101 / 100 * uu * L + p2 (-1075)) by lra.
assert (mb : Rabs m <= Rabs d). { destruct (Rle_or_lt 0 d) as [h|h]; [specialize (m1 h); rewrite !Rabs_pos_eq; lra|specialize (m2 (Rlt_le _ _ h)); rewrite (Rabs_left1 d), (Rabs_left1 m); lra]. }
assert (x2 : Rabs (val x + m) <= 21 / 10 * L). { eapply Rle_trans; [apply Rabs_triang|]. unfold L in *. pose proof (Rabs_pos (val y)). lra. }
destruct (RN_err (val x + m)) as [a [z [ha [hz Ez]]]]. rewrite ulp1_val in *. pose proof (prod_le _ _ _ _ ha x2) as a4.
rewrite e, Ez. replace ((val x + m) * (1 + a) + z - (val x + g * w)) with (a * (val x + m) + z + (m - val k * d) + val k * (d - w) + (val k - g) * w) by ring.
apply Rabs_le_inv in a1. apply Rabs_le_inv in a2. apply Rabs_le_inv in a3. apply Rabs_le_inv in a4. apply Rabs_le_inv in hz. assert (0 <= L) by lra. apply Rabs_le. rewrite e74. lra.
Qed.
End Step.

(** Any number of measurements with values in [A, B]: an estimate that starts in [A, B] never leaves it by more than 2^-51 (B - A), and the
    variance stays between zero and its first value. *)
Theorem C107_run l x p x' p' A B : fk_seq l x p x' p' -> fin x -> fin p -> A <= val x <= B -> 0 <= val p <= p2 1022 -> - p2 1020 <= A -> B <= p2 1020 ->
  (forall r y, In (r, y) l -> fin r /\ fin y /\ 0 <= val r <= p2 1022 /\ A <= val y <= B) ->
  fin x' /\ fin p' /\ 0 <= val p' <= val p /\ A - / 2251799813685248 * (B - A) <= val x' <= B + / 2251799813685248 * (B - A).
Proof.
intros hr fx fp bx bp hA hB hl. assert (BA : A <= B) by lra. set (W := / 2251799813685248 * (B - A)).
assert (W0 : 0 <= W <= / 4 * (B - A)) by (unfold W; lra).
assert (bx' : A - W <= val x <= B + W) by lra. clear bx. assert (p20 : p2 1021 = 2 * p2 1020) by (change 1021%Z with (1 + 1020)%Z; rewrite bpow_plus; reflexivity).
pose proof (p2_pos 1020) as q0.
induction hr as [x p|r y l x p x1 p1 x' p' hu _ IH]; [repeat split; try assumption; lra|].
destruct (hl r y (or_introl eq_refl)) as (fr & fy & br & by1).
assert (cx : Rabs (val x) <= p2 1021) by (apply Rabs_le; lra). assert (cy : Rabs (val y) <= p2 1021) by (apply Rabs_le; lra).
destruct (C106_direct r y x p x1 p1 fr fp bp br hu) as [f1 b1].
destruct (C107_towards r y x p x1 p1 fr fy fx fp bp br cx cy hu) as (fx1 & t1 & t2).
assert (c1 : A - W <= val x1 <= B + W).
{ destruct (Rle_or_lt (val x) (val y)) as [h|h]; [specialize (t1 h)|specialize (t2 (Rlt_le _ _ h))]; unfold W in *; lra. }
destruct IH as (g1 & g2 & g3 & g4); try assumption; [lra|intros r0 y0 h0; apply hl; now right|].
split; [exact g1|]. split; [exact g2|]. split; [lra|exact g4].
Qed.
