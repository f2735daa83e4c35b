(** C106: the variance of a scalar EKF in double arithmetic. *)
From Coq Require Import Reals ZArith Lia Lra List Bool.
From Flocq Require Import Core BinarySingleNaN Relative.
From Verif Require Import LoopModel LoopFacts FPidModel FPidFacts FPidOut FQpModel FQpFacts FScaleModel FScaleProps FEkfModel.
Open Scope R_scope.

Lemma RN_rel x : p2 (-1020) <= Rabs x -> exists e, Rabs e <= uu /\ RN x = x * (1 + e).
Proof.
intros h. destruct (relative_error_N_FLT_ex radix2 (-1074) 53 ltac:(lia) (fun z => negb (Z.even z)) x) as [e [he E]].
- apply Rle_trans with (2 := h). apply bpow_le. lia.
- exists e. split; [|exact E]. eapply Rle_trans; [exact he|]. simpl. lra.
Qed.
Lemma fma_val a b r : fin a -> fin b -> fin r -> Rabs (val a * val b + val r) <= p2 1023 ->
  val (ffma a b r) = RN (val a * val b + val r) /\ fin (ffma a b r).
Proof.
intros ha hb hr h. pose proof (Bfma_correct 53 1024 p53_gt0 p53_lt mode_NE a b r ha hb hr) as g. cbv zeta in g.
rewrite Rlt_bool_true in g by (apply in_range; exact h). destruct g as [g1 [g2 _]]. now split.
Qed.
Lemma min_val : val f_min = p2 (-1022) /\ fin f_min.
Proof.
split; [|vm_compute; reflexivity]. unfold val. rewrite <- SF2R_B2SF.
replace (B2SF f_min) with (SpecFloat.S754_finite false 4503599627370496 (-1074)) by (vm_compute; reflexivity).
unfold SF2R, F2R, cond_Zopp, Fnum, Fexp. change (IZR 4503599627370496) with (p2 52). now rewrite <- bpow_plus.
Qed.
(** Signs are handled with absolute values. *)
Section Update.
Variables (h r p k q : b64).
Hypotheses (fh : fin h) (fr : fin r) (fp : fin p) (bh : p2 (-200) <= Rabs (val h) <= p2 200) (bp : p2 (-200) <= val p <= p2 200)
  (br : 0 <= val r <= p2 600) (hu : fk_update h r p k q).
Let X := val h * val h * val p.
Let up (a b : Z) : (a <= b)%Z -> p2 a <= p2 b. Proof. apply bpow_le. Qed.
Lemma X_bound : p2 (-600) <= X <= p2 600.
Proof.
unfold X. replace (val h * val h) with (Rabs (val h) * Rabs (val h)) by (rewrite <- Rabs_mult, Rabs_pos_eq; [reflexivity|apply Rle_0_sqr]).
pose proof (p2_pos (-200)) as p0. set (y := Rabs (val h)) in *.
change (-600)%Z with (-200 + -200 + -200)%Z. change 600%Z with (200 + 200 + 200)%Z. rewrite !bpow_plus.
assert (p2 (-200) * p2 (-200) <= y * y <= p2 200 * p2 200) by (split; apply Rmult_le_compat; lra).
assert (0 < p2 (-200) * p2 (-200)) by (apply Rmult_lt_0_compat; lra).
split; apply Rmult_le_compat; lra.
Qed.
(** The exact product of the gain and h, with the relative errors of the operations. *)
Lemma gain_val : exists e1 e2 e3 e4, Rabs e1 <= uu /\ Rabs e2 <= uu /\ Rabs e3 <= uu /\ Rabs e4 <= uu /\ fin k /\
  val k * val h = X * (1 + e1) * (1 + e4) / ((X * (1 + e1) * (1 + e2) + val r) * (1 + e3)).
Proof.
destruct hu as (s & hs & -> & _). pose proof X_bound as bX. pose proof (p2_pos (-200)) as p0. pose proof (p2_pos (-600)) as p6.
unfold fk_S in hs. set (a := fmul h p) in *.
assert (b1 : p2 (-400) <= Rabs (val h * val p) <= p2 400).
{ rewrite Rabs_mult, (Rabs_pos_eq (val p)) by lra. change (-400)%Z with (-200 + -200)%Z. change 400%Z with (200 + 200)%Z. rewrite !bpow_plus. split; apply Rmult_le_compat; lra. }
destruct (mul_val h p fh fp) as [ea fa]; [pose proof (up 400 1023 ltac:(lia)); lra|]. fold a in ea, fa.
destruct (RN_rel (val h * val p)) as [e1 [he1 E1]]; [pose proof (up (-1020) (-400) ltac:(lia)); lra|]. rewrite <- ea in E1.
pose proof (Rabs_le_inv _ _ he1) as he1'.
assert (ah : val a * val h = X * (1 + e1)) by (rewrite E1; unfold X; ring).
assert (ab : p2 (-600) * / 2 <= val a * val h <= p2 600 * 2). { rewrite ah. split; apply Rmult_le_compat; lra. }
assert (big : p2 600 * 2 <= p2 601) by (change 601%Z with (600 + 1)%Z; rewrite bpow_plus; change (p2 1) with 2; lra).
assert (sml : p2 (-601) <= p2 (-600) * / 2) by (change (-601)%Z with (-600 + -1)%Z; rewrite bpow_plus; change (p2 (-1)) with (/ 2); lra).
pose proof (p2_pos (-601)) as p61.
assert (b602 : 4 * p2 601 <= p2 603) by (change 603%Z with (601 + 2)%Z; rewrite bpow_plus; change (p2 2) with 4; lra).
assert (b603 : 8 * p2 603 <= p2 1023). { apply Rle_trans with (p2 3 * p2 603); [apply Rmult_le_compat_r; [apply bpow_ge_0|simpl; lra]|]. rewrite <- bpow_plus. apply up. lia. }
assert (b600 : p2 600 <= p2 601) by (apply up; lia).
(* s *)
assert (HS : exists e2 e3, Rabs e2 <= uu /\ Rabs e3 <= uu /\ fin s /\ val s = (X * (1 + e1) * (1 + e2) + val r) * (1 + e3)).
{ destruct hs as [-> | ->].
  - destruct (mul_val a h fa fh) as [em fm]; [rewrite Rabs_pos_eq; lra|].
    destruct (RN_rel (val a * val h)) as [e2 [he2 E2]]; [rewrite Rabs_pos_eq by lra; pose proof (up (-1020) (-601) ltac:(lia)); lra|]. rewrite <- em, ah in E2.
    pose proof (Rabs_le_inv _ _ he2) as he2'.
    assert (mb : p2 (-601) * / 2 <= val (fmul a h) <= p2 601 * 2) by (rewrite E2, <- ah; split; apply Rmult_le_compat; lra).
    destruct (add_val (fmul a h) r fm fr) as [es fs]; [rewrite Rabs_pos_eq; lra|].
    destruct (RN_rel (val (fmul a h) + val r)) as [e3 [he3 E3]].
    { rewrite Rabs_pos_eq by lra. apply Rle_trans with (p2 (-601) * / 2); [|lra]. change (/ 2) with (p2 (-1)). rewrite <- bpow_plus. apply up. lia. }
    exists e2, e3. split; [exact he2|]. split; [exact he3|]. split; [exact fs|]. now rewrite es, E3, E2.
  - destruct (fma_val a h r fa fh fr) as [es fs]; [rewrite Rabs_pos_eq; lra|].
    destruct (RN_rel (val a * val h + val r)) as [e3 [he3 E3]]; [rewrite Rabs_pos_eq by lra; pose proof (up (-1020) (-601) ltac:(lia)); lra|].
    exists 0, e3. split; [rewrite Rabs_R0; lra|]. split; [exact he3|]. split; [exact fs|]. rewrite es, E3, ah. ring. }
destruct HS as (e2 & e3 & he2 & he3 & fs & Es). pose proof (Rabs_le_inv _ _ he2) as he2'. pose proof (Rabs_le_inv _ _ he3) as he3'.
assert (sb : p2 (-603) <= val s <= p2 603).
{ assert (c : p2 (-601) * / 2 <= X * (1 + e1) * (1 + e2) <= p2 601 * 2) by (rewrite <- ah; split; apply Rmult_le_compat; lra).
  rewrite Es. change (-603)%Z with (-601 + -1 + -1)%Z. rewrite !bpow_plus. change (p2 (-1)) with (/ 2). split.
  - apply Rmult_le_compat; lra.
  - apply Rle_trans with ((p2 601 * 3) * (4 / 3)); [apply Rmult_le_compat; lra|lra]. }
pose proof (p2_pos (-603)) as p63.
(* the gain *)
unfold fk_K. destruct min_val as [vm fm]. destruct (fabs_val s fs) as [vs fs'].
assert (fl : flt f_min (fabs s) = true).
{ apply flt_val; [exact fm|exact fs'|]. rewrite vm, vs, Rabs_pos_eq by lra. apply Rlt_le_trans with (p2 (-603)); [apply bpow_lt; lia|lra]. }
rewrite fl. fold a.
assert (qa : p2 (-401) <= Rabs (val a) <= p2 401).
{ rewrite E1, Rabs_mult, (Rabs_pos_eq (1 + e1)) by lra. change (-401)%Z with (-400 + -1)%Z. change 401%Z with (400 + 1)%Z. rewrite !bpow_plus.
  change (p2 (-1)) with (/ 2). change (p2 1) with 2. pose proof (p2_pos (-400)). split; apply Rmult_le_compat; lra. }
assert (qb : p2 (-1010) <= Rabs (val a / val s) <= p2 1010).
{ unfold Rdiv. rewrite Rabs_mult, (Rabs_pos_eq (/ val s)) by (left; apply Rinv_0_lt_compat; lra).
  assert (i : p2 (-603) <= / val s <= p2 603).
  { split; [replace (p2 (-603)) with (/ p2 603) by apply p2_inv|replace (p2 603) with (/ p2 (-603)) by apply p2_inv]; apply Rinv_le; lra. }
  pose proof (p2_pos (-401)). split.
  - apply Rle_trans with (p2 (-401) * p2 (-603)); [rewrite <- bpow_plus; apply up; lia|apply Rmult_le_compat; lra].
  - apply Rle_trans with (p2 401 * p2 603); [apply Rmult_le_compat; lra|rewrite <- bpow_plus; apply up; lia]. }
destruct (div_val a s fa) as [ek fk]; [lra|pose proof (up 1010 1023 ltac:(lia)); lra|].
destruct (RN_rel (val a / val s)) as [e4 [he4 E4]]; [pose proof (up (-1020) (-1010) ltac:(lia)); lra|].
exists e1, e2, e3, e4. do 4 (split; [assumption|]). split; [exact fk|].
rewrite ek, E4. replace (val a / val s * (1 + e4) * val h) with (val a * val h * (1 + e4) / val s) by (field; lra). rewrite ah, Es. reflexivity.
Qed.
(** 1 - k h and the new variance, as rounded numbers. *)
Lemma new_val : 0 <= val k * val h <= 2 -> exists d, fin d /\ fin q /\ val q = RN (val d * val p) /\
  (val d = RN (1 - RN (val k * val h)) \/ val d = RN (1 - val k * val h)) /\ -2 <= val d <= 1.
Proof.
intros hk. destruct gain_val as (_ & _ & _ & _ & _ & _ & _ & _ & fk & _). destruct hu as (s & _ & _ & hq).
destruct (fint_val 1) as [e1 f1]; [lia|].
assert (ok : forall x, -4 <= x <= 4 -> Rabs x <= p2 1023).
{ intros x hx. apply Rle_trans with (p2 2); [apply Rabs_le; change (p2 2) with 4; lra|apply bpow_le; lia]. }
assert (m1 : fmt (-2)) by (apply generic_format_opp, (bpow_fmt 1); lia). assert (p1 : fmt 1) by (apply (bpow_fmt 0); lia). assert (p22 : fmt 2) by (apply (bpow_fmt 1); lia).
assert (HD : exists d, fin d /\ q = fmul d p /\ (val d = RN (1 - RN (val k * val h)) \/ val d = RN (1 - val k * val h)) /\ -2 <= val d <= 1).
{ destruct hq as [-> | ->].
  - destruct (mul_val k h fk fh) as [em fm]; [apply ok; lra|].
    assert (b : 0 <= val (fmul k h) <= 2) by (rewrite em; split; [apply RN_lower; [apply generic_format_0|lra]|apply RN_upper; [exact p22|lra]]).
    destruct (sub_val (fint 1) (fmul k h) f1 fm) as [ed fd]; [rewrite e1; apply ok; lra|]. rewrite e1 in ed.
    exists (fsub (fint 1) (fmul k h)). split; [exact fd|]. split; [reflexivity|]. split; [left; now rewrite ed, em|].
    rewrite ed. split; [apply RN_lower|apply RN_upper]; try assumption; lra.
  - destruct (neg_val k fk) as [en fn]. destruct (fma_val (fneg k) h (fint 1) fn fh f1) as [ed fd]; [rewrite en, e1; apply ok; lra|].
    rewrite en, e1 in ed. replace (- val k * val h + 1) with (1 - val k * val h) in ed by ring.
    exists (ffma (fneg k) h (fint 1)). split; [exact fd|]. split; [reflexivity|]. split; [now right|].
    rewrite ed. split; [apply RN_lower|apply RN_upper]; try assumption; lra. }
destruct HD as (d & fd & E & hd & bd). exists d. pose proof (p2_pos (-200)) as p0.
assert (b : Rabs (val d * val p) <= 2 * p2 200) by (apply prod_le; [apply Rabs_le; lra|rewrite Rabs_pos_eq; lra]).
destruct (mul_val d p fd fp) as [em fm]; [apply Rle_trans with (1 := b); change 2 with (p2 1); rewrite <- bpow_plus; apply bpow_le; lia|].
rewrite E. now repeat split.
Qed.
Lemma gain_bound : let y := val k * val h in 0 <= y <= 2 /\ Rabs (y - X / (X + val r)) <= 43 / 10 * uu /\ (/ 2251799813685248 * X <= val r -> y <= 1).
Proof.
intros y. destruct gain_val as (e1 & e2 & e3 & e4 & h1 & h2 & h3 & h4 & _ & E). fold y in E. pose proof X_bound as bX. pose proof (p2_pos (-600)) as p6.
apply Rabs_le_inv in h1. apply Rabs_le_inv in h2. apply Rabs_le_inv in h3. apply Rabs_le_inv in h4.
assert (X0 : 0 < X) by lra. set (R := val r) in *. set (A := X * (1 + e1)) in *.
assert (A0 : X * (1 - uu) <= A <= X * (1 + uu)) by (unfold A; split; apply Rmult_le_compat_l; lra).
assert (Ae : - (uu * A) <= A * e2 <= uu * A). { split; [replace (- (uu * A)) with (A * - uu) by ring|replace (uu * A) with (A * uu) by ring]; apply Rmult_le_compat_l; lra. }
assert (D0 : 0 < A * (1 + e2) + R) by (replace (A * (1 + e2)) with (A + A * e2) by ring; lra).
set (D := (A * (1 + e2) + R) * (1 + e3)) in *.
assert (DD : 0 < D) by (unfold D; apply Rmult_lt_0_compat; lra).
assert (Dl : (A + R) * (1 - 21 / 10 * uu) <= D <= (A + R) * (1 + 21 / 10 * uu)).
{ assert (f : (A + R) * (1 - uu) <= A * (1 + e2) + R <= (A + R) * (1 + uu)).
  { assert (0 <= R * uu) by (apply Rmult_le_pos; lra). lra. }
  assert (g : 0 < A + R) by lra. unfold D. split.
  - apply Rle_trans with ((A + R) * (1 - uu) * (1 - uu)); [rewrite Rmult_assoc; apply Rmult_le_compat_l; lra|]. apply Rmult_le_compat; try lra; apply Rmult_le_pos; lra.
  - apply Rle_trans with ((A + R) * (1 + uu) * (1 + uu)); [apply Rmult_le_compat; lra|rewrite Rmult_assoc; apply Rmult_le_compat_l; lra]. }
assert (y1 : 0 <= A / (A + R) <= 1).
{ split; [apply Rmult_le_pos; [lra|left; apply Rinv_0_lt_compat; lra]|]. apply Rmult_le_reg_r with (A + R); [lra|]. unfold Rdiv. rewrite Rmult_assoc, Rinv_l; lra. }
set (q1 := (A + R) / D * (1 + e4)).
assert (Eq : y = A / (A + R) * q1) by (rewrite E; unfold q1; field; lra).
assert (qb : 1 - 32 / 10 * uu <= q1 <= 1 + 32 / 10 * uu).
{ assert (i : 1 - 211 / 100 * uu <= (A + R) / D <= 1 + 211 / 100 * uu).
  { split; apply Rmult_le_reg_r with D; try lra; unfold Rdiv; rewrite (Rmult_assoc (A + R)), Rinv_l, Rmult_1_r by lra.
    - apply Rle_trans with ((1 - 211 / 100 * uu) * ((A + R) * (1 + 21 / 10 * uu))); [apply Rmult_le_compat_l; lra|].
      replace ((1 - 211 / 100 * uu) * ((A + R) * (1 + 21 / 10 * uu))) with ((A + R) * ((1 - 211 / 100 * uu) * (1 + 21 / 10 * uu))) by ring.
      rewrite <- (Rmult_1_r (A + R)) at 2. apply Rmult_le_compat_l; lra.
    - apply Rle_trans with ((1 + 211 / 100 * uu) * ((A + R) * (1 - 21 / 10 * uu))); [|apply Rmult_le_compat_l; lra].
      replace ((1 + 211 / 100 * uu) * ((A + R) * (1 - 21 / 10 * uu))) with ((A + R) * ((1 + 211 / 100 * uu) * (1 - 21 / 10 * uu))) by ring.
      rewrite <- (Rmult_1_r (A + R)) at 1. apply Rmult_le_compat_l; lra. }
  unfold q1. split.
  - apply Rle_trans with ((1 - 211 / 100 * uu) * (1 - uu)); [lra|apply Rmult_le_compat; lra].
  - apply Rle_trans with ((1 + 211 / 100 * uu) * (1 + uu)); [apply Rmult_le_compat; lra|lra]. }
assert (yq : Rabs (y - A / (A + R)) <= 32 / 10 * uu).
{ rewrite Eq. replace (A / (A + R) * q1 - A / (A + R)) with (A / (A + R) * (q1 - 1)) by ring. replace (32 / 10 * uu) with (1 * (32 / 10 * uu)) by ring.
  apply prod_le; apply Rabs_le; lra. }
split; [|split].
- apply Rabs_le_inv in yq. split; [|lra]. rewrite Eq. apply Rmult_le_pos; lra.
- assert (z : Rabs (A / (A + R) - X / (X + R)) <= 105 / 100 * uu).
  { replace (A / (A + R) - X / (X + R)) with (e1 * ((X / (A + R)) * (R / (X + R)))) by (unfold A; field; unfold A in *; lra).
    replace (105 / 100 * uu) with (uu * (105 / 100)) by ring. apply prod_le; [apply Rabs_le; lra|].
    replace (105 / 100) with (105 / 100 * 1) by ring. apply prod_le.
    - rewrite Rabs_pos_eq by (apply Rmult_le_pos; [lra|left; apply Rinv_0_lt_compat; lra]). apply Rmult_le_reg_r with (A + R); [lra|]. unfold Rdiv at 1. rewrite Rmult_assoc, Rinv_l; lra.
    - rewrite Rabs_pos_eq by (apply Rmult_le_pos; [lra|left; apply Rinv_0_lt_compat; lra]). apply Rmult_le_reg_r with (X + R); [lra|]. unfold Rdiv at 1. rewrite Rmult_assoc, Rinv_l; lra. }
  apply Rabs_le_inv in z. apply Rabs_le_inv in yq. apply Rabs_le. lra.
- intros hr. rewrite E. fold A. fold R. fold D. apply Rmult_le_reg_r with D; [exact DD|]. unfold Rdiv. rewrite Rmult_assoc, Rinv_l, Rmult_1_r, Rmult_1_l by lra.
  apply Rle_trans with ((A * (1 - uu) + R) * (1 - uu)).
  + apply Rle_trans with (A * (1 + uu)); [apply Rmult_le_compat_l; lra|]. assert (k1 : R * uu <= 1 / 1000 * R) by (rewrite Rmult_comm; apply Rmult_le_compat_r; lra).
    assert (k2 : A * uu * uu >= 0) by (apply Rle_ge, Rmult_le_pos; [apply Rmult_le_pos; lra|lra]). lra.
  + unfold D. apply Rmult_le_compat; try lra.
Qed.
(** C106: the variance after a measurement is p r / (h^2 p + r) up to 2^-50 p. *)
Theorem C106_error : fin q /\ Rabs (val q - val p * val r / (val h * val h * val p + val r)) <= / 1125899906842624 * val p.
Proof.
fold X. destruct gain_bound as (yb & ye & _). destruct (new_val yb) as (d & fd & fq & eq & hd & bd). split; [exact fq|].
pose proof X_bound as bX. pose proof (p2_pos (-600)) as p6. pose proof (p2_pos (-200)) as p0. set (y := val k * val h) in *. apply Rabs_le_inv in ye.
assert (he : p2 (-1075) <= / 1000 * uu) by (apply Rle_trans with (p2 (-100)); [apply bpow_le; lia|simpl; lra]).
assert (hp : p2 (-1075) <= / 1000 * uu * val p).
{ apply Rle_trans with (p2 (-100) * p2 (-200)); [rewrite <- bpow_plus; apply bpow_le; lia|]. apply Rmult_le_compat; try lra; try apply bpow_ge_0. simpl. lra. }
assert (r1 : X / (X + val r) = 1 - val r / (X + val r)) by (field; lra).
assert (r2 : 0 <= X / (X + val r) <= 1).
{ split; [apply Rmult_le_pos; [lra|left; apply Rinv_0_lt_compat; lra]|]. apply Rmult_le_reg_r with (X + val r); [lra|]. unfold Rdiv. rewrite Rmult_assoc, Rinv_l; lra. }
assert (err : forall x b, Rabs x <= b -> Rabs (RN x - x) <= uu * b + p2 (-1075)).
{ intros x b hx. destruct (RN_err x) as [x1 [z1 [hx1 [hz1 E1]]]]. rewrite E1, ulp1_val in *. pose proof (prod_le x1 x _ _ hx1 hx) as kk.
  replace (x * (1 + x1) + z1 - x) with (x1 * x + z1) by ring. eapply Rle_trans; [apply Rabs_triang|]. lra. }
assert (de : Rabs (val d - (1 - y)) <= 22 / 10 * uu).
{ destruct hd as [-> | ->].
  - pose proof (err y (11 / 10) ltac:(rewrite Rabs_pos_eq; lra)) as k1. apply Rabs_le_inv in k1.
    pose proof (err (1 - RN y) (101 / 100) ltac:(apply Rabs_le; lra)) as k2. apply Rabs_le_inv in k2. apply Rabs_le. lra.
  - pose proof (err (1 - y) (11 / 10) ltac:(apply Rabs_le; lra)) as k1. apply Rabs_le_inv in k1. apply Rabs_le. lra. }
apply Rabs_le_inv in de.
assert (db : Rabs (val d * val p) <= 101 / 100 * val p) by (apply prod_le; [apply Rabs_le; lra|rewrite Rabs_pos_eq; lra]).
pose proof (err _ _ db) as k3. rewrite <- eq in k3.
assert (k4 : Rabs ((val d - val r / (X + val r)) * val p) <= 65 / 10 * uu * val p) by (apply prod_le; [apply Rabs_le; lra|rewrite Rabs_pos_eq; lra]).
replace (val q - val p * val r / (X + val r)) with ((val q - val d * val p) + (val d - val r / (X + val r)) * val p) by (field; lra).
apply Rabs_le_inv in k3. apply Rabs_le_inv in k4. apply Rabs_le. lra.
Qed.
(** A measurement never increases the variance; it does not make it negative if the variance r of the measurement is at least
    2^-51 h^2 p. *)
Theorem C106_range : val q <= val p /\ (/ 2251799813685248 * (val h * val h * val p) <= val r -> 0 <= val q).
Proof.
fold X. destruct gain_bound as (yb & _ & yn). destruct (new_val yb) as (d & fd & fq & eq & hd & bd). pose proof (p2_pos (-200)) as p0. rewrite eq. split.
- apply RN_upper; [apply val_fmt|]. rewrite <- (Rmult_1_l (val p)) at 2. apply Rmult_le_compat_r; lra.
- intros hr. apply RN_lower; [apply generic_format_0|]. apply Rmult_le_pos; [|lra]. specialize (yn hr).
  assert (p1 : fmt 1) by (apply (bpow_fmt 0); lia). destruct hd as [-> | ->].
  + apply RN_lower; [apply generic_format_0|]. pose proof (RN_upper _ 1 p1 yn). lra.
  + apply RN_lower; [apply generic_format_0|lra].
Qed.
End Update.
