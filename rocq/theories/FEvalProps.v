(** C105: evaluation points, weights and derivative scales of a mesh in double arithmetic. *)
From Coq Require Import Reals ZArith Lia Lra List Bool.
From Flocq Require Import Core BinarySingleNaN Relative Mult_error Plus_error.
From Verif Require Import LoopModel LoopFacts LoopEkf LoopAsif FPidModel FPidFacts FPidOut FMeshModel FMeshFacts FMeshProps FMeshThms FMeshNodes
  FQpModel FQpFacts FScaleModel FScaleProps FEvalModel.
Import ListNotations.
Open Scope R_scope.

(** Differences of doubles have a small relative error, also when they are tiny. *)
Lemma sub_rel x y : fmt x -> fmt y -> exists e, Rabs e <= uu /\ RN (x - y) = (x - y) * (1 + e).
Proof.
intros hx hy. destruct (FLT_plus_error_N_ex radix2 (-1074) 53 (fun z => negb (Z.even z)) x (- y) hx) as [e [he E]]; [now apply generic_format_opp|].
exists e. split; [|exact E]. eapply Rle_trans; [exact he|]. unfold u_ro. simpl. lra.
Qed.
Section Coord.
Variables (tau0 tauf : b64).
Hypotheses (f0 : fin tau0) (ff : fin tauf) (h0 : 0 <= val tau0) (h1 : val tauf <= 1) (hw : val tau0 < val tauf).
Let one_ok x : -1 <= x <= 1 -> Rabs x <= p2 1023.
Proof. intros h. pose proof (one_le_p2 1023 ltac:(lia)). apply Rabs_le. lra. Qed.
Lemma diff_val t : fin t -> val tau0 <= val t <= val tauf -> exists e, Rabs e <= uu /\ fin (fsub t tau0) /\
  val (fsub t tau0) = RN (val t - val tau0) /\ val (fsub t tau0) = (val t - val tau0) * (1 + e).
Proof.
intros ft ht. destruct (sub_val t tau0 ft f0) as [e f]; [apply one_ok; lra|]. destruct (sub_rel (val t) (val tau0)) as [d [hd E]]; try apply val_fmt.
exists d. split; [exact hd|]. split; [exact f|]. split; [exact e|]. now rewrite e, E.
Qed.
Lemma width_val : exists e, Rabs e <= uu /\ fin (fsub tauf tau0) /\ val (fsub tauf tau0) = RN (val tauf - val tau0) /\
  val (fsub tauf tau0) = (val tauf - val tau0) * (1 + e) /\ 0 < val (fsub tauf tau0) <= 1.
Proof.
destruct (diff_val tauf ff) as [e [he [f [E1 E2]]]]; [lra|]. exists e. do 4 (split; [assumption|]). split.
- rewrite E2. apply Rabs_le_inv in he. apply Rmult_lt_0_compat; lra.
- rewrite E1. apply RN_upper; [apply (bpow_fmt 0); lia|]. change (p2 0) with 1. lra.
Qed.
(** The quotient before 1 is subtracted. *)
Lemma quot_val t : fin t -> val tau0 <= val t <= val tauf ->
  let q := fdiv (fmul (fint 2) (fsub t tau0)) (fsub tauf tau0) in
  fin q /\ val q = RN (2 * val (fsub t tau0) / val (fsub tauf tau0)) /\ 0 <= 2 * val (fsub t tau0) / val (fsub tauf tau0) <= 2 /\ 0 <= val q <= 2.
Proof.
intros ft ht q. destruct (diff_val t ft ht) as [e [he [fa [Ea1 Ea2]]]]. destruct width_val as [g [hg [fb [Eb1 [Eb2 pb]]]]].
destruct (fint_val 2) as [e2 f2]; [lia|]. set (a := fsub t tau0) in *. set (w := fsub tauf tau0) in *.
assert (a0 : 0 <= val a). { rewrite Ea1. apply RN_lower; [apply generic_format_0|lra]. }
assert (ab : val a <= val w). { rewrite Ea1, Eb1. apply RN_le. lra. }
destruct (mul_val (fint 2) a f2 fa) as [em fm].
{ rewrite e2, Rabs_pos_eq by lra. pose proof (one_le_p2 1022 ltac:(lia)). replace 1023%Z with (1 + 1022)%Z by lia. rewrite bpow_plus. change (p2 1) with 2. lra. }
rewrite e2, RN_id in em by (apply (fmt_up _ 1); [lia|apply val_fmt]).
assert (Q : 0 <= 2 * val a / val w <= 2).
{ split; [apply Rmult_le_pos; [lra|left; now apply Rinv_0_lt_compat]|]. apply Rmult_le_reg_r with (val w); [lra|]. unfold Rdiv. rewrite Rmult_assoc, Rinv_l by lra. lra. }
destruct (div_val (fmul (fint 2) a) w fm) as [eq fq]; [lra| |].
{ rewrite em, Rabs_pos_eq by lra. apply Rle_trans with 2; [lra|]. change 2 with (p2 1). apply bpow_le. lia. }
rewrite em in eq. fold q in eq, fq. split; [exact fq|]. split; [exact eq|]. split; [exact Q|]. rewrite eq. split.
- apply RN_lower; [apply generic_format_0|lra].
- apply RN_upper; [apply (bpow_fmt 1); lia|]. change (p2 1) with 2. lra.
Qed.
Lemma coord_val t : fin t -> val tau0 <= val t <= val tauf -> fin (fe_coord tau0 tauf t) /\
  val (fe_coord tau0 tauf t) = RN (val (fdiv (fmul (fint 2) (fsub t tau0)) (fsub tauf tau0)) - 1).
Proof.
intros ft ht. destruct (quot_val t ft ht) as [fq [_ [_ bq]]]. destruct (fint_val 1) as [e1 f1]; [lia|].
destruct (sub_val _ (fint 1) fq f1) as [e f]; [rewrite e1; apply one_ok; lra|]. rewrite e1 in e. now split.
Qed.
(** C105: the coordinate lies in [-1, 1] in spite of the rounding, is exact at both ends and otherwise wrong by at most 2^-50. *)
Theorem C105_coord t : fin t -> val tau0 <= val t <= val tauf ->
  fin (fe_coord tau0 tauf t) /\ -1 <= val (fe_coord tau0 tauf t) <= 1 /\
  Rabs (val (fe_coord tau0 tauf t) - (2 * (val t - val tau0) / (val tauf - val tau0) - 1)) <= / 1125899906842624 /\
  (val t = val tau0 -> val (fe_coord tau0 tauf t) = -1) /\ (val t = val tauf -> val (fe_coord tau0 tauf t) = 1).
Proof.
intros ft ht. destruct (coord_val t ft ht) as [fc ec]. destruct (quot_val t ft ht) as [fq [eq [bQ bq]]].
set (q := fdiv _ _) in *. set (c := fe_coord tau0 tauf t) in *.
assert (m1 : fmt (-1)) by (apply generic_format_opp, (bpow_fmt 0); lia). assert (p1 : fmt 1) by (apply (bpow_fmt 0); lia).
assert (B : -1 <= val c <= 1). { rewrite ec. split; [apply RN_lower|apply RN_upper]; try assumption; lra. }
split; [exact fc|]. split; [exact B|].
destruct (diff_val t ft ht) as [e [he [fa [Ea1 Ea2]]]]. destruct width_val as [g [hg [fb [Eb1 [Eb2 pb]]]]].
set (a := val (fsub t tau0)) in *. set (w := val (fsub tauf tau0)) in *. set (A := val t - val tau0) in *. set (W := val tauf - val tau0) in *.
assert (pW : 0 < W) by (unfold W; lra). assert (pA : 0 <= A <= W) by (unfold A, W; lra).
apply Rabs_le_inv in he. apply Rabs_le_inv in hg.
split; [|split].
- (* 2 a / w against 2 A / W *)
  assert (r : 0 <= A / W <= 1). { split; [apply Rmult_le_pos; [lra|left; now apply Rinv_0_lt_compat]|]. apply Rmult_le_reg_r with W; [lra|]. unfold Rdiv. rewrite Rmult_assoc, Rinv_l by lra. lra. }
  assert (d1 : 2 * a / w - 2 * A / W = 2 * (A / W) * ((e - g) / (1 + g))). { rewrite Ea2, Eb2. field. split; lra. }
  assert (d2 : Rabs ((e - g) / (1 + g)) <= 201 / 100 * uu).
  { unfold Rdiv. rewrite Rabs_mult. assert (i : 0 < / (1 + g) <= 1001 / 1000).
    { split; [apply Rinv_0_lt_compat; lra|]. replace (1001 / 1000) with (/ (1000 / 1001)) by lra. apply Rinv_le; lra. }
    rewrite (Rabs_pos_eq (/ (1 + g))) by lra. assert (Rabs (e - g) <= 2 * uu) by (apply Rabs_le; lra). pose proof (Rabs_pos (e - g)).
    apply Rle_trans with (2 * uu * (1001 / 1000)); [apply Rmult_le_compat; lra|lra]. }
  assert (d3 : Rabs (2 * a / w - 2 * A / W) <= 402 / 100 * uu).
  { rewrite d1, Rabs_mult, Rabs_pos_eq by lra. pose proof (Rabs_pos ((e - g) / (1 + g))).
    apply Rle_trans with (2 * Rabs ((e - g) / (1 + g))); [apply Rmult_le_compat_r; lra|lra]. }
  assert (he2 : bpow radix2 (-1075) <= / 100 * uu). { apply Rle_trans with (p2 (-100)); [apply bpow_le; lia|simpl; lra]. }
  destruct (RN_err (2 * a / w)) as [x1 [y1 [hx1 [hy1 E1]]]]. rewrite <- eq in E1. rewrite ulp1_val in hx1.
  destruct (RN_err (val q - 1)) as [x2 [y2 [hx2 [hy2 E2]]]]. rewrite <- ec in E2. rewrite ulp1_val in hx2.
  assert (k1 : Rabs (2 * a / w * x1) <= 2 * uu). { apply prod_le; [rewrite Rabs_pos_eq; lra|exact hx1]. }
  assert (k2 : Rabs ((val q - 1) * x2) <= 1 * uu). { apply prod_le; [apply Rabs_le; lra|exact hx2]. }
  replace (2 * A / W) with (2 * a / w - (2 * a / w - 2 * A / W)) by ring. set (D := 2 * a / w - 2 * A / W) in *.
  replace (val c - (2 * a / w - D - 1)) with ((val q - 1) * x2 + y2 + (2 * a / w * x1 + y1) + D) by (rewrite E2, E1 at 1; ring_simplify; rewrite E1; ring).
  apply Rabs_le_inv in k1. apply Rabs_le_inv in k2. apply Rabs_le_inv in hy1. apply Rabs_le_inv in hy2. apply Rabs_le_inv in d3. apply Rabs_le. lra.
- intros E. assert (Z : a = 0) by (rewrite Ea2; unfold A; rewrite E; ring). rewrite ec. replace (val q) with 0.
  + rewrite Rminus_0_l. now apply RN_id.
  + rewrite eq, Z. unfold Rdiv. rewrite Rmult_0_r, Rmult_0_l, RN_0. reflexivity.
- intros E. assert (Z : a = w) by (rewrite Ea1, Eb1; unfold A, W; now rewrite E). rewrite ec. replace (val q) with 2.
  + replace (2 - 1) with 1 by ring. now apply RN_id.
  + rewrite eq, Z. replace (2 * w / w) with 2 by (field; lra). symmetry. apply RN_id, (bpow_fmt 1). lia.
Qed.
(** Later points have later coordinates. *)
Theorem C105_monotone t t' : fin t -> fin t' -> val tau0 <= val t -> val t <= val t' -> val t' <= val tauf ->
  val (fe_coord tau0 tauf t) <= val (fe_coord tau0 tauf t').
Proof.
intros ft ft' g1 g2 g3. destruct (coord_val t ft ltac:(lra)) as [_ ->]. destruct (coord_val t' ft' ltac:(lra)) as [_ ->].
apply RN_le, Rplus_le_compat_r. destruct (quot_val t ft ltac:(lra)) as [_ [-> _]]. destruct (quot_val t' ft' ltac:(lra)) as [_ [-> _]].
apply RN_le. destruct width_val as [_ [_ [_ [_ [_ pb]]]]]. unfold Rdiv. apply Rmult_le_compat_r; [left; apply Rinv_0_lt_compat; lra|].
apply Rmult_le_compat_l; [lra|]. destruct (diff_val t ft ltac:(lra)) as [_ [_ [_ [-> _]]]]. destruct (diff_val t' ft' ltac:(lra)) as [_ [_ [_ [-> _]]]].
apply RN_le. lra.
Qed.
(** The scale of the derivatives is a number, unless the interval is shorter than 2^-1000. *)
Theorem C105_dscale : p2 (-1000) <= val tauf - val tau0 ->
  fin (fe_dscale tau0 tauf) /\ 2 <= val (fe_dscale tau0 tauf) /\
  Rabs (val (fe_dscale tau0 tauf) * (val tauf - val tau0) - 2) <= / 1125899906842624.
Proof.
intros hm. destruct width_val as [g [hg [fb [Eb1 [Eb2 pb]]]]]. destruct (fint_val 2) as [e2 f2]; [lia|].
set (W := val tauf - val tau0) in *. set (w := val (fsub tauf tau0)) in *. unfold fe_dscale.
assert (wl : p2 (-1000) <= w) by (rewrite Eb1; apply RN_lower; [apply bpow_fmt; lia|exact hm]).
pose proof (p2_pos (-1000)) as p0.
assert (q : 2 <= 2 / w <= p2 1001).
{ split; [apply Rmult_le_reg_r with w; [lra|]; unfold Rdiv; rewrite Rmult_assoc, Rinv_l by lra; lra|].
  unfold Rdiv. change 1001%Z with (1 + - - (1000))%Z. rewrite bpow_plus, bpow_opp. change (p2 1) with 2. apply Rmult_le_compat_l; [lra|]. now apply Rinv_le. }
destruct (div_val (fint 2) (fsub tauf tau0) f2) as [ed fd]; [fold w; lra| |].
{ rewrite e2. fold w. rewrite Rabs_pos_eq by lra. eapply Rle_trans; [apply q|]. apply bpow_le. lia. }
rewrite e2 in ed. fold w in ed. split; [exact fd|]. rewrite ed. split; [apply RN_lower; [apply (bpow_fmt 1); lia|change (p2 1) with 2; lra]|].
destruct (RN_err (2 / w)) as [x [y [hx [hy E]]]]. rewrite E, ulp1_val in *. apply Rabs_le_inv in hg.
assert (pW : 0 < W <= 1) by (unfold W; lra).
assert (v : W / w = / (1 + g)) by (rewrite Eb2; field; lra).
assert (i : 1 - 11 / 10 * uu <= / (1 + g) <= 1 + 11 / 10 * uu).
{ split; apply Rmult_le_reg_r with (1 + g); try lra; rewrite Rinv_l by lra.
  - apply Rle_trans with ((1 - 11 / 10 * uu) * (1 + uu)); [apply Rmult_le_compat_l; lra|lra].
  - apply Rle_trans with ((1 + 11 / 10 * uu) * (1 - uu)); [lra|apply Rmult_le_compat_l; lra]. }
replace ((2 / w * (1 + x) + y) * W - 2) with (2 * (W / w - 1) + 2 * (W / w) * x + y * W) by (field; lra). rewrite v.
assert (k1 : Rabs (2 * / (1 + g) * x) <= 21 / 10 * uu) by (apply prod_le; [rewrite Rabs_pos_eq; lra|exact hx]).
assert (he2 : bpow radix2 (-1075) <= / 100 * uu). { apply Rle_trans with (p2 (-100)); [apply bpow_le; lia|simpl; lra]. }
assert (k2 : Rabs (y * W) <= / 100 * uu * 1) by (apply prod_le; [lra|rewrite Rabs_pos_eq; lra]).
apply Rabs_le_inv in k1. apply Rabs_le_inv in k2. apply Rabs_le. lra.
Qed.
(** Evaluating at a node gives the coordinate of the node, up to an error that grows for short intervals. *)
Theorem C105_node d : fin d -> -1 <= val d <= 1 -> val tau0 <= val (fm_node tau0 tauf d) <= val tauf ->
  Rabs (val (fe_coord tau0 tauf (fm_node tau0 tauf d)) - val d) <= / 281474976710656 / (val tauf - val tau0).
Proof.
intros fd hd hn. destruct width_val as [g [hg [fb [Eb1 [Eb2 pb]]]]]. destruct (fint_val 2) as [e2 f2]; [lia|]. destruct (fint_val 1) as [e1 f1]; [lia|].
set (W := val tauf - val tau0) in *. set (w := val (fsub tauf tau0)) in *. assert (pW : 0 < W <= 1) by (unfold W; lra).
assert (he2 : bpow radix2 (-1075) <= / 1000 * uu). { apply Rle_trans with (p2 (-100)); [apply bpow_le; lia|simpl; lra]. }
assert (ok : forall x, -4 <= x <= 4 -> Rabs x <= p2 1023).
{ intros x hx. apply Rle_trans with (p2 2); [apply Rabs_le; change (p2 2) with 4; lra|apply bpow_le; lia]. }
assert (err : forall x b, Rabs x <= b -> Rabs (RN x - x) <= uu * b + / 1000 * uu).
{ intros x b hx. destruct (RN_err x) as [x1 [y1 [hx1 [hy1 E1]]]]. rewrite E1, ulp1_val in *. pose proof (prod_le x1 x _ _ hx1 hx) as k.
  replace (x * (1 + x1) + y1 - x) with (x1 * x + y1) by ring. eapply Rle_trans; [apply Rabs_triang|]. lra. }
(* the half width *)
destruct (div_val (fsub tauf tau0) (fint 2) fb) as [ea fa]; [lra|rewrite e2; apply ok; fold w; lra|]. rewrite e2 in ea. fold w in ea.
set (al := fdiv (fsub tauf tau0) (fint 2)) in *.
assert (wW : Rabs (w - W) <= uu). { rewrite Eb2. replace (W * (1 + g) - W) with (g * W) by ring. replace uu with (uu * 1) by ring. apply prod_le; [exact hg|rewrite Rabs_pos_eq; lra]. }
pose proof (err (w / 2) (/ 2) ltac:(rewrite Rabs_pos_eq; lra)) as ka. rewrite <- ea in ka.
(* d + 1 *)
destruct (add_val d (fint 1) fd f1) as [es fs]; [apply ok; lra|]. rewrite e1 in es. pose proof (err (val d + 1) 2 ltac:(rewrite Rabs_pos_eq; lra)) as ks.
rewrite <- es in ks. set (s := fadd d (fint 1)) in *.
apply Rabs_le_inv in wW. apply Rabs_le_inv in ka. apply Rabs_le_inv in ks.
(* the product *)
assert (ba : Rabs (val al) <= 6 / 10) by (apply Rabs_le; lra). assert (bs : Rabs (val s) <= 201 / 100) by (apply Rabs_le; lra).
pose proof (prod_le _ _ _ _ ba bs) as bm.
destruct (mul_val al s fa fs) as [em fm]; [apply ok; apply Rabs_le_inv in bm; lra|].
pose proof (err _ _ bm) as km. rewrite <- em in km. set (pr := fmul al s) in *.
assert (k1 : Rabs ((val al - W / 2) * val s) <= 11 / 10 * uu * (201 / 100)) by (apply prod_le; [apply Rabs_le; lra|exact bs]).
assert (k2 : Rabs (W / 2 * (val s - (val d + 1))) <= / 2 * (21 / 10 * uu)) by (apply prod_le; apply Rabs_le; lra).
assert (k3 : Rabs (W / 2 * (val d + 1)) <= 1) by (replace 1 with (/ 2 * 2) by lra; apply prod_le; apply Rabs_le; lra).
apply Rabs_le_inv in k1. apply Rabs_le_inv in k2. apply Rabs_le_inv in k3. apply Rabs_le_inv in km.
assert (mm : Rabs (val pr - W / 2 * (val d + 1)) <= 5 * uu).
{ replace (val pr - W / 2 * (val d + 1)) with ((val pr - val al * val s) + (val al - W / 2) * val s + W / 2 * (val s - (val d + 1))) by ring. apply Rabs_le. lra. }
apply Rabs_le_inv in mm.
(* the node *)
destruct (add_val tau0 pr f0 fm) as [et ft]; [apply ok; lra|]. fold (fm_node tau0 tauf d) in et, ft.
change (fadd tau0 pr) with (fm_node tau0 tauf d) in et, ft. set (t := fm_node tau0 tauf d) in *.
pose proof (err (val tau0 + val pr) 3 ltac:(apply Rabs_le; lra)) as kt. rewrite <- et in kt. apply Rabs_le_inv in kt.
destruct (C105_coord t ft hn) as [_ [_ [c _]]]. fold W in c. apply Rabs_le_inv in c.
assert (D : Rabs (2 * (val t - val tau0) / W - 1 - val d) <= 2 * (9 * uu) / W).
{ replace (2 * (val t - val tau0) / W - 1 - val d) with (2 * (val t - (val tau0 + W / 2 * (val d + 1))) / W) by (field; lra).
  unfold Rdiv at 1. rewrite Rabs_mult, (Rabs_pos_eq (/ W)) by (left; apply Rinv_0_lt_compat; lra). apply Rmult_le_compat_r; [left; apply Rinv_0_lt_compat; lra|].
  apply Rabs_le. lra. }
assert (i1 : 1 <= / W) by (rewrite <- Rinv_1; apply Rinv_le; lra). apply Rabs_le_inv in D. unfold Rdiv in *. apply Rabs_le. lra.
Qed.
End Coord.

(** A table of weights: K positive numbers with sum close to 2, and a zero. *)
Definition wsum (l : list b64) : R := fold_right Rplus 0 (map val l).
Definition wtable (dl : R) (K : nat) (l : list b64) : Prop :=
  exists l' z, l = l' ++ [z] /\ length l' = K /\ Forall (fun d => fin d) l /\ Forall (fun d => 0 < val d) l' /\ val z = 0 /\ Rabs (wsum l' - 2) <= dl.
Lemma wsum_app a b : wsum (a ++ b) = wsum a + wsum b.
Proof. unfold wsum. induction a as [|x a IH]; simpl; [lra|]. rewrite IH. lra. Qed.
Section Sum.
Variables (lgw : nat -> list b64) (dl : R).
Hypotheses (hd0 : 0 <= dl <= 1).
Fixpoint tail_weights (c : fmesh) : list b64 :=
  match c with
  | [] => []
  | (K, t) :: c' =>
    match c' with
    | [] => firstn (K + 1) (map (fe_weight t (fint 1)) (lgw K))
    | x :: _ => firstn K (map (fe_weight t (snd x)) (lgw K)) ++ tail_weights c'
    end
  end.
Lemma all_weights_tail m : fe_all_weights lgw m = tail_weights m.
Proof.
unfold fe_all_weights. assert (G : forall c a, m = a ++ c -> concat (map (fun i => firstn (if Nat.ltb (i + 1) (length m) then fm_K m i else fm_K m i + 1)
  (fe_weights lgw m i)) (seq (length a) (length c))) = tail_weights c).
2:{ apply (G m []). reflexivity. }
induction c as [|[K t] c IH]; intros a E; [reflexivity|]. cbn [length seq map concat].
assert (E2 : m = (a ++ [(K, t)]) ++ c) by (rewrite E, <- app_assoc; reflexivity).
specialize (IH (a ++ [(K, t)]) E2). rewrite app_length in IH. simpl length in IH. rewrite Nat.add_1_r in IH. rewrite IH.
assert (k : fm_K m (length a) = K) by (unfold fm_K; rewrite E, nth_mid; reflexivity). rewrite k.
unfold fe_weights. rewrite k. assert (t0 : fm_tau0 m (length a) = t) by (unfold fm_tau0; rewrite E, nth_mid; reflexivity). rewrite t0.
pose proof (tauf_mid a K t c) as tf. rewrite <- E in tf. rewrite tf. clear IH. rewrite E, app_length. cbn [length tail_weights].
destruct c as [|x c]; cbn [length].
- destruct (Nat.ltb_spec (length a + 1) (length a + 1)); [lia|]. cbn [tail_weights]. now rewrite app_nil_r.
- destruct (Nat.ltb_spec (length a + 1) (length a + S (S (length c)))); [reflexivity|lia].
Qed.
Section Ival.
Variables (t y : b64).
Hypotheses (ft : fin t) (fy : fin y) (h0 : 0 <= val t) (h1 : val y <= 1) (hw : val t + p2 (-900) <= val y).
Let W := val y - val t.
Lemma weight_val d : fin d -> 0 <= val d <= 4 -> fin (fe_weight t y d) /\ 0 <= val (fe_weight t y d) /\
  Rabs (val (fe_weight t y d) - W / 2 * val d) <= 16 / 10 * uu * W * val d + p2 (-1075).
Proof.
intros fd hd. pose proof (p2_pos (-900)) as p9. destruct (width_val t y ft fy h0 h1 ltac:(lra)) as [g [hg [fb [Eb1 [Eb2 pb]]]]].
destruct (fint_val 2) as [e2 f2]; [lia|]. fold W in Eb1, Eb2. set (w := val (fsub y t)) in *. assert (pW : p2 (-900) <= W <= 1) by (unfold W; lra).
assert (ok : forall x, -4 <= x <= 4 -> Rabs x <= p2 1023).
{ intros x hx. apply Rle_trans with (p2 2); [apply Rabs_le; change (p2 2) with 4; lra|apply bpow_le; lia]. }
assert (he2 : bpow radix2 (-1075) <= / 1000 * uu * p2 (-900)). { apply Rle_trans with (p2 (-100) * p2 (-900)); [rewrite <- bpow_plus; apply bpow_le; lia|apply Rmult_le_compat_r; [lra|simpl; lra]]. }
apply Rabs_le_inv in hg.
destruct (div_val (fsub y t) (fint 2) fb) as [ea fa]; [lra|rewrite e2; apply ok; fold w; lra|]. rewrite e2 in ea. fold w in ea.
set (al := fdiv (fsub y t) (fint 2)) in *.
destruct (RN_err (w / 2)) as [x1 [y1 [hx1 [hy1 E1]]]]. rewrite <- ea in E1. rewrite ulp1_val in hx1.
assert (gW : Rabs (W * g) <= W * uu) by (apply prod_le; [rewrite Rabs_pos_eq; lra|apply Rabs_le; lra]). apply Rabs_le_inv in gW.
assert (k1 : Rabs (w / 2 * x1) <= (W * (1 + uu)) / 2 * uu) by (apply prod_le; [rewrite Rabs_pos_eq; lra|exact hx1]).
apply Rabs_le_inv in k1. apply Rabs_le_inv in hy1.
assert (da : Rabs (val al - W / 2) <= 102 / 100 * uu * W).
{ rewrite E1. apply Rabs_le. lra. }
assert (a0 : 0 <= val al <= 6 / 10 * W) by (apply Rabs_le_inv in da; lra).
assert (am : 0 <= val al * val d <= 3) by (split; [apply Rmult_le_pos; lra|apply Rle_trans with (6 / 10 * 4); [apply Rmult_le_compat; lra|lra]]).
destruct (mul_val al d fa fd) as [em fm]; [apply ok; lra|]. fold (fe_weight t y d) in em, fm. change (fmul al d) with (fe_weight t y d) in em, fm.
split; [exact fm|]. split; [rewrite em; apply RN_lower; [apply generic_format_0|lra]|].
destruct (RN_err (val al * val d)) as [x2 [y2 [hx2 [hy2 E2]]]]. rewrite <- em in E2. rewrite ulp1_val in hx2.
assert (k2 : Rabs (val al * val d * x2) <= 55 / 100 * W * val d * uu).
{ apply prod_le; [|exact hx2]. rewrite Rabs_pos_eq by lra. apply Rmult_le_compat_r; [lra|]. apply Rabs_le_inv in da. lra. }
assert (k3 : Rabs ((val al - W / 2) * val d) <= 102 / 100 * uu * W * val d) by (apply prod_le; [exact da|rewrite Rabs_pos_eq; lra]).
assert (Wd : 0 <= W * val d) by (apply Rmult_le_pos; lra).
rewrite E2. replace (val al * val d * (1 + x2) + y2 - W / 2 * val d) with (val al * val d * x2 + (val al - W / 2) * val d + y2) by ring.
apply Rabs_le_inv in k2. apply Rabs_le_inv in k3. apply Rabs_le_inv in hy2. apply Rabs_le. lra.
Qed.
Lemma weights_sum l : Forall (fun d => fin d) l -> Forall (fun d => 0 < val d <= 4) l -> Forall (fun x => fin x /\ 0 <= val x) (map (fe_weight t y) l) /\
  Rabs (wsum (map (fe_weight t y) l) - W / 2 * wsum l) <= 16 / 10 * uu * W * wsum l + INR (length l) * p2 (-1075).
Proof.
induction l as [|d l IH]; intros h1' h2.
- split; [constructor|]. unfold wsum. simpl. rewrite Rabs_pos_eq; lra.
- apply Forall_cons_iff in h1'. apply Forall_cons_iff in h2. destruct (IH (proj2 h1') (proj2 h2)) as [g1 g2].
  destruct (weight_val d (proj1 h1') ltac:(lra)) as [k1 [k2 k3]]. split; [constructor; [now split|exact g1]|].
  change (wsum (map (fe_weight t y) (d :: l))) with (val (fe_weight t y d) + wsum (map (fe_weight t y) l)).
  change (wsum (d :: l)) with (val d + wsum l). change (length (d :: l)) with (S (length l)). rewrite S_INR.
  apply Rabs_le_inv in g2. apply Rabs_le_inv in k3. apply Rabs_le. lra.
Qed.
Lemma wsum_each l : Forall (fun d => 0 < val d) l -> 0 <= wsum l /\ Forall (fun d => val d <= wsum l) l.
Proof.
induction l as [|d l IH]; intros h; [split; [unfold wsum; simpl; lra|constructor]|]. apply Forall_cons_iff in h. destruct (IH (proj2 h)) as [g1 g2].
change (wsum (d :: l)) with (val d + wsum l). split; [lra|]. constructor; [lra|]. eapply Forall_impl; [|exact g2]. simpl. intros. lra.
Qed.
Lemma ival_sum K : wtable dl K (lgw K) -> let l := map (fe_weight t y) (lgw K) in
  length l = (K + 1)%nat /\ Forall (fun x => fin x /\ 0 <= val x) l /\
  Rabs (wsum (firstn K l) - W) <= W * (dl / 2 + 48 / 10 * uu) + INR K * p2 (-1075) /\ Rabs (wsum (firstn (K + 1) l) - W) <= W * (dl / 2 + 48 / 10 * uu) + INR (K + 1) * p2 (-1075).
Proof.
intros (l' & z & E & hl & hf & hp & hz & hs) l. apply Rabs_le_inv in hs. destruct (wsum_each l' hp) as [s0 each].
assert (b4 : Forall (fun d => 0 < val d <= 4) l').
{ rewrite Forall_forall in *. intros d hd. specialize (hp d hd). specialize (each d hd). simpl in *. lra. }
rewrite E in hf. apply Forall_app in hf. destruct hf as [hf hfz]. apply Forall_inv in hfz.
destruct (weights_sum l' hf b4) as [g1 g2]. destruct (weight_val z hfz ltac:(rewrite hz; lra)) as [k1 [k2 k3]]. rewrite hz in k3.
assert (pW : 0 < W) by (pose proof (p2_pos (-900)); unfold W; lra).
assert (EL : l = map (fe_weight t y) l' ++ [fe_weight t y z]) by (unfold l; rewrite E, map_app; reflexivity).
assert (len : length (map (fe_weight t y) l') = K) by (rewrite map_length; exact hl).
assert (g3 : Rabs (wsum (map (fe_weight t y) l') - W) <= W * (dl / 2 + 48 / 10 * uu) + INR K * p2 (-1075)).
{ rewrite hl in g2. set (S := wsum l') in *. set (T := wsum (map _ l')) in *.
  assert (q1 : Rabs (W / 2 * (S - 2)) <= W / 2 * dl) by (apply prod_le; [rewrite Rabs_pos_eq; lra|apply Rabs_le; lra]).
  assert (q2 : uu * W * S <= uu * W * 3) by (apply Rmult_le_compat_l; [apply Rmult_le_pos; lra|lra]).
  apply Rabs_le_inv in g2. apply Rabs_le_inv in q1. apply Rabs_le. lra. }
split; [rewrite EL, app_length, len; reflexivity|]. split; [rewrite EL; apply Forall_app; split; [exact g1|constructor; [now split|constructor]]|].
split.
- rewrite EL, <- len, firstn_app, firstn_all, Nat.sub_diag, firstn_O, app_nil_r. rewrite len. exact g3.
- rewrite firstn_all2 by (rewrite EL, app_length, len; reflexivity). rewrite EL, wsum_app, plus_INR. change (wsum [fe_weight t y z]) with (val (fe_weight t y z) + 0). simpl INR.
  apply Rabs_le_inv in g3. apply Rabs_le_inv in k3. apply Rabs_le. lra.
Qed.
End Ival.
Lemma firstn_Forall {A} (Q : A -> Prop) k l : Forall Q l -> Forall Q (firstn k l).
Proof. intros h. rewrite <- (firstn_skipn k l) in h. now apply Forall_app in h. Qed.
Lemma tail_sum w c : p2 (-900) <= w -> forall K t, Forall (fun x => fin (snd x)) ((K, t) :: c) -> Forall (fun x => wtable dl (fst x) (lgw (fst x))) ((K, t) :: c) ->
  0 <= val t -> adj w (val t) (pts c ++ [1]) ->
  let l := tail_weights ((K, t) :: c) in let N := list_sum (map fst ((K, t) :: c)) in
  length l = (N + 1)%nat /\ Forall (fun x => fin x /\ 0 <= val x) l /\
  Rabs (wsum l - (1 - val t)) <= (1 - val t) * (dl / 2 + 48 / 10 * uu) + INR (N + 1) * p2 (-1075).
Proof.
intros hw. pose proof (p2_pos (-900)) as p9. destruct (fint_val 1) as [e1 f1]; [lia|].
induction c as [|[K' t'] c IH]; intros K t hf ht h0 ha l N.
- cbn [pts map app adj] in ha. apply Forall_inv in hf, ht. cbn [fst snd] in hf, ht.
  destruct (ival_sum t (fint 1) hf f1 h0 ltac:(lra) ltac:(lra) K ht) as (g1 & g2 & _ & g4). rewrite e1 in g4.
  unfold l, N. cbn [tail_weights map list_sum fold_right fst]. rewrite Nat.add_0_r. split; [rewrite firstn_length, g1; lia|]. split; [now apply firstn_Forall|exact g4].
- cbn [pts map app adj snd] in ha. destruct ha as [ha hb]. pose proof (Forall_inv hf) as ft. pose proof (Forall_inv ht) as tt. apply Forall_inv_tail in hf, ht. cbn [fst snd] in ft, tt.
  pose proof (Forall_inv hf) as ft'. cbn [snd] in ft'.
  assert (t1 : val t' <= 1) by (pose proof (adj_last w (val t') (pts c) 1 ltac:(lra) hb); lra).
  destruct (IH K' t' hf ht ltac:(lra) hb) as (i1 & i2 & i3).
  destruct (ival_sum t t' ft ft' h0 t1 ltac:(lra) K tt) as (g1 & g2 & g3 & _).
  unfold l, N. change (tail_weights ((K, t) :: (K', t') :: c)) with (firstn K (map (fe_weight t t') (lgw K)) ++ tail_weights ((K', t') :: c)).
  change (list_sum (map fst ((K, t) :: (K', t') :: c))) with (K + list_sum (map fst ((K', t') :: c)))%nat.
  set (M := list_sum (map fst ((K', t') :: c))) in *.
  split; [rewrite app_length, firstn_length, g1, i1; lia|]. split; [apply Forall_app; split; [now apply firstn_Forall|exact i2]|].
  rewrite wsum_app. replace (K + M + 1)%nat with (K + (M + 1))%nat by lia. rewrite plus_INR.
  apply Rabs_le_inv in g3. apply Rabs_le_inv in i3. apply Rabs_le. lra.
Qed.
(** C105: the weights of every mesh are nonnegative numbers, one for each collocation point and one more, and their sum is 1 up to
    the error of the table and rounding. *)
Theorem C105_weights w m : p2 (-900) <= w -> partition w m -> Forall (fun x => wtable dl (fst x) (lgw (fst x))) m ->
  let l := fe_all_weights lgw m in let N := list_sum (map fst m) in
  length l = (N + 1)%nat /\ Forall (fun x => fin x /\ 0 <= val x) l /\
  Rabs (wsum l - 1) <= dl / 2 + / 1125899906842624 + INR (N + 1) * p2 (-1075).
Proof.
intros hw (hf & hh & ha) ht l N. destruct m as [|[K t] c]; [simpl in hh; lra|]. cbn [pts map hd snd] in hh.
cbn [pts map app adjl snd] in ha. destruct (tail_sum w c hw K t hf ht ltac:(lra) ha) as (g1 & g2 & g3). unfold l, N. rewrite all_weights_tail.
split; [exact g1|]. split; [exact g2|]. rewrite hh in g3. replace (1 - 0) with 1 in g3 by ring. lra.
Qed.
End Sum.

(** Intervals of a partition. *)
Lemma adjl_suffix w a x l : adjl w (a ++ x :: l) -> adj w x l.
Proof.
destruct a as [|y a]; cbn [app adjl]; [easy|]. revert y. induction a as [|z a IH]; intros y; cbn [app adj]; [intros h; apply h|]. intros [_ h]. now apply (IH z).
Qed.
Lemma ival_ok w m i : 0 < w -> partition w m -> (i < length m)%nat ->
  fin (fm_tau0 m i) /\ fin (fm_tauf m i) /\ 0 <= val (fm_tau0 m i) /\ val (fm_tauf m i) <= 1 /\ val (fm_tau0 m i) + w <= val (fm_tauf m i).
Proof.
intros hw (hf & hh & ha) hi. destruct (nth_split m (0%nat, fint 1) hi) as [a [c [E hl]]]. destruct (fint_val 1) as [e1 f1]; [lia|].
destruct (nth i m (0%nat, fint 1)) as [K t] eqn:En. pose proof (tauf_mid a K t c) as tf. rewrite <- E, hl in tf. rewrite tf.
unfold fm_tau0. rewrite En. cbn [snd]. rewrite E in hf. pose proof (proj2 (proj1 (Forall_app _ _ _) hf)) as hc. pose proof (Forall_inv hc) as ft. apply Forall_inv_tail in hc. cbn [snd] in ft.
assert (a2 : adj w (val t) (pts c ++ [1])).
{ apply (adjl_suffix w (pts a)). replace (pts a ++ val t :: pts c ++ [1]) with (pts m ++ [1]); [exact ha|]. rewrite E. unfold pts. rewrite map_app, <- app_assoc. reflexivity. }
assert (t0 : 0 <= val t).
{ destruct a as [|[k0 s0] a].
  - rewrite E in hh. cbn [app pts map hd snd] in hh. lra.
  - rewrite E in hh, ha. cbn [app pts map hd snd adjl] in hh, ha. rewrite hh in ha. pose proof (adj_lt w 0 _ ltac:(lra) ha) as g.
    rewrite map_app, <- app_assoc in g. apply Forall_app in g. destruct g as [_ g]. cbn [map app snd] in g. now apply Forall_inv in g. }
split; [exact ft|]. destruct c as [|[k1 s1] c].
- cbn [pts map app adj] in a2. rewrite e1. split; [exact f1|]. split; [exact t0|]. lra.
- cbn [pts map app adj snd] in a2. destruct a2 as [a2 a3]. cbn [snd]. split; [exact (Forall_inv hc)|]. split; [exact t0|]. split; [|exact a2].
  pose proof (adj_last w (val s1) (pts c) 1 ltac:(lra) a3). lra.
Qed.
(** C105 for every history of mesh operations that C97 allows: in every interval the coordinate is a number in [-1, 1], exact at the
    ends, wrong by at most 2^-50; the scale of the derivatives is a number; the weights add up to 1. *)
Theorem C105_history (lgw : nat -> list b64) dl Kmin Kmax b n k l :
  (0 < Kmin <= Kmax)%nat -> (1 <= b <= 30)%nat -> (0 < n)%nat -> (Kmin <= k <= Kmax + 1)%nat -> 0 <= dl <= 1 ->
  (forall K, (Kmin <= K <= Kmax + 1)%nat -> wtable dl K (lgw K)) ->
  legal Kmin Kmax b (fm_uniform n k) l -> INR n * 2 ^ (b * rounds l) <= 100000000000 ->
  let m := fold_left (mrun Kmin Kmax) l (fm_uniform n k) in
  (forall i t, (i < length m)%nat -> fin t -> val (fm_tau0 m i) <= val t <= val (fm_tauf m i) ->
     let u := fe_coord (fm_tau0 m i) (fm_tauf m i) t in
     fin u /\ -1 <= val u <= 1 /\
     Rabs (val u - (2 * (val t - val (fm_tau0 m i)) / (val (fm_tauf m i) - val (fm_tau0 m i)) - 1)) <= / 1125899906842624 /\
     (val t = val (fm_tau0 m i) -> val u = -1) /\ (val t = val (fm_tauf m i) -> val u = 1)) /\
  (forall i, (i < length m)%nat -> fin (fe_dscale (fm_tau0 m i) (fm_tauf m i)) /\ 2 <= val (fe_dscale (fm_tau0 m i) (fm_tauf m i))) /\
  (let ws := fe_all_weights lgw m in let N := list_sum (map fst m) in
   length ws = (N + 1)%nat /\ Forall (fun x => fin x /\ 0 <= val x) ws /\
   Rabs (wsum ws - 1) <= dl / 2 + / 1125899906842624 + INR (N + 1) * bpow radix2 (-1075)).
Proof.
intros hK hb hn hk hd hT hl hs m. pose proof (C97_partition Kmin Kmax b hK hb n k l hn hl hs) as P. fold m in P. set (w := _ - 4 * eps) in P.
assert (e0 : 0 < eps <= / 1000000000000000) by (split; [apply bpow_gt_0|simpl; lra]).
assert (w0 : / 100000000000 - 4 * eps <= w).
{ unfold w. unfold Rdiv. rewrite Rmult_1_l. apply Rplus_le_compat_r. apply Rinv_le; [|exact hs]. apply Rmult_lt_0_compat; [apply (lt_INR 0); lia|].
  pose proof (pow_b_pos (b * rounds l)). lra. }
assert (w1 : p2 (-900) <= w). { apply Rle_trans with (p2 (-60)); [apply bpow_le; lia|]. apply Rle_trans with (2 := w0). simpl. lra. }
pose proof (p2_pos (-900)) as p9.
split; [|split].
- intros i t hi ft ht u. destruct (ival_ok w m i ltac:(lra) P hi) as (g1 & g2 & g3 & g4 & g5).
  apply (C105_coord _ _ g1 g2 g3 g4 ltac:(lra) t ft ht).
- intros i hi. destruct (ival_ok w m i ltac:(lra) P hi) as (g1 & g2 & g3 & g4 & g5).
  destruct (C105_dscale _ _ g1 g2 g3 g4 ltac:(lra)) as (k1 & k2 & _); [|now split].
  apply Rle_trans with (p2 (-900)); [apply bpow_le; lia|lra].
- apply (C105_weights lgw dl hd w m w1 P). pose proof (hist_deg Kmin Kmax b hK l _ hl (uniform_deg Kmin Kmax n k hk)) as D. fold m in D.
  eapply Forall_impl; [|exact D]. intros x hx. now apply hT.
Qed.
