(** Rounding errors of the points of a mesh, and lists of points with gaps. *)
From Coq Require Import Reals ZArith Lia Lra List Bool.
From Flocq Require Import Core BinarySingleNaN Sterbenz.
From Verif Require Import LoopModel LoopFacts LoopEkf LoopAsif FMeshModel.
Import ListNotations.
Local Open Scope R_scope.

(** Consecutive points are at least w apart. *)
Fixpoint adj (w x : R) (l : list R) : Prop := match l with [] => True | y :: r => x + w <= y /\ adj w y r end.
Definition adjl (w : R) (l : list R) : Prop := match l with [] => True | x :: r => adj w x r end.
Lemma adj_le w w' x l : w' <= w -> adj w x l -> adj w' x l.
Proof. intros h. revert x. induction l as [|y l IH]; intros x; simpl; [easy|]. intros [h1 h2]. split; [lra|now apply IH]. Qed.
Lemma adjl_le w w' l : w' <= w -> adjl w l -> adjl w' l.
Proof. destruct l; [easy|]. apply adj_le. Qed.
Lemma adj_app w x l1 y l2 : adj w x (l1 ++ y :: l2) <-> adj w x (l1 ++ [y]) /\ adj w y l2.
Proof. revert x. induction l1 as [|z l1 IH]; intros x; simpl; [tauto|]. rewrite IH. tauto. Qed.
Lemma adjl_app w l1 y l2 : adjl w (l1 ++ y :: l2) <-> adjl w (l1 ++ [y]) /\ adj w y l2.
Proof. destruct l1 as [|z l1]; simpl; [tauto|]. apply adj_app. Qed.
Lemma adj_map {A} (f : A -> R) (R1 : A -> A -> Prop) w (l : list A) x :
  (forall a b, R1 a b -> f a + w <= f b) -> (forall r y z s, x :: l = r ++ y :: z :: s -> R1 y z) -> adj w (f x) (map f l).
Proof.
intros h. revert x. induction l as [|y l IH]; intros x hl; simpl; [easy|]. split.
- apply h. now apply (hl [] x y l).
- apply IH. intros r a b s E. apply (hl (x :: r) a b s). now rewrite E.
Qed.

(** The errors are bounded by 2^-50. *)
Notation eps := (bpow radix2 (-50)).
Lemma u_eps : 0 < u /\ eps = 8 * u /\ u <= / 1000000000000000.
Proof. split; [apply bpow_gt_0|]. split; simpl; lra. Qed.
Lemma tiny x : / 1000000000000000000000000000000 <= x -> bpow radix2 (-1000) <= x.
Proof. intros h. apply Rle_trans with (bpow radix2 (-120)); [apply bpow_le; lia|]. simpl. lra. Qed.
Lemma small_ok x : 0 <= x <= 4 -> 0 <= x <= bpow radix2 1023.
Proof. intros h. split; [lra|]. apply Rle_trans with (bpow radix2 2); [simpl; lra|]. apply bpow_le. lia. Qed.
(** Factors close to 1. *)
Definition near (a x y : R) : Prop := x * (1 - a * u) <= y <= x * (1 + a * u).
Lemma near_range a x y : near a x y -> 0 <= a <= 10 -> 0 <= x -> x / 2 <= y <= 2 * x.
Proof.
unfold near. destruct u_eps as [u0 [_ us]]. set (v := u) in *. clearbody v. intros hy ha hx.
assert (0 <= a * v <= / 2) by nra. set (w := a * v) in *. clearbody w. nra.
Qed.
Lemma near_mul a b x y p q : near a x y -> near b p q -> 0 <= a <= 10 -> 0 <= b <= 10 -> 0 <= x -> 0 <= p -> near (a + b + / 100) (x * p) (y * q).
Proof.
unfold near. destruct u_eps as [u0 [_ us]]. set (v := u) in *. clearbody v. intros [y1 y2] [q1 q2] ha hb hx hp.
assert (A : 0 <= a * v <= 10 * v) by nra. assert (B : 0 <= b * v <= 10 * v) by nra.
assert (C : 0 <= (a * v) * (b * v) <= / 100 * v) by (split; [nra|]; apply Rle_trans with ((10 * v) * (10 * v)); nra).
assert (A1 : 0 <= 1 - a * v) by nra. assert (B1 : 0 <= 1 - b * v) by nra. assert (xp : 0 <= x * p) by nra. clear ha hb. split.
- apply Rle_trans with (x * (1 - a * v) * (p * (1 - b * v))).
  + replace (x * (1 - a * v) * (p * (1 - b * v))) with (x * p * (1 - a * v - b * v + (a * v) * (b * v))) by ring.
    apply Rmult_le_compat_l; [exact xp|]. lra.
  + apply Rmult_le_compat; nra.
- apply Rle_trans with (x * (1 + a * v) * (p * (1 + b * v))).
  + assert (0 <= x * (1 - a * v)) by nra. assert (0 <= p * (1 - b * v)) by nra. apply Rmult_le_compat; lra.
  + replace (x * (1 + a * v) * (p * (1 + b * v))) with (x * p * (1 + a * v + b * v + (a * v) * (b * v))) by ring.
    apply Rmult_le_compat_l; [exact xp|]. lra.
Qed.
Lemma near_mono a b x y : near a x y -> 0 <= x -> a <= b -> near b x y.
Proof.
unfold near. destruct u_eps as [u0 _]. intros h hx ab. assert (a * u <= b * u) by (apply Rmult_le_compat_r; lra).
split; [apply Rle_trans with (2 := proj1 h)|apply Rle_trans with (1 := proj2 h)]; apply Rmult_le_compat_l; lra.
Qed.
Lemma near_refl x : near 0 x x. Proof. unfold near. lra. Qed.
Lemma near_RN a x y : near a x y -> 0 <= a <= 10 -> / 1000000000000000000000000000 <= x -> near (a + 1 + / 100) x (RN y).
Proof.
intros h ha hx. assert (0 <= x) by lra. pose proof (near_range a x y h ha ltac:(lra)) as g.
pose proof (RN_rel y (tiny y ltac:(lra))) as r.
assert (n : near 1 1 (RN y / y)).
{ unfold near. assert (y <> 0) by lra. assert (E : RN y / y * y = RN y) by (field; lra).
  split; apply Rmult_le_reg_r with y; try lra; rewrite E; lra. }
pose proof (near_mul a 1 x y 1 (RN y / y) h n ha ltac:(lra) ltac:(lra) ltac:(lra)) as m.
rewrite Rmult_1_r in m. replace (y * (RN y / y)) with (RN y) in m by (field; lra). exact m.
Qed.
Lemma fnat_val n : (Z.of_nat n <= 2 ^ 53)%Z -> val (fnat n) = INR n /\ fin (fnat n).
Proof. intros h. rewrite INR_IZR_INZ. apply fint_val. lia. Qed.
Section Point.
Variables tau0 tauf : b64.
Hypotheses (h0 : fin tau0) (hf : fin tauf) (p0 : 0 <= val tau0) (pf : val tauf <= 1) (pw : val tau0 + / 1000000000000 <= val tauf).
Let W := val tauf - val tau0.
Lemma W_range : / 1000000000000 <= W <= 1. Proof. unfold W; lra. Qed.

Lemma width : fin (fsub tauf tau0) /\ near 1 W (val (fsub tauf tau0)).
Proof.
destruct (fsub_val tauf tau0 hf h0) as [e f]; [apply small_ok; lra|]. split; [exact f|]. rewrite e.
unfold near. rewrite Rmult_1_l. apply (plus_rel (val tauf) (- val tau0)); [apply val_fmt|apply generic_format_opp, val_fmt|lra].
Qed.
(** Adding an offset s, known up to 5 u, to tau0. *)
Lemma offset s x : fin s -> 0 <= x <= W -> near 5 x (val s) ->
  fin (fadd tau0 s) /\ val tau0 + x - eps <= val (fadd tau0 s) <= val tau0 + x + eps.
Proof.
intros hs hx hv. pose proof (near_range 5 x (val s) hv ltac:(lra) ltac:(lra)) as g. unfold near in hv.
unfold W in hx. clear W pw. destruct (fadd_val tau0 s h0 hs) as [e f]; [apply small_ok; lra|]. split; [exact f|]. rewrite e.
pose proof (plus_rel (val tau0) (val s) (val_fmt _) (val_fmt _) ltac:(lra)) as q.
destruct u_eps as [u0 [ue us]]. rewrite ue. set (v := u) in *. clearbody v. set (r := RN _) in *. clearbody r.
set (a := val tau0) in *. set (b := val s) in *. set (c := val tauf) in *. clearbody a b c. clear - p0 pf hx hv g q u0 us.
assert (0 <= x * v <= v) by nra. assert (0 <= (a + b) * v <= 2 * v + / 1000 * v) by nra. nra.
Qed.
(** The points tau0 + j taum of refine_ph. *)
Lemma split_val n j : (0 < n)%nat -> (Z.of_nat n <= 2 ^ 40)%Z -> (0 < j <= n)%nat ->
  fin (fadd tau0 (fmul (fnat j) (fdiv (fsub tauf tau0) (fnat n)))) /\
  val tau0 + INR j * (W / INR n) - eps <= val (fadd tau0 (fmul (fnat j) (fdiv (fsub tauf tau0) (fnat n)))) <= val tau0 + INR j * (W / INR n) + eps.
Proof.
intros hn hn1 hj. destruct width as [fw vw]. pose proof W_range as wr.
destruct (fnat_val n) as [en fn]; [lia|]. destruct (fnat_val j) as [ej fj]; [lia|].
assert (n1 : 1 <= INR n <= 1100000000000).
{ rewrite INR_IZR_INZ. split; [apply (IZR_le 1); lia|]. apply Rle_trans with (IZR (2 ^ 40)); [apply IZR_le; lia|]. simpl; lra. }
assert (j1 : 1 <= INR j <= INR n) by (split; [apply (le_INR 1); lia|apply le_INR; lia]).
assert (i0 : / 1100000000000 <= / INR n <= 1).
{ split; [apply Rinv_le; lra|]. rewrite <- Rinv_1. apply Rinv_le; lra. }
assert (a1 : near (1 + / 100) (W / INR n) (val (fsub tauf tau0) / INR n)).
{ apply near_mono with (1 + 0 + / 100); [apply near_mul; try lra; [exact vw|apply near_refl]|unfold Rdiv; apply Rmult_le_pos; lra|lra]. }
assert (q1 : / 1100000000000 * / 1000000000000 <= W / INR n <= 1).
{ unfold Rdiv. split; [rewrite Rmult_comm; apply Rmult_le_compat; lra|]. rewrite <- (Rmult_1_l 1). apply Rmult_le_compat; lra. }
pose proof (near_range _ _ _ a1 ltac:(lra) ltac:(lra)) as g1.
destruct (fdiv_val (fsub tauf tau0) (fnat n) fw) as [ed fd]; [rewrite en; lra|rewrite en; apply small_ok; lra|]. rewrite en in ed.
pose proof (near_RN _ _ _ a1 ltac:(lra) ltac:(lra)) as r1. rewrite <- ed in r1.
set (tm := fdiv (fsub tauf tau0) (fnat n)) in *.
assert (jq : INR j * (W / INR n) <= W).
{ apply Rle_trans with (INR n * (W / INR n)); [apply Rmult_le_compat_r; lra|]. right. field. lra. }
assert (jp : W / INR n <= INR j * (W / INR n)) by (rewrite <- (Rmult_1_l (W / INR n)) at 1; apply Rmult_le_compat_r; lra).
pose proof (near_mul 0 _ (INR j) (INR j) _ _ (near_refl _) r1 ltac:(lra) ltac:(lra) ltac:(lra) ltac:(lra)) as r3.
pose proof (near_range _ _ _ r3 ltac:(lra) ltac:(lra)) as g3.
destruct (fmul_val (fnat j) tm fj fd) as [em fm]; [rewrite ej; apply small_ok; lra|]. rewrite ej in em.
pose proof (near_RN _ _ _ r3 ltac:(lra) ltac:(lra)) as r4. rewrite <- em in r4.
apply offset; [exact fm|lra|]. apply near_mono with (1 := r4); lra.
Qed.
(** The points of interval_nodes. *)
Lemma node_val d : fin d -> val d = -1 \/ -1 + / 1000 <= val d <= 1 ->
  fin (fm_node tau0 tauf d) /\ val tau0 + W / 2 * (val d + 1) - eps <= val (fm_node tau0 tauf d) <= val tau0 + W / 2 * (val d + 1) + eps.
Proof.
intros hd vd. destruct width as [fw vw]. pose proof W_range as wr. destruct (fint_val 1) as [e1 f1]; [lia|]. destruct (fint_val 2) as [e2 f2]; [lia|].
assert (a1 : near (1 + 0 + / 100) (W / 2) (val (fsub tauf tau0) / 2)) by (apply near_mul; try lra; [exact vw|apply near_refl]).
pose proof (near_range _ _ _ a1 ltac:(lra) ltac:(lra)) as g1.
destruct (fdiv_val (fsub tauf tau0) (fint 2) fw) as [ed fd]; [rewrite e2; lra|rewrite e2; apply small_ok; lra|]. rewrite e2 in ed.
pose proof (near_RN _ _ _ a1 ltac:(lra) ltac:(lra)) as r1. rewrite <- ed in r1.
unfold fm_node. set (al := fdiv (fsub tauf tau0) (fint 2)) in *.
pose proof (near_range _ _ _ r1 ltac:(lra) ltac:(lra)) as g2.
destruct (fadd_val d (fint 1) hd f1) as [es fs]; [rewrite e1; apply small_ok; lra|]. rewrite e1 in es.
destruct vd as [vd|vd].
- assert (es0 : val (fadd d (fint 1)) = 0) by (rewrite es, vd; replace (-1 + 1) with 0 by ring; apply RN_0).
  destruct (fmul_val al (fadd d (fint 1)) fd fs) as [em fm]; [rewrite es0, Rmult_0_r; apply small_ok; lra|].
  rewrite es0, Rmult_0_r, RN_0 in em. rewrite vd. replace (-1 + 1) with 0 by ring. rewrite Rmult_0_r.
  apply offset; [exact fm|lra|]. rewrite em. unfold near. lra.
- pose proof (plus_rel (val d) 1 (val_fmt _) (bpow_fmt 0 ltac:(lia)) ltac:(lra)) as q. rewrite <- es in q.
  assert (q' : near 1 (val d + 1) (val (fadd d (fint 1)))) by (unfold near; rewrite Rmult_1_l; exact q).
  pose proof (near_range _ _ _ q' ltac:(lra) ltac:(lra)) as g3.
  pose proof (near_mul _ _ _ _ _ _ r1 q' ltac:(lra) ltac:(lra) ltac:(lra) ltac:(lra)) as r3.
  set (x := val d + 1) in *. assert (x0 : / 1000 <= x <= 2) by (unfold x; lra).
  assert (z0 : / 1000000000000 / 2 * / 1000 <= W / 2 * x <= W).
  { split; [apply Rmult_le_compat; lra|]. apply Rle_trans with (W / 2 * 2); [apply Rmult_le_compat_l; lra|lra]. }
  pose proof (near_range _ _ _ r3 ltac:(lra) ltac:(lra)) as g4.
  destruct (fmul_val al (fadd d (fint 1)) fd fs) as [em fm]; [apply small_ok; lra|].
  pose proof (near_RN _ _ _ r3 ltac:(lra) ltac:(lra)) as r4. rewrite <- em in r4.
  apply offset; [exact fm|lra|]. apply near_mono with (1 := r4); lra.
Qed.
End Point.
(** Points of the uniform mesh. *)
Lemma uniform_val n i : (0 < n)%nat -> (Z.of_nat n <= 2 ^ 40)%Z -> (i <= n)%nat ->
  fin (fmul (fnat i) (fdiv (fint 1) (fnat n))) /\ INR i / INR n - eps <= val (fmul (fnat i) (fdiv (fint 1) (fnat n))) <= INR i / INR n + eps.
Proof.
destruct u_eps as [u0 [ue us]]. intros hn hn1 hi. destruct (fint_val 1) as [e1 f1]; [lia|].
destruct (fnat_val n) as [en fn]; [lia|]. destruct (fnat_val i) as [ei fi]; [lia|].
assert (n1 : 1 <= INR n <= 1100000000000).
{ rewrite INR_IZR_INZ. split; [apply (IZR_le 1); lia|]. apply Rle_trans with (IZR (2 ^ 40)); [apply IZR_le; lia|]. simpl; lra. }
assert (i0 : / 1100000000000 <= / INR n <= 1).
{ split; [apply Rinv_le; lra|]. rewrite <- Rinv_1. apply Rinv_le; lra. }
destruct (fdiv_val (fint 1) (fnat n) f1) as [ed fd]; [rewrite en; lra|rewrite e1, en; apply small_ok; unfold Rdiv; lra|]. rewrite e1, en in ed.
replace (1 / INR n) with (/ INR n) in ed by (field; lra).
pose proof (near_RN 0 (/ INR n) _ (near_refl _) ltac:(lra) ltac:(lra)) as r1. rewrite <- ed in r1.
set (dx := fdiv (fint 1) (fnat n)) in *. unfold Rdiv.
pose proof (near_range _ _ _ r1 ltac:(lra) ltac:(lra)) as g1.
destruct (Nat.eq_dec i 0) as [E|E].
- subst i. assert (ei0 : val (fnat 0) = 0) by (rewrite ei; reflexivity). destruct (fmul_val (fnat 0) dx fi fd) as [em fm]; [rewrite ei0, Rmult_0_l; apply small_ok; lra|].
  split; [exact fm|]. rewrite em, ei0. simpl INR. rewrite !Rmult_0_l, RN_0. lra.
- assert (i1 : 1 <= INR i <= INR n) by (split; [apply (le_INR 1); lia|apply le_INR; lia]).
  assert (jq : INR i * / INR n <= 1).
  { apply Rle_trans with (INR n * / INR n); [apply Rmult_le_compat_r; lra|]. right. field. lra. }
  assert (jp : / INR n <= INR i * / INR n) by (rewrite <- (Rmult_1_l (/ INR n)) at 1; apply Rmult_le_compat_r; lra).
  pose proof (near_mul 0 _ (INR i) (INR i) _ _ (near_refl _) r1 ltac:(lra) ltac:(lra) ltac:(lra) ltac:(lra)) as r3.
  pose proof (near_range _ _ _ r3 ltac:(lra) ltac:(lra)) as g3.
  destruct (fmul_val (fnat i) dx fi fd) as [em fm]; [rewrite ei; apply small_ok; lra|]. split; [exact fm|]. rewrite ei in em.
  pose proof (near_RN _ _ _ r3 ltac:(lra) ltac:(lra)) as r4. rewrite <- em in r4.
  pose proof (near_mono _ 5 _ _ r4 ltac:(lra) ltac:(lra)) as r5. unfold near in r5. rewrite ue.
  set (x := INR i * / INR n) in *. assert (x * u <= u) by (rewrite <- (Rmult_1_l u) at 2; apply Rmult_le_compat_r; lra). lra.
Qed.
