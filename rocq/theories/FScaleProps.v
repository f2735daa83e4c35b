(** C104: the scale factors of the QP solver in double arithmetic are positive numbers of bounded size. *)
From Coq Require Import Reals ZArith Lia Lra List Bool Permutation.
From Flocq Require Import Core BinarySingleNaN Relative Mult_error.
From Verif Require Import LoopModel LoopFacts FPidModel FPidFacts FPidOut FQpModel FQpFacts FQpProps FInfModel FInfProps FScaleModel.
Import ListNotations.
Open Scope R_scope.

Notation p2 := (bpow radix2).
Lemma p2_pos e : 0 < p2 e. Proof. apply bpow_gt_0. Qed.
Lemma fmt_up x e : (0 <= e)%Z -> fmt x -> fmt (p2 e * x).
Proof. intros he hx. rewrite Rmult_comm. apply mult_bpow_pos_exact_FLT; assumption. Qed.
Lemma RN_lower x a : fmt a -> a <= x -> a <= RN x. Proof. intros h1 h2. rewrite <- (RN_id a h1). now apply RN_le. Qed.
Lemma RN_upper x a : fmt a -> x <= a -> RN x <= a. Proof. intros h1 h2. rewrite <- (RN_id a h1). now apply RN_le. Qed.
Lemma div_val x y : fin x -> val y <> 0 -> Rabs (val x / val y) <= p2 1023 -> val (fdiv x y) = RN (val x / val y) /\ fin (fdiv x y).
Proof.
intros hx hy h. pose proof (Bdiv_correct 53 1024 p53_gt0 p53_lt mode_NE x y hy) as g.
rewrite Rlt_bool_true in g by (apply in_range; exact h). destruct g as [g1 [g2 _]]. split; [exact g1|].
unfold fin, fdiv. rewrite g2. exact hx.
Qed.
Lemma sqrt_val x : fin x -> 0 < val x -> val (fsqrt x) = RN (sqrt (val x)) /\ fin (fsqrt x).
Proof.
intros hx h. destruct (Bsqrt_correct 53 1024 p53_gt0 p53_lt mode_NE x) as [g1 [g2 _]]. split; [exact g1|].
unfold fin, fsqrt. rewrite g2. unfold fin, val in *. destruct x as [| | |[] mm ee hb]; try easy. exfalso. simpl in h.
pose proof (F2R_lt_0 radix2 (Float radix2 (Z.neg mm) ee) ltac:(simpl; lia)). lra.
Qed.
(** Products of absolute values bounded by powers of two. *)
Lemma mul_bound x y e z : fin x -> fin y -> Rabs (val x) <= p2 e -> (0 <= e)%Z -> Rabs (val y) <= z -> fmt z -> p2 e * z <= p2 1023 ->
  fin (fmul x y) /\ Rabs (val (fmul x y)) <= p2 e * z.
Proof.
intros fx fy hx he hy fz hz. pose proof (prod_le _ _ _ _ hx hy) as h. destruct (mul_val x y fx fy) as [ev fv]; [lra|]. split; [exact fv|]. rewrite ev.
pose proof (fmt_up z e he fz) as ff. apply Rabs_le_inv in h. apply Rabs_le. split.
- apply RN_lower; [now apply generic_format_opp|lra].
- apply RN_upper; [exact ff|lra].
Qed.
Lemma one0_val v : fin v -> 0 <= val v -> fin (f_one0 v) /\ 0 < val (f_one0 v) /\ (val (f_one0 v) = val v \/ val (f_one0 v) = 1).
Proof.
intros fv hv. destruct (fint_val 0) as [e0 f0]; [lia|]. destruct (fint_val 1) as [e1 f1]; [lia|]. unfold f_one0.
assert (E : feq v (fint 0) = Req_bool (val v) 0).
{ unfold feq. rewrite Beqb_correct by assumption. fold (val v). fold (val (fint 0)). now rewrite e0. }
rewrite E. case Req_bool_spec; intros h.
- split; [exact f1|]. rewrite e1. split; [lra|now right].
- split; [exact fv|]. split; [lra|now left].
Qed.
Lemma fnorm_bound n v B : (forall i, (i < n)%nat -> fin (v i) /\ Rabs (val (v i)) <= B) -> 0 <= B -> fin (fnorm n v) /\ 0 <= val (fnorm n v) <= B.
Proof.
intros h hB. destruct (lpnorm_val n v (fnorm n v) B) as [f [b _]]; [intros _; reflexivity|intros i hi; now apply h|exact hB|intros i hi; now apply h|].
now split.
Qed.
Lemma fnorm_from_bound a n v B : fin a -> 0 <= val a <= B -> (forall i, (i < n)%nat -> fin (v i) /\ Rabs (val (v i)) <= B) ->
  fin (fnorm_from a n v) /\ 0 <= val (fnorm_from a n v) <= B.
Proof.
intros fa ha. induction n as [|n IH]; intros h; [now split|]. destruct IH as [f b]; [intros; apply h; lia|]. destruct (h n) as [fv bv]; [lia|].
destruct (fabs_val _ fv) as [e1 f1]. destruct (fmax_val _ _ f f1) as [e2 f2]. change (fnorm_from a (S n) v) with (fmax (fnorm_from a n v) (fabs (v n))).
split; [exact f2|]. rewrite e2, e1. split; [eapply Rle_trans; [apply b|apply Rmax_l]|apply Rmax_lub; lra].
Qed.
Lemma em8_val : fin f_em8 /\ p2 (-27) <= val f_em8 < 1.
Proof.
split; [vm_compute; reflexivity|]. unfold val. rewrite <- SF2R_B2SF.
replace (B2SF f_em8) with (SpecFloat.S754_finite false 6044629098073146 (-79)) by (vm_compute; reflexivity).
unfold SF2R, F2R. simpl. lra.
Qed.
Lemma em6_val : fin f_em6 /\ p2 (-20) <= val f_em6 < 1.
Proof.
split; [vm_compute; reflexivity|]. unfold val. rewrite <- SF2R_B2SF.
replace (B2SF f_em6) with (SpecFloat.S754_finite false 4722366482869645 (-72)) by (vm_compute; reflexivity).
unfold SF2R, F2R. simpl. lra.
Qed.
Lemma p2_inv e : / p2 e = p2 (- e). Proof. now rewrite bpow_opp. Qed.
Lemma sqrt_p2 e : sqrt (p2 (2 * e)) = p2 e.
Proof. replace (2 * e)%Z with (e + e)%Z by lia. rewrite bpow_plus. apply sqrt_square. apply bpow_ge_0. Qed.

(** One factor: [l] and [u] bound the factor before, 2^k bounds inc / s; the lower bound is kept, the upper one grows by 2^14. *)
Lemma apply_range inc s l u k : fin s -> p2 l <= val s <= p2 u -> fin inc -> 0 < val inc <= p2 800 -> (val inc <= p2 k * val s \/ val inc <= 1) ->
  (l + k + 3 <= 0)%Z -> (-600 <= l <= 0)%Z -> (0 <= u <= 600)%Z ->
  fin (f_apply inc s) /\ p2 l <= val (f_apply inc s) <= p2 (u + 14).
Proof.
intros fs hs fi hi hk hlk hl hu. destruct em8_val as [f8 b8]. destruct (fint_val 1) as [e1 f1]; [lia|].
destruct (fmax_val inc f_em8 fi f8) as [ev fv]. unfold f_apply. set (v := fmax inc f_em8) in *.
pose proof (p2_pos (-27)) as p27. pose proof (p2_pos l) as pl.
assert (b800 : 1 <= p2 800) by (change 1 with (p2 0); apply bpow_le; lia).
assert (vb : p2 (-27) <= val v <= p2 800).
{ rewrite ev. split; [eapply Rle_trans; [apply b8|apply Rmax_r]|]. apply Rmax_lub; lra. }
(* the quotient *)
assert (qb : p2 (-800) <= / val v <= p2 27).
{ change (-800)%Z with (- (800))%Z. rewrite bpow_opp. replace (p2 27) with (/ p2 (-27)) by (rewrite p2_inv; reflexivity).
  split; apply Rinv_le; lra. }
destruct (div_val (fint 1) v f1) as [er fr]; [lra| |].
{ rewrite e1. unfold Rdiv. rewrite Rmult_1_l, Rabs_pos_eq by (left; apply Rinv_0_lt_compat; lra).
  eapply Rle_trans; [apply qb|]. apply bpow_le. lia. }
unfold Rdiv in er. rewrite e1, Rmult_1_l in er. set (r := fdiv (fint 1) v) in *.
assert (rb : p2 (-800) <= val r <= p2 27).
{ rewrite er. split; [apply RN_lower|apply RN_upper]; try apply bpow_fmt; try lia; lra. }
assert (r9 : 9 / 10 * / val v <= val r).
{ rewrite er. destruct (RN_err (/ val v)) as [d [h [hd [hh E]]]]. rewrite E, ulp1_val in *. apply Rabs_le_inv in hd. apply Rabs_le_inv in hh.
  assert (h1 : eta <= / 1000 * p2 (-800)) by (replace (/ 1000 * p2 (-800)) with (/ 1000 * p2 (-800)) by ring;
    apply Rle_trans with (p2 (-10) * p2 (-800)); [rewrite <- bpow_plus; apply bpow_le; lia|apply Rmult_le_compat_r; [apply bpow_ge_0|simpl; lra]]).
  assert (h2 : / val v * d >= - (uu * / val v)). { apply Rle_ge. pose proof (Rmult_le_compat_l (/ val v) _ _ ltac:(pose proof (p2_pos (-800)); lra) (proj1 hd)). lra. }
  lra. }
(* the square root *)
assert (r0 : 0 < val r) by (pose proof (p2_pos (-800)); lra).
destruct (sqrt_val r fr r0) as [eg fg]. set (g := fsqrt r) in *.
assert (sb : p2 (-400) <= sqrt (val r) <= p2 14).
{ split.
  - rewrite <- sqrt_p2. apply sqrt_le_1_alt. change (2 * -400)%Z with (-800)%Z. lra.
  - rewrite <- sqrt_p2. apply sqrt_le_1_alt. eapply Rle_trans; [apply rb|]. apply bpow_le. lia. }
assert (gb : p2 (-400) <= val g <= p2 14).
{ rewrite eg. split; [apply RN_lower|apply RN_upper]; try apply bpow_fmt; try lia; lra. }
assert (g9 : 9 / 10 * sqrt (val r) <= val g).
{ rewrite eg. destruct (RN_err (sqrt (val r))) as [d [h [hd [hh E]]]]. rewrite E, ulp1_val in *. apply Rabs_le_inv in hd. apply Rabs_le_inv in hh.
  assert (h1 : eta <= / 1000 * p2 (-400)) by (apply Rle_trans with (p2 (-10) * p2 (-400)); [rewrite <- bpow_plus; apply bpow_le; lia|apply Rmult_le_compat_r; [apply bpow_ge_0|simpl; lra]]).
  assert (h2 : sqrt (val r) * d >= - (uu * sqrt (val r))). { apply Rle_ge. pose proof (Rmult_le_compat_l (sqrt (val r)) _ _ ltac:(pose proof (p2_pos (-400)); lra) (proj1 hd)). lra. }
  lra. }
(* the product *)
pose proof (p2_pos (-400)) as p400. pose proof (p2_pos 14) as p14.
assert (mb : p2 (-400) * p2 l <= val g * val s <= p2 14 * p2 u).
{ split; apply Rmult_le_compat; lra. }
destruct (mul_val g s fg fs) as [em fm].
{ rewrite Rabs_pos_eq by (apply Rmult_le_pos; lra). eapply Rle_trans; [apply mb|]. rewrite <- bpow_plus. apply bpow_le. lia. }
split; [exact fm|]. rewrite em. split.
- destruct (Rle_lt_dec (val v) 1) as [v1|v1].
  + (* factors at least one *)
    assert (i1 : 1 <= / val v) by (rewrite <- Rinv_1; apply Rinv_le; lra).
    assert (i2 : 1 <= val r) by (rewrite er; apply RN_lower; [change 1 with (p2 0); apply bpow_fmt; lia|exact i1]).
    assert (i3 : 1 <= sqrt (val r)) by (rewrite <- sqrt_1; now apply sqrt_le_1_alt).
    assert (i4 : 1 <= val g) by (rewrite eg; apply RN_lower; [change 1 with (p2 0); apply bpow_fmt; lia|exact i3]).
    apply Rle_trans with (val s); [lra|]. apply RN_lower; [apply val_fmt|].
    pose proof (Rmult_le_compat_r (val s) _ _ ltac:(lra) i4). lra.
  + assert (vi : val v = val inc). { rewrite ev in v1 |- *. destruct (Rle_lt_dec (val inc) (val f_em8)) as [h|h]; [rewrite Rmax_right in v1 by lra; lra|rewrite Rmax_left; lra]. }
    assert (hk2 : val v <= p2 k * val s) by (destruct hk; lra).
    apply RN_lower; [apply bpow_fmt; lia|].
    (* (g s)^2 >= (9/10)^3 s^2 / v >= s / (2 2^k) >= 2^(2 l) *)
    assert (sq : val r = sqrt (val r) * sqrt (val r)) by (symmetry; apply sqrt_sqrt; lra).
    apply Rsqr_incr_0; [|lra|apply Rmult_le_pos; lra]. unfold Rsqr.
    assert (q1 : 81 / 100 * val r <= val g * val g).
    { assert (t0 : 0 <= 9 / 10 * sqrt (val r)) by lra. pose proof (Rmult_le_compat _ _ _ _ t0 t0 g9 g9). lra. }
    assert (q2 : / 2 * / val v <= val g * val g) by (pose proof (Rinv_0_lt_compat (val v) ltac:(lra)); lra).
    assert (q3 : / (p2 k * val s) <= / val v) by (apply Rinv_le; lra).
    assert (q4 : / 2 * / (p2 k * val s) * (val s * val s) <= val g * val g * (val s * val s)).
    { apply Rmult_le_compat_r; [apply Rmult_le_pos; lra|]. lra. }
    assert (q5 : / 2 * / (p2 k * val s) * (val s * val s) = p2 (- k - 1) * val s).
    { replace (p2 (- k - 1)) with (/ p2 k * / 2) by (unfold Zminus; rewrite bpow_plus, bpow_opp; simpl; lra). pose proof (p2_pos k). field. lra. }
    assert (q6 : p2 l <= p2 (- k - 1)) by (apply bpow_le; lia).
    assert (q7 : p2 l * p2 l <= p2 (- k - 1) * val s) by (apply Rmult_le_compat; lra).
    lra.
- apply RN_upper; [apply bpow_fmt; lia|]. rewrite Z.add_comm, bpow_plus. lra.
Qed.

Lemma mul_bound' x y e z : fin x -> fin y -> Rabs (val y) <= p2 e -> (0 <= e)%Z -> Rabs (val x) <= z -> fmt z -> p2 e * z <= p2 1023 ->
  fin (fmul x y) /\ Rabs (val (fmul x y)) <= p2 e * z.
Proof.
intros fx fy hy he hx fz hz. pose proof (prod_le _ _ _ _ hx hy) as h. destruct (mul_val x y fx fy) as [ev fv]; [lra|]. split; [exact fv|]. rewrite ev.
pose proof (fmt_up z e he fz) as ff. apply Rabs_le_inv in h. apply Rabs_le. split.
- apply RN_lower; [now apply generic_format_opp|lra].
- apply RN_upper; [exact ff|lra].
Qed.

Section Range.
Context (n m : nat) (p : fqp) (b : Z).
Hypothesis hb : (0 <= b <= 400)%Z.
Hypothesis hP : forall i j, (i < n)%nat -> (j < n)%nat -> fin (f_P p i j) /\ Rabs (val (f_P p i j)) <= p2 b.
Hypothesis hA : forall i j, (i < m)%nat -> (j < n)%nat -> fin (f_A p i j) /\ Rabs (val (f_A p i j)) <= p2 b.
Hypothesis hq : forall j, (j < n)%nat -> fin (f_q p j) /\ Rabs (val (f_q p j)) <= p2 b.

Lemma one_le_p2 e : (0 <= e)%Z -> 1 <= p2 e. Proof. intros h. change 1 with (p2 0). now apply bpow_le. Qed.

Definition inside (u : Z) (s : fscal) : Prop :=
  fin (fs_c s) /\ p2 (- (b + 1)) <= val (fs_c s) <= p2 20 /\
  (forall j, (j < n)%nat -> fin (fs_x s j) /\ p2 (- (b + 163)) <= val (fs_x s j) <= p2 u) /\
  (forall i, (i < m)%nat -> fin (fs_y s i) /\ p2 (- (b + 163)) <= val (fs_y s i) <= p2 u).

Lemma sP_bound u s i j : (0 <= u <= 140)%Z -> inside u s -> (i < n)%nat -> (j < n)%nat ->
  fin (f_sP p s i j) /\ Rabs (val (f_sP p s i j)) <= p2 (160 + b) * val (fs_x s j).
Proof.
intros hu (fc & hc & hx & hy) hi hj. destruct (hx i hi) as [fi bi]. destruct (hx j hj) as [fj bj]. destruct (hP i j hi hj) as [fp bp].
pose proof (p2_pos (- (b + 163))) as pl. pose proof (p2_pos (- (b + 1))) as pc.
assert (c1 : Rabs (val (fs_c s)) <= p2 20) by (rewrite Rabs_pos_eq; lra).
assert (x1 : Rabs (val (fs_x s i)) <= p2 140) by (rewrite Rabs_pos_eq by lra; eapply Rle_trans; [apply bi|apply bpow_le; lia]).
assert (xj : val (fs_x s j) <= p2 140) by (eapply Rle_trans; [apply bj|apply bpow_le; lia]).
unfold f_sP.
destruct (mul_bound (fs_c s) (fs_x s i) 20 (p2 140) fc fi c1) as [f1 b1]; [lia|exact x1|apply bpow_fmt; lia|rewrite <- bpow_plus; apply bpow_le; lia|].
rewrite <- bpow_plus in b1. change (20 + 140)%Z with 160%Z in b1.
destruct (mul_bound (fmul (fs_c s) (fs_x s i)) (fs_x s j) 160 (val (fs_x s j)) f1 fj b1) as [f2 b2]; [lia|rewrite Rabs_pos_eq; lra|apply val_fmt| |].
{ apply Rle_trans with (p2 160 * p2 140); [apply Rmult_le_compat_l; [apply bpow_ge_0|exact xj]|]. rewrite <- bpow_plus. apply bpow_le. lia. }
destruct (mul_bound' (fmul (fmul (fs_c s) (fs_x s i)) (fs_x s j)) (f_P p i j) b (p2 160 * val (fs_x s j)) f2 fp bp) as [f3 b3]; [lia|exact b2|apply fmt_up; [lia|apply val_fmt]| |].
{ rewrite <- Rmult_assoc, <- bpow_plus. apply Rle_trans with (p2 (b + 160) * p2 140); [apply Rmult_le_compat_l; [apply bpow_ge_0|exact xj]|].
  rewrite <- bpow_plus. apply bpow_le. lia. }
split; [exact f3|]. rewrite Z.add_comm, bpow_plus. lra.
Qed.
Lemma sA_bound u s i j : (0 <= u <= 140)%Z -> inside u s -> (i < m)%nat -> (j < n)%nat ->
  fin (f_sA p s i j) /\ Rabs (val (f_sA p s i j)) <= p2 (140 + b) * val (fs_x s j) /\ Rabs (val (f_sA p s i j)) <= p2 (140 + b) * val (fs_y s i).
Proof.
intros hu (fc & hc & hx & hy) hi hj. destruct (hy i hi) as [fi bi]. destruct (hx j hj) as [fj bj]. destruct (hA i j hi hj) as [fp bp].
pose proof (p2_pos (- (b + 163))) as pl.
assert (yi : val (fs_y s i) <= p2 140) by (eapply Rle_trans; [apply bi|apply bpow_le; lia]).
assert (xj : val (fs_x s j) <= p2 140) by (eapply Rle_trans; [apply bj|apply bpow_le; lia]).
unfold f_sA.
assert (k1 : forall z, z <= p2 140 -> p2 140 * z <= p2 1023).
{ intros z h. apply Rle_trans with (p2 140 * p2 140); [apply Rmult_le_compat_l; [apply bpow_ge_0|exact h]|]. rewrite <- bpow_plus. apply bpow_le. lia. }
assert (k2 : forall z, z <= p2 140 -> p2 b * (p2 140 * z) <= p2 1023).
{ intros z h. rewrite <- Rmult_assoc, <- bpow_plus. apply Rle_trans with (p2 (b + 140) * p2 140); [apply Rmult_le_compat_l; [apply bpow_ge_0|exact h]|].
  rewrite <- bpow_plus. apply bpow_le. lia. }
destruct (mul_bound (fs_y s i) (fs_x s j) 140 (val (fs_x s j)) fi fj) as [f1 b1]; [rewrite Rabs_pos_eq; lra|lia|rewrite Rabs_pos_eq; lra|apply val_fmt|now apply k1|].
destruct (mul_bound' (fs_y s i) (fs_x s j) 140 (val (fs_y s i)) fi fj) as [_ b2]; [rewrite Rabs_pos_eq; lra|lia|rewrite Rabs_pos_eq; lra|apply val_fmt|now apply k1|].
destruct (mul_bound' (fmul (fs_y s i) (fs_x s j)) (f_A p i j) b (p2 140 * val (fs_x s j)) f1 fp bp) as [f3 b3]; [lia|exact b1|apply fmt_up; [lia|apply val_fmt]|now apply k2|].
destruct (mul_bound' (fmul (fs_y s i) (fs_x s j)) (f_A p i j) b (p2 140 * val (fs_y s i)) f1 fp bp) as [_ b4]; [lia|exact b2|apply fmt_up; [lia|apply val_fmt]|now apply k2|].
split; [exact f3|]. rewrite Z.add_comm, bpow_plus. lra.
Qed.
Lemma round_inside u s : (0 <= u <= 140)%Z -> inside u s -> inside (u + 14) (f_round n m p s).
Proof.
intros hu hs. pose proof hs as (fc & hc & hx & hy). split; [exact fc|]. split; [exact hc|]. cbn [f_round fs_x fs_y].
pose proof (p2_pos (- (b + 163))) as pl.
split.
- intros j hj. destruct (hx j hj) as [fj bj].
  assert (K : 0 <= p2 (160 + b) * val (fs_x s j)) by (apply Rmult_le_pos; [apply bpow_ge_0|lra]).
  assert (K1 : p2 (140 + b) * val (fs_x s j) <= p2 (160 + b) * val (fs_x s j)) by (apply Rmult_le_compat_r; [lra|apply bpow_le; lia]).
  assert (K2 : p2 (160 + b) * val (fs_x s j) <= p2 800).
  { apply Rle_trans with (p2 (160 + b) * p2 u); [apply Rmult_le_compat_l; [apply bpow_ge_0|apply bj]|]. rewrite <- bpow_plus. apply bpow_le. lia. }
  destruct (fnorm_bound n (fun i => f_sP p s i j) _ (fun i hi => sP_bound u s i j hu hs hi hj) K) as [f1 b1].
  destruct (fnorm_from_bound _ m (fun i => f_sA p s i j) _ f1 b1) as [f2 b2].
  { intros i hi. destruct (sA_bound u s i j hu hs hi hj) as (h1 & h2 & _). split; [exact h1|lra]. }
  destruct (one0_val _ f2 (proj1 b2)) as [f3 [p3 e3]]. fold (f_xinc n m p s j) in f3, p3, e3.
  pose proof (one_le_p2 800 ltac:(lia)).
  apply (apply_range _ _ _ u (160 + b)); [exact fj|exact bj|exact f3|split; [exact p3|destruct e3; lra]|destruct e3; [left|right]; lra|lia|lia|lia].
- intros i hi. destruct (hy i hi) as [fi bi].
  assert (K : 0 <= p2 (140 + b) * val (fs_y s i)) by (apply Rmult_le_pos; [apply bpow_ge_0|lra]).
  assert (K2 : p2 (140 + b) * val (fs_y s i) <= p2 800).
  { apply Rle_trans with (p2 (140 + b) * p2 u); [apply Rmult_le_compat_l; [apply bpow_ge_0|apply bi]|]. rewrite <- bpow_plus. apply bpow_le. lia. }
  destruct (fnorm_bound n (fun j => f_sA p s i j) (p2 (140 + b) * val (fs_y s i))) as [f1 b1]; [|exact K|].
  { intros j hj. destruct (sA_bound u s i j hu hs hi hj) as (h1 & _ & h2). now split. }
  destruct (one0_val _ f1 (proj1 b1)) as [f3 [p3 e3]]. fold (f_yinc n p s i) in f3, p3, e3.
  pose proof (one_le_p2 800 ltac:(lia)).
  apply (apply_range _ _ _ u (140 + b)); [exact fi|exact bi|exact f3|split; [exact p3|destruct e3; lra]|destruct e3; [left|right]; lra|lia|lia|lia].
Qed.
Lemma inside_mono u v s : (u <= v)%Z -> inside u s -> inside v s.
Proof.
intros h (fc & hc & hx & hy). pose proof (bpow_le radix2 u v h).
split; [exact fc|]. split; [exact hc|]. split; [intros j hj; destruct (hx j hj) as [f k]|intros j hj; destruct (hy j hj) as [f k]]; (split; [exact f|lra]).
Qed.
Lemma loop_inside k : forall u s, (0 <= u)%Z -> (u + 14 * Z.of_nat k <= 140)%Z -> inside u s -> inside (u + 14 * Z.of_nat k + 14) (f_loop k n m p s).
Proof.
induction k as [|k IH]; intros u s hu hk hs.
- replace (u + 14 * Z.of_nat 0 + 14)%Z with (u + 14)%Z by lia. apply round_inside; [lia|exact hs].
- change (f_loop (S k) n m p s) with (if flt f_tenth (f_spread n m p s) then f_loop k n m p (f_round n m p s) else f_round n m p s).
  pose proof (round_inside u s ltac:(lia) hs) as hr. destruct (flt f_tenth (f_spread n m p s)).
  + replace (u + 14 * Z.of_nat (S k) + 14)%Z with ((u + 14) + 14 * Z.of_nat k + 14)%Z by lia. apply IH; [lia|lia|exact hr].
  + eapply inside_mono; [|exact hr]. lia.
Qed.

Lemma cost_range sum nq : (0 < n)%nat -> INR n <= 1125899906842624 ->
  dot (map (fun j => (f_cost_col n p j, fint 1)) (seq 0 n)) sum -> lpnorm n (f_q p) nq ->
  fin (f_cost n sum nq) /\ p2 (- (b + 1)) <= val (f_cost n sum nq) <= p2 20.
Proof.
intros hn hN hd hl. destruct (fint_val 1) as [e1 f1]; [lia|]. pose proof (one_le_p2 b ltac:(lia)) as b1.
assert (hc : forall j, (j < n)%nat -> fin (f_cost_col n p j) /\ 0 < val (f_cost_col n p j) <= p2 b).
{ intros j hj. destruct (fnorm_bound n (fun i => f_P p i j) (p2 b)) as [g1 g2]; [intros i hi; now apply hP|lra|].
  destruct (one0_val _ g1 (proj1 g2)) as [g3 [g4 g5]]. split; [exact g3|]. unfold f_cost_col. split; [exact g4|]. destruct g5; lra. }
set (L := map (fun j => (f_cost_col n p j, fint 1)) (seq 0 n)) in *.
assert (hL : forall k, (k <= n)%nat -> let l := map (fun j => (f_cost_col n p j, fint 1)) (seq 0 k) in
  0 <= rsum l <= INR k * p2 b /\ asum l = rsum l /\ fins l).
{ induction k as [|k IH]; intros hk l.
  - unfold l. simpl. split; [lra|]. split; [reflexivity|]. intros ? [].
  - destruct IH as (h1 & h2 & h3); [lia|]. subst l. destruct (hc k) as [g1 g2]; [lia|].
    rewrite seq_S, map_app, rsum_app, asum_app, h2, S_INR. cbn [map rsum asum fold_right fst snd Nat.add]. rewrite e1, Rmult_1_r, Rabs_pos_eq by lra.
    split; [lra|]. split; [reflexivity|]. intros ab hab. apply in_app_or in hab. destruct hab as [hab|[<-|[]]]; [now apply h3|now split]. }
destruct (hL n (le_n n)) as (h1 & h2 & h3). fold L in h1, h2, h3.
assert (len : length L = n) by (unfold L; now rewrite map_length, seq_length).
assert (n1 : 1 <= INR n) by (change 1 with (INR 1); apply le_INR; lia).
assert (nb : INR n * p2 b <= p2 450).
{ apply Rle_trans with (p2 50 * p2 400); [apply Rmult_le_compat; [lra|lra|simpl; lra|apply bpow_le; lia]|]. rewrite <- bpow_plus. apply bpow_le. lia. }
destruct (dot_err L sum hd h3) as [fs es]; [rewrite h2; apply Rle_trans with (p2 450); [lra|apply bpow_le; lia]|now rewrite len|].
rewrite len, h2 in es.
assert (ke : kc n * eta <= / 4 * (INR n * p2 b)).
{ pose proof (kc_le n). pose proof (kc_pos n).
  apply Rle_trans with (2 * INR n * / 8); [apply Rmult_le_compat; [lra|apply bpow_ge_0|lra|replace (/ 8) with (p2 (-3)) by (simpl; lra); apply bpow_le; lia]|].
  pose proof (Rmult_le_compat_l (INR n) _ _ ltac:(lra) b1). lra. }
assert (kn : 2 * INR n * uu * rsum L <= / 4 * rsum L) by (apply Rmult_le_compat_r; [apply h1|lra]).
apply Rabs_le_inv in es.
assert (kq : 0 <= 2 * INR n * uu * rsum L + kc n * eta) by lra.
assert (S1 : - (INR n * p2 b) <= val sum <= 2 * (INR n * p2 b)) by lra.
(* the mean *)
assert (nz : (0 <= Z.of_nat n <= 2 ^ 53)%Z).
{ split; [lia|]. apply le_IZR. rewrite <- INR_IZR_INZ. apply Rle_trans with (1 := hN). apply IZR_le. lia. }
destruct (fint_val (Z.of_nat n) nz) as [en fn]. rewrite <- INR_IZR_INZ in en.
assert (M1 : - p2 b <= val sum / INR n <= p2 (b + 1)).
{ rewrite bpow_plus. change (p2 1) with 2. split; apply (Rmult_le_reg_r (INR n)); try lra; unfold Rdiv; rewrite Rmult_assoc, Rinv_l by lra; lra. }
assert (b2 : p2 b <= p2 (b + 1)) by (apply bpow_le; lia).
destruct (div_val sum (fint (Z.of_nat n)) fs) as [em fm]; [lra| |].
{ rewrite en. apply Rle_trans with (p2 (b + 1)); [apply Rabs_le; lra|apply bpow_le; lia]. }
assert (M2 : val (fdiv sum (fint (Z.of_nat n))) <= p2 (b + 1)) by (rewrite em, en; apply RN_upper; [apply bpow_fmt; lia|lra]).
destruct (lpnorm_val n (f_q p) nq (p2 b) hl) as [fq [bq _]]; [intros j hj; now apply hq|lra|intros j hj; now apply hq|].
destruct em6_val as [f6 b6].
destruct (fmax_val _ _ f6 fm) as [ea fa]. destruct (fmax_val _ _ fa fq) as [eb fb].
unfold f_cost. set (d := fmax (fmax f_em6 _) nq) in *.
assert (D : p2 (-20) <= val d <= p2 (b + 1)).
{ rewrite eb, ea. split; [eapply Rle_trans; [apply b6|]; eapply Rle_trans; [apply Rmax_l|apply Rmax_l]|]. repeat apply Rmax_lub; lra. }
pose proof (p2_pos (-20)) as p20.
assert (I : p2 (- (b + 1)) <= / val d <= p2 20).
{ rewrite bpow_opp. replace (p2 20) with (/ p2 (-20)) by (rewrite p2_inv; reflexivity). split; apply Rinv_le; lra. }
pose proof (p2_pos (- (b + 1))) as pb.
destruct (div_val (fint 1) d f1) as [ec fc]; [lra| |].
{ rewrite e1. unfold Rdiv. rewrite Rmult_1_l, Rabs_pos_eq by lra. eapply Rle_trans; [apply I|apply bpow_le; lia]. }
split; [exact fc|]. rewrite ec, e1. unfold Rdiv. rewrite Rmult_1_l. split; [apply RN_lower|apply RN_upper]; try apply bpow_fmt; try lia; lra.
Qed.
End Range.

(** C104: for at most 2^50 variables and finite data of magnitude at most 2^b, b <= 400, the cost factor lies in
    [2^-(b+1), 2^20] and every other factor in [2^-(b+163), 2^154]: none is zero, infinite or NaN. *)
Theorem C104_range (n m : nat) (p : fqp) (s : fscal) (b : Z) :
  f_scale n m p s -> (0 < n)%nat -> INR n <= 1125899906842624 -> (0 <= b <= 400)%Z ->
  (forall i j, (i < n)%nat -> (j < n)%nat -> fin (f_P p i j) /\ Rabs (val (f_P p i j)) <= bpow radix2 b) ->
  (forall i j, (i < m)%nat -> (j < n)%nat -> fin (f_A p i j) /\ Rabs (val (f_A p i j)) <= bpow radix2 b) ->
  (forall j, (j < n)%nat -> fin (f_q p j) /\ Rabs (val (f_q p j)) <= bpow radix2 b) ->
  (fin (fs_c s) /\ bpow radix2 (- (b + 1)) <= val (fs_c s) <= bpow radix2 20) /\
  (forall j, (j < n)%nat -> fin (fs_x s j) /\ bpow radix2 (- (b + 163)) <= val (fs_x s j) <= bpow radix2 154) /\
  (forall i, (i < m)%nat -> fin (fs_y s i) /\ bpow radix2 (- (b + 163)) <= val (fs_y s i) <= bpow radix2 154).
Proof.
intros (sum & nq & hd & hl & ->) hn hN hb hP hA hq. destruct (cost_range n p b hb hP hq sum nq hn hN hd hl) as [fc bc].
destruct (fint_val 1) as [e1 f1]; [lia|].
assert (one : fin (fint 1) /\ p2 (- (b + 163)) <= val (fint 1) <= p2 0).
{ split; [exact f1|]. rewrite e1. split; [change 1 with (p2 0); apply bpow_le; lia|simpl; lra]. }
destruct (loop_inside n m p b hb hP hA 10 0 (FScal (f_cost n sum nq) (fun _ => fint 1) (fun _ => fint 1))) as (g1 & g2 & g3 & g4); [lia|lia| |].
{ split; [exact fc|]. split; [exact bc|]. split; intros; exact one. }
now repeat split; try apply g1; try apply g2; try apply g3; try apply g4.
Qed.

(** With the factors that scale computes, and data of magnitude at most 2^137, an Optimal answer satisfies the tolerances of
    C102: the range of the factors is not an assumption any more. *)
Theorem C104_answer (n m : nat) (p : fqp) (s : fscal) (ea er : b64) (x y w primal dual : fvec) (N : nat) (T B : R) :
  f_scale n m p s -> f_returns n m p ea er (fs_c s) (fs_x s) (fs_y s) x y w primal dual -> finite_qp n m p -> (0 < n)%nat ->
  (forall i j, (i < n)%nat -> (j < n)%nat -> Rabs (val (f_P p i j)) <= bpow radix2 137) ->
  (forall i j, (i < m)%nat -> (j < n)%nat -> Rabs (val (f_A p i j)) <= bpow radix2 137) ->
  (forall j, (j < n)%nat -> Rabs (val (f_q p j)) <= bpow radix2 137) ->
  (forall j, (j < n)%nat -> fin (primal j)) -> (forall i, (i < m)%nat -> fin (dual i)) ->
  (forall i, (i < m)%nat -> fin (w i) /\ Rabs (val (w i)) <= bpow radix2 400) ->
  fin ea -> fin er -> 0 <= val ea <= bpow radix2 900 -> 0 <= val er <= 1073741824 ->
  (n <= N)%nat -> (m <= N)%nat -> INR N <= 1125899906842624 -> 0 <= T <= bpow radix2 900 -> 0 <= B <= bpow radix2 900 ->
  sized n m p primal dual (f_z_us (fs_y s) (f_clamp (fs_y s) p w)) T B ->
  let tol := (1 + / 2251799813685248) * (val ea + val er * B) + / 4503599627370496 * B + (3 + 2 * val er) * rnd N T + bpow radix2 (-1073) in
  (forall i, (i < m)%nat -> fin (f_l p i) ->
     val (f_l p i) - (/ 1125899906842624 * Rabs (val (f_l p i)) + bpow radix2 (-774)) - tol <=
     rsumn n (fun j => val (f_A p i j) * val (primal j))) /\
  (forall i, (i < m)%nat -> fin (f_u p i) -> rsumn n (fun j => val (f_A p i j) * val (primal j)) <=
     val (f_u p i) + (/ 1125899906842624 * Rabs (val (f_u p i)) + bpow radix2 (-774)) + tol) /\
  (forall j, (j < n)%nat ->
     Rabs (rsumn n (fun k => val (f_P p j k) * val (primal k)) + val (f_q p j) + rsumn m (fun i => val (f_A p i j) * val (dual i))) <= tol).
Proof.
intros hs hr hf hn hP hA hq fx fy hw fea fer hea her hnN hmN hN hT hB hz.
apply (C102_answer n m p ea er (fs_c s) (fs_x s) (fs_y s) x y w primal dual N T B); try assumption.
destruct hf as (fA & fP & fq & _).
destruct (C104_range n m p s 137 hs hn) as (_ & _ & h); [|lia|intros; split; auto..|].
{ eapply Rle_trans; [apply le_INR; exact hnN|exact hN]. }
intros i hi. destruct (h i hi) as [f b]. split; [exact f|]. change (- (137 + 163))%Z with (-300)%Z in b.
pose proof (bpow_le radix2 154 300 ltac:(lia)). lra.
Qed.

Lemma loop_c k : forall n m p s, fs_c (f_loop k n m p s) = fs_c s.
Proof.
induction k as [|k IH]; intros n m p s; [reflexivity|].
change (f_loop (S k) n m p s) with (if flt f_tenth (f_spread n m p s) then f_loop k n m p (f_round n m p s) else f_round n m p s).
destruct (flt _ _); [now rewrite IH|reflexivity].
Qed.
Lemma div_0 x : ~ fin (fdiv x (fint 0)).
Proof. replace (fint 0) with (@B754_zero 53 1024 false) by (apply B2SF_inj; vm_compute; reflexivity). unfold fin. now destruct x. Qed.

(** Without the bound on the data the claim is false: two columns of norm 2^1023 have an infinite mean, the cost factor is zero,
    and no multiplier that the solver returns is finite, whatever the iterates. *)
Theorem C104_overflow_refuted : exists (p : fqp) (s : fscal),
  f_scale 2 1 p s /\ (forall i j, fin (f_P p i j)) /\ (forall i j, fin (f_A p i j)) /\ (forall j, fin (f_q p j)) /\
  (forall i, fin (f_l p i) /\ fin (f_u p i)) /\ val (fs_c s) = 0 /\ forall (sy y : fvec) i, ~ fin (f_y_us (fs_c s) sy y i).
Proof.
set (h := fint (2 ^ 1023)). destruct (fint_val 0 ltac:(lia)) as [e0 f0]. destruct (fint_val 1 ltac:(lia)) as [e1 f1].
set (p := FQp (fun i j => if Nat.eqb i j then h else fint 0) (fun _ => fint 0) (fun _ _ => fint 1) (fun _ => fint 0) (fun _ => fint 1)).
exists p. eexists. split.
{ eexists. eexists. split; [eapply dot_add; [apply dot_one|apply dot_one|apply Permutation_refl]|]. split; [intros _; reflexivity|reflexivity]. }
rewrite loop_c. cbn [fs_c].
match goal with |- context [f_cost ?a ?b ?c] => assert (E : f_cost a b c = fint 0) by (apply B2SF_inj; vm_compute; reflexivity) end.
rewrite E.
split; [intros i j; unfold p; cbn [f_P]; destruct (Nat.eqb i j); [vm_compute; reflexivity|exact f0]|].
split; [intros; exact f1|]. split; [intros; exact f0|]. split; [intros; split; [exact f0|exact f1]|]. split; [exact e0|].
intros sy y i. apply div_0.
Qed.
