(** Rounding errors of sums of products in any order, of norms and of the tolerances of the QP solver (FQpModel.v). *)
From Coq Require Import Reals ZArith Lia Lra List Bool Permutation.
From Flocq Require Import Core BinarySingleNaN Relative.
From Verif Require Import LoopModel LoopFacts FPidModel FPidFacts FPidOut FQpModel.
Import ListNotations.
Open Scope R_scope.

Notation uu := (/ 9007199254740992).
Notation eta := (bpow radix2 (-1075)).
Definition rsum (l : list (b64 * b64)) : R := fold_right (fun ab s => val (fst ab) * val (snd ab) + s) 0 l.
Definition asum (l : list (b64 * b64)) : R := fold_right (fun ab s => Rabs (val (fst ab) * val (snd ab)) + s) 0 l.
Definition fins (l : list (b64 * b64)) : Prop := forall ab, In ab l -> fin (fst ab) /\ fin (snd ab).

Lemma eta_pos : 0 < eta. Proof. apply bpow_gt_0. Qed.
Lemma rsum_app a b : rsum (a ++ b) = rsum a + rsum b. Proof. induction a; simpl; [lra|]. rewrite IHa. lra. Qed.
Lemma asum_app a b : asum (a ++ b) = asum a + asum b. Proof. induction a; simpl; [lra|]. rewrite IHa. lra. Qed.
Lemma rsum_perm a b : Permutation a b -> rsum a = rsum b. Proof. induction 1; simpl; lra. Qed.
Lemma asum_perm a b : Permutation a b -> asum a = asum b. Proof. induction 1; simpl; lra. Qed.
Lemma asum_pos l : 0 <= asum l.
Proof. induction l; simpl; [lra|]. pose proof (Rabs_pos (val (fst a) * val (snd a))). lra. Qed.
Lemma rsum_le l : Rabs (rsum l) <= asum l.
Proof. induction l; simpl; [rewrite Rabs_R0; lra|]. eapply Rle_trans; [apply Rabs_triang|]. lra. Qed.

(** Coefficient of the absolute error. *)
Definition kc (N : nat) : R := match N with O => 0 | S k => 2 * INR k + 1 end.
Lemma kc_le N : kc N <= 2 * INR N. Proof. destruct N; [simpl; lra|]. rewrite S_INR. simpl kc. lra. Qed.
Lemma kc_pos N : 0 <= kc N. Proof. destruct N; simpl; [lra|]. pose proof (pos_INR N). lra. Qed.
Lemma kc_S N : (0 < N)%nat -> kc N = 2 * INR N - 1.
Proof. destruct N; [lia|]. intros _. rewrite S_INR. simpl kc. lra. Qed.

Lemma fma_lin a b r : fin a -> fin b -> fin r -> Rabs (val a * val b + val r) <= bpow radix2 1023 ->
  fin (ffma a b r) /\ Rabs (val (ffma a b r) - (val a * val b + val r)) <= uu * Rabs (val a * val b + val r) + eta.
Proof.
intros ha hb hr h. pose proof (Bfma_correct 53 1024 p53_gt0 p53_lt mode_NE a b r ha hb hr) as g. cbv zeta in g.
rewrite Rlt_bool_true in g by (apply in_range; exact h). destruct g as [g1 [g2 _]]. split; [exact g2|].
change (val (ffma a b r)) with (B2R (Bfma mode_NE a b r)). rewrite g1.
change (Rabs (RN (val a * val b + val r) - (val a * val b + val r)) <= uu * Rabs (val a * val b + val r) + eta).
destruct (RN_err (val a * val b + val r)) as [d [e [hd [he E]]]]. rewrite E, <- ulp1_val.
set (z := val a * val b + val r) in *. replace (z * (1 + d) + e - z) with (d * z + e) by ring.
eapply Rle_trans; [apply Rabs_triang|]. pose proof (prod_le d z ulp1 (Rabs z) hd (Rle_refl _)). lra.
Qed.

Lemma dot_err l r : dot l r -> fins l -> asum l <= bpow radix2 900 -> INR (length l) <= 1125899906842624 ->
  fin r /\ Rabs (val r - rsum l) <= 2 * INR (length l) * uu * asum l + kc (length l) * eta.
Proof.
pose proof eta_pos as he.
assert (hb : eta <= bpow radix2 900) by (apply bpow_le; lia).
assert (hB : bpow radix2 1023 >= 100 * bpow radix2 900).
{ replace 1023%Z with (123 + 900)%Z by lia. rewrite bpow_plus. apply Rle_ge, Rmult_le_compat_r; [apply bpow_ge_0|]. simpl. lra. }
assert (hM : bpow radix2 900 <= bpow radix2 1002) by (apply bpow_le; lia).
induction 1 as [|a b|l l1 a b r d IH hp|l l1 l2 r1 r2 d1 IH1 d2 IH2 hp]; intros hf ha hn.
- destruct (fint_val 0) as [e f]; [lia|]. split; [exact f|]. rewrite e. change (rsum []) with 0. change (asum []) with 0. change (kc (length (@nil (b64 * b64)))) with 0.
  rewrite Rminus_0_r, Rabs_R0. lra.
- destruct (hf (a, b)) as [fa fb]; [left; reflexivity|]. cbn [fst snd] in fa, fb.
  change (asum [(a, b)]) with (Rabs (val a * val b) + 0) in ha |- *. change (rsum [(a, b)]) with (val a * val b + 0).
  change (INR (length [(a, b)])) with 1. change (kc (length [(a, b)])) with (2 * 0 + 1).
  destruct (mul_lin a b fa fb) as [f e]; [lra|]. split; [exact f|]. rewrite !Rplus_0_r.
  pose proof (Rabs_pos (val a * val b)). lra.
- assert (hl : length l = S (length l1)) by (rewrite (Permutation_length hp); reflexivity).
  assert (ea : asum l = Rabs (val a * val b) + asum l1) by (rewrite (asum_perm _ _ hp); reflexivity).
  assert (er : rsum l = val a * val b + rsum l1) by (rewrite (rsum_perm _ _ hp); reflexivity).
  assert (f1 : fins l1). { intros p hi. apply hf. eapply Permutation_in; [symmetry; exact hp|]. now right. }
  destruct (hf (a, b)) as [fa fb]; [eapply Permutation_in; [symmetry; exact hp|]; now left|]. cbn [fst snd] in fa, fb.
  pose proof (asum_pos l1) as p1. pose proof (pos_INR (length l1)) as n1. rewrite hl, S_INR in hn.
  pose proof (Rabs_pos (val a * val b)) as pa.
  destruct (IH f1) as [g1 e1]; [lra..|]. clear IH. pose proof (rsum_le l1) as s1.
  rewrite hl, S_INR, ea, er. set (N1 := length l1) in *. set (T1 := asum l1) in *. set (S1 := rsum l1) in *.
  set (ab := val a * val b) in *.
  assert (q1 : INR N1 * T1 <= 1125899906842624 * T1) by (apply Rmult_le_compat_r; lra).
  pose proof (kc_le N1) as k1. pose proof (kc_pos N1) as k1p.
  assert (j1 : kc N1 * eta <= 2251799813685248 * eta) by (apply Rmult_le_compat_r; lra).
  assert (hbig : 4503599627370496 * eta <= bpow radix2 900).
  { replace 4503599627370496 with (bpow radix2 52) by (simpl; lra). rewrite <- bpow_plus. apply bpow_le. lia. }
  assert (sh : Rabs (ab + val r) <= Rabs ab + T1 + (2 * INR N1 * uu * T1 + kc N1 * eta)).
  { replace (ab + val r) with (ab + (S1 + (val r - S1))) by ring. eapply Rle_trans; [apply Rabs_triang|].
    eapply Rle_trans; [apply Rplus_le_compat_l, Rabs_triang|]. lra. }
  destruct (fma_lin a b r fa fb g1) as [f e]. { fold ab. lra. }
  fold ab in e. split; [exact f|]. 
  replace (val (ffma a b r) - (ab + S1)) with ((val (ffma a b r) - (ab + val r)) + (val r - S1)) by ring.
  eapply Rle_trans; [apply Rabs_triang|].
  assert (c2 : 0 <= INR N1 * Rabs ab) by (apply Rmult_le_pos; lra).
  destruct (Nat.eq_dec N1 0) as [z1|z1].
  { assert (l1 = []) by (now apply length_zero_iff_nil). assert (t1 : T1 = 0) by (unfold T1; now rewrite H).
    rewrite t1, z1 in *. change (kc 0) with 0 in *. change (kc 1) with (2 * 0 + 1). change (INR 0) with 0 in *. lra. }
  rewrite kc_S by lia. rewrite S_INR. rewrite kc_S in e1, sh, j1 by lia. lra.
- assert (hl : length l = (length l1 + length l2)%nat) by (rewrite (Permutation_length hp), app_length; reflexivity).
  assert (ea : asum l = asum l1 + asum l2) by (rewrite (asum_perm _ _ hp); apply asum_app).
  assert (er : rsum l = rsum l1 + rsum l2) by (rewrite (rsum_perm _ _ hp); apply rsum_app).
  assert (f1 : fins l1). { intros p hi. apply hf. eapply Permutation_in; [symmetry; exact hp|]. apply in_or_app. now left. }
  assert (f2 : fins l2). { intros p hi. apply hf. eapply Permutation_in; [symmetry; exact hp|]. apply in_or_app. now right. }
  pose proof (asum_pos l1) as p1. pose proof (asum_pos l2) as p2.
  pose proof (pos_INR (length l1)) as n1. pose proof (pos_INR (length l2)) as n2.
  rewrite hl, plus_INR in hn.
  destruct (IH1 f1) as [g1 e1]; [lra..|]. destruct (IH2 f2) as [g2 e2]; [lra..|]. clear IH1 IH2.
  pose proof (rsum_le l1) as s1. pose proof (rsum_le l2) as s2.
  rewrite hl, plus_INR, ea, er. set (N1 := length l1) in *. set (N2 := length l2) in *.
  set (T1 := asum l1) in *. set (T2 := asum l2) in *. set (S1 := rsum l1) in *. set (S2 := rsum l2) in *.
  assert (q1 : INR N1 * T1 <= 1125899906842624 * T1) by (apply Rmult_le_compat_r; lra).
  assert (q2 : INR N2 * T2 <= 1125899906842624 * T2) by (apply Rmult_le_compat_r; lra).
  pose proof (kc_le N1) as k1. pose proof (kc_le N2) as k2. pose proof (kc_pos N1) as k1p. pose proof (kc_pos N2) as k2p.
  assert (j1 : kc N1 * eta <= 2251799813685248 * eta) by (apply Rmult_le_compat_r; lra).
  assert (j2 : kc N2 * eta <= 2251799813685248 * eta) by (apply Rmult_le_compat_r; lra).
  assert (hbig : 4503599627370496 * eta <= bpow radix2 900).
  { replace 4503599627370496 with (bpow radix2 52) by (simpl; lra). rewrite <- bpow_plus. apply bpow_le. lia. }
  assert (a1 : Rabs (val r1) <= 2 * T1 + kc N1 * eta).
  { replace (val r1) with ((val r1 - S1) + S1) by ring. eapply Rle_trans; [apply Rabs_triang|]. lra. }
  assert (a2 : Rabs (val r2) <= 2 * T2 + kc N2 * eta).
  { replace (val r2) with ((val r2 - S2) + S2) by ring. eapply Rle_trans; [apply Rabs_triang|]. lra. }
  destruct (Nat.eq_dec N1 0) as [z1|z1].
  { assert (l1 = []) by (now apply length_zero_iff_nil). assert (T1 = 0) by (unfold T1; now rewrite H). 
    assert (S1 = 0) by (unfold S1; now rewrite H). rewrite z1 in e1 |- *. simpl kc in e1. simpl INR in e1 |- *.
    assert (v1 : val r1 = 0). { rewrite H1 in e1. rewrite H0 in e1. rewrite Rminus_0_r in e1. assert (Rabs (val r1) <= 0) by lra.
      destruct (Req_dec (val r1) 0) as [|ne]; [assumption|]. pose proof (Rabs_pos_lt _ ne). lra. }
    destruct (add_val r1 r2 g1 g2) as [e f]. { rewrite v1, Rplus_0_l. lra. }
    split; [exact f|]. rewrite e, v1, !Rplus_0_l, RN_id by apply val_fmt. rewrite H0, H1, !Rplus_0_l. exact e2. }
  destruct (Nat.eq_dec N2 0) as [z2|z2].
  { assert (l2 = []) by (now apply length_zero_iff_nil). assert (T2 = 0) by (unfold T2; now rewrite H). 
    assert (S2 = 0) by (unfold S2; now rewrite H). rewrite z2 in e2 |- *. simpl kc in e2. simpl INR in e2 |- *.
    assert (v1 : val r2 = 0). { rewrite H1 in e2. rewrite H0 in e2. rewrite Rminus_0_r in e2. assert (Rabs (val r2) <= 0) by lra.
      destruct (Req_dec (val r2) 0) as [|ne]; [assumption|]. pose proof (Rabs_pos_lt _ ne). lra. }
    destruct (add_val r1 r2 g1 g2) as [e f]. { rewrite v1, Rplus_0_r. lra. }
    split; [exact f|]. rewrite e, v1, !Rplus_0_r, RN_id by apply val_fmt. rewrite H0, H1, !Rplus_0_r, Nat.add_0_r. exact e1. }
  assert (m1 : 1 <= INR N1) by (apply (le_INR 1); lia). assert (m2 : 1 <= INR N2) by (apply (le_INR 1); lia).
  destruct (add_lin r1 r2 g1 g2) as [f e]. { eapply Rle_trans; [apply Rabs_triang|]. lra. }
  split; [exact f|]. rewrite (kc_S (N1 + N2)) by lia. rewrite plus_INR. rewrite kc_S in e1, a1, j1 by lia. rewrite kc_S in e2, a2, j2 by lia.
  assert (b1 : Rabs (val r1 + val r2) <= 2 * (T1 + T2) + (2 * INR N1 + 2 * INR N2 - 2) * eta).
  { eapply Rle_trans; [apply Rabs_triang|]. lra. }
  assert (sharp : Rabs (val r1 + val r2) <= (T1 + T2) + (2 * INR N1 * uu * T1 + 2 * INR N2 * uu * T2) + (2 * INR N1 + 2 * INR N2 - 2) * eta).
  { replace (val r1 + val r2) with ((val r1 - S1) + (val r2 - S2) + (S1 + S2)) by ring.
    eapply Rle_trans; [apply Rabs_triang|]. eapply Rle_trans; [apply Rplus_le_compat; apply Rabs_triang|]. lra. }
  replace (val (fadd r1 r2) - (S1 + S2)) with ((val (fadd r1 r2) - (val r1 + val r2)) + ((val r1 - S1) + (val r2 - S2))) by ring.
  eapply Rle_trans; [apply Rabs_triang|]. eapply Rle_trans; [apply Rplus_le_compat_l, Rabs_triang|].
  assert (c1 : INR N2 * T1 >= T1). { apply Rle_ge. rewrite <- (Rmult_1_l T1) at 1. apply Rmult_le_compat_r; lra. }
  assert (c2 : INR N1 * T2 >= T2). { apply Rle_ge. rewrite <- (Rmult_1_l T2) at 1. apply Rmult_le_compat_r; lra. }
  assert (d : (2 * INR N1 + 2 * INR N2 - 2) * eta <= 2251799813685248 * eta) by (apply Rmult_le_compat_r; lra).
  lra.
Qed.

(** Norms of vectors of finite numbers. *)
Lemma fabs_val x : fin x -> val (fabs x) = Rabs (val x) /\ fin (fabs x).
Proof. intros h. split; [apply B2R_Babs|]. unfold fin, fabs. now rewrite is_finite_Babs. Qed.
Lemma fmax_val x y : fin x -> fin y -> val (fmax x y) = Rmax (val x) (val y) /\ fin (fmax x y).
Proof.
intros hx hy. unfold fmax. destruct (flt x y) eqn:h.
- apply flt_val in h; [|assumption..]. split; [rewrite Rmax_right; lra|exact hy].
- apply flt_valF in h; [|assumption..]. split; [rewrite Rmax_left; lra|exact hx].
Qed.
Lemma fmin_val x y : fin x -> fin y -> val (fmin x y) = Rmin (val x) (val y) /\ fin (fmin x y).
Proof.
intros hx hy. unfold fmin. destruct (flt y x) eqn:h.
- apply flt_val in h; [|assumption..]. split; [rewrite Rmin_right; lra|exact hy].
- apply flt_valF in h; [|assumption..]. split; [rewrite Rmin_left; lra|exact hx].
Qed.
Lemma fle_val x y : fin x -> fin y -> fle x y = true <-> val x <= val y.
Proof. intros hx hy. unfold fle. rewrite Bleb_correct by assumption. fold (val x). fold (val y).
case Rle_bool_spec; intros; split; intros; try easy; lra. Qed.
Lemma lpnorm_val n v r B : lpnorm n v r -> (forall i, (i < n)%nat -> fin (v i)) -> 0 <= B -> (forall i, (i < n)%nat -> Rabs (val (v i)) <= B) ->
  fin r /\ 0 <= val r <= B /\ forall i, (i < n)%nat -> Rabs (val (v i)) <= val r.
Proof.
intros h hf hB hv. assert (r = fnorm n v) as ->. { apply h. intros i hi. generalize (hf i hi). unfold fin. now destruct (v i). }
clear h. induction n as [|n IH].
- destruct (fint_val 0) as [e f]; [lia|]. change (fnorm 0 v) with (fint 0). split; [exact f|]. rewrite e. split; [lra|]. intros i hi. lia.
- destruct IH as [f [b a]]; [intros; apply hf; lia|intros; apply hv; lia|].
  destruct (fabs_val (v n)) as [e1 f1]; [apply hf; lia|]. destruct (fmax_val _ _ f f1) as [e2 f2].
  change (fnorm (S n) v) with (fmax (fnorm n v) (fabs (v n))). split; [exact f2|]. rewrite e2, e1.
  pose proof (hv n ltac:(lia)). split.
  + split; [eapply Rle_trans; [apply b|apply Rmax_l]|]. apply Rmax_lub; lra.
  + intros i hi. destruct (Nat.eq_dec i n) as [->|ne]; [apply Rmax_r|]. eapply Rle_trans; [apply a; lia|apply Rmax_l].
Qed.

(** The tolerance eps_abs + eps_rel * M. *)
Lemma tol_val ea er M : fin ea -> fin er -> fin M -> 0 <= val ea <= bpow radix2 900 -> 0 <= val er <= 1073741824 ->
  0 <= val M <= bpow radix2 910 ->
  fin (fadd ea (fmul er M)) /\ val (fadd ea (fmul er M)) <= (1 + uu) * val ea + (1 + 2 * uu + uu * uu) * (val er * val M) + 2 * eta.
Proof.
intros fe fr fM he hr hM. pose proof eta_pos as hp.
assert (hp0 : 0 <= val er * val M) by (apply Rmult_le_pos; lra).
assert (hp1 : val er * val M <= bpow radix2 940).
{ replace (bpow radix2 940) with (1073741824 * bpow radix2 910). apply Rmult_le_compat; lra.
  replace 940%Z with (30 + 910)%Z by lia. rewrite bpow_plus. reflexivity. }
assert (b1 : bpow radix2 940 <= bpow radix2 1002) by (apply bpow_le; lia).
assert (b2 : bpow radix2 900 <= bpow radix2 940) by (apply bpow_le; lia).
assert (b3 : 100 * bpow radix2 940 <= bpow radix2 1023).
{ replace 1023%Z with (83 + 940)%Z by lia. rewrite bpow_plus. apply Rmult_le_compat_r; [apply bpow_ge_0|]. simpl. lra. }
assert (b4 : eta <= bpow radix2 940) by (apply bpow_le; lia).
destruct (mul_lin er M fr fM) as [f1 e1]. { rewrite Rabs_pos_eq; lra. }
rewrite (Rabs_pos_eq (val er * val M)) in e1 by lra. apply Rabs_le_inv in e1.
set (pm := val er * val M) in *. clearbody pm.
assert (hq : Rabs (val ea + val (fmul er M)) <= val ea + (1 + uu) * pm + eta).
{ apply Rabs_le. lra. }
destruct (add_lin ea (fmul er M) fe f1) as [f2 e2]; [lra|].
split; [exact f2|]. apply Rabs_le_inv in e2. lra.
Qed.
