(** Property C96, continued: when the samples are exact, and parameters for which they are not. *)
From Coq Require Import Reals ZArith Lia Lra List Bool.
From Flocq Require Import Core BinarySingleNaN.
From Verif Require Import LoopModel LoopFacts LoopEkf LoopAsif.
Import ListNotations.
Local Open Scope R_scope.

Section Exact.
(** dt = j 2^e divides tau = N dt, and the horizon T = K tau has at most 53 bits in units of 2^e. *)
Variables (T pdt : b64) (K N : nat) (j e : Z).
Hypotheses (hT : fin T) (hp : fin pdt) (he : (-1074 <= e <= 900)%Z) (hj : (0 < j)%Z) (hN : (0 < N)%nat) (hK : (0 < K)%nat).
Hypotheses (hK1 : (Z.of_nat K < 2 ^ 32)%Z) (hs : (Z.of_nat K * (Z.of_nat N * j) <= 2 ^ 53)%Z).
Hypotheses (eT : val T = IZR (Z.of_nat K * (Z.of_nat N * j)) * bpow radix2 e) (ep : val pdt = IZR j * bpow radix2 e).

Lemma sizes : (0 < Z.of_nat N * j <= 2 ^ 53)%Z. Proof. split; [lia|nia]. Qed.
Lemma big n : (0 <= n <= 2 ^ 53)%Z -> 0 <= IZR n * bpow radix2 e <= bpow radix2 1023.
Proof.
intros h. split; [apply Rmult_le_pos; [apply (IZR_le 0); lia|apply bpow_ge_0]|].
apply Rle_trans with (bpow radix2 (53 + e)); [|apply bpow_le; lia]. rewrite bpow_plus.
apply Rmult_le_compat_r; [apply bpow_ge_0|]. change (bpow radix2 53) with (IZR (2 ^ 53)). apply IZR_le. lia.
Qed.
Lemma tau_exact : fin (asif_tau T K) /\ val (asif_tau T K) = IZR (Z.of_nat N * j) * bpow radix2 e.
Proof.
pose proof sizes as sz. destruct (fint_val (Z.of_nat K)) as [eK fK]; [lia|].
assert (k0 : 0 < IZR (Z.of_nat K)) by (apply (IZR_lt 0); lia).
assert (q : val T / val (fint (Z.of_nat K)) = IZR (Z.of_nat N * j) * bpow radix2 e).
{ rewrite eK, eT, (mult_IZR (Z.of_nat K)). field. lra. }
destruct (fdiv_val T (fint (Z.of_nat K)) hT) as [E F].
- rewrite eK. lra.
- rewrite q. apply big. lia.
- split; [exact F|]. unfold asif_tau. rewrite E, q. apply RN_id, int_fmt; lia.
Qed.
Lemma dt_exact : fin (asif_dt T K pdt) /\ val (asif_dt T K pdt) = IZR j * bpow radix2 e.
Proof.
destruct tau_exact as [F E]. destruct (fmin_val pdt (asif_tau T K) hp F) as [f m].
split; [exact f|]. unfold asif_dt. rewrite m, ep, E. apply Rmin_left.
apply Rmult_le_compat_r; [apply bpow_ge_0|]. apply IZR_le. nia.
Qed.
(** The inner loop takes n steps if n steps are missing. *)
Lemma while_exact n g d t fuel a : fin g -> fin d -> fin t -> val d = IZR j * bpow radix2 e -> val t = IZR a * bpow radix2 e ->
  val g = IZR (a + Z.of_nat n * j) * bpow radix2 e -> (0 <= a)%Z -> (a + Z.of_nat n * j <= 2 ^ 53)%Z -> (n <= fuel)%nat ->
  exists t', asif_while fuel g d t = Some t' /\ fin t' /\ val t' = val g.
Proof.
intros hg hd. revert t fuel a. pose proof (bpow_gt_0 radix2 e) as p. induction n as [|n IH]; intros t fuel a ht ed et eg a0 ab hf.
- exists t. assert (E : flt t g = false) by (apply flt_valF; [assumption|assumption|]; rewrite et, eg, Z.add_0_r; lra).
  repeat split; [destruct fuel; simpl; rewrite E; reflexivity|exact ht|]. now rewrite et, eg, Z.add_0_r.
- destruct fuel as [|fuel]; [lia|].
  assert (E : flt t g = true).
  { apply flt_val; [assumption|assumption|]. rewrite et, eg. apply Rmult_lt_compat_r; [exact p|]. apply IZR_lt. nia. }
  assert (s : val t + val d = IZR (a + j) * bpow radix2 e) by (rewrite et, ed, plus_IZR; ring).
  destruct (fadd_val t d ht hd) as [e1 f1]; [rewrite s; apply big; nia|].
  rewrite s, RN_id in e1 by (apply int_fmt; nia).
  simpl. rewrite E. apply (IH (fadd t d) fuel (a + j)%Z f1 ed e1); [|lia|nia|lia].
  rewrite eg. f_equal. f_equal. nia.
Qed.
(** Then constraint k is evaluated exactly at k T / K. *)
Theorem C96_exact fuel k : (k <= K)%nat -> (N <= fuel)%nat ->
  exists t, asif_time fuel T K pdt k = Some t /\ fin t /\ val t = IZR (Z.of_nat k) * (val T / IZR (Z.of_nat K)).
Proof.
intros hk hf. assert (k0 : 0 < IZR (Z.of_nat K)) by (apply (IZR_lt 0); lia).
assert (q : forall i, IZR (Z.of_nat i) * (val T / IZR (Z.of_nat K)) = IZR (Z.of_nat i * (Z.of_nat N * j)) * bpow radix2 e).
{ intros i. rewrite eT, (mult_IZR (Z.of_nat K)), (mult_IZR (Z.of_nat i)). field. lra. }
rewrite q. clear q. unfold asif_time. destruct tau_exact as [ft et]. destruct dt_exact as [fd ed]. pose proof sizes as sz.
induction k as [|k IH]; cbn [asif_sample].
- destruct (fint_val 0) as [e0 f0]; [lia|]. exists (fint 0). split; [reflexivity|split; [exact f0|]]. rewrite e0. simpl. ring.
- destruct IH as [s [Es [fs vs]]]; [lia|]. rewrite Es. unfold asif_next.
  destruct (fint_val (Z.of_nat (k + 1))) as [e1 f1]; [lia|].
  assert (p1 : val (asif_tau T K) * val (fint (Z.of_nat (k + 1))) = IZR (Z.of_nat (k + 1) * (Z.of_nat N * j)) * bpow radix2 e).
  { rewrite et, e1, (mult_IZR (Z.of_nat (k + 1))). ring. }
  assert (r1 : (0 <= Z.of_nat (k + 1) * (Z.of_nat N * j) <= 2 ^ 53)%Z) by nia.
  destruct (fmul_val _ _ ft f1) as [eg fg]; [rewrite p1; now apply big|]. rewrite p1, RN_id in eg by (apply int_fmt; lia).
  set (g := fmul (asif_tau T K) (fint (Z.of_nat (k + 1)))) in *.
  assert (p2 : val g - val s = IZR (Z.of_nat N * j) * bpow radix2 e).
  { rewrite eg, vs, <- Rmult_minus_distr_r, <- minus_IZR. f_equal. f_equal. nia. }
  destruct (fsub_val g s fg fs) as [es fs']; [rewrite p2; apply big; lia|]. rewrite p2, RN_id in es by (apply int_fmt; lia).
  destruct (fmin_val _ _ fd fs') as [fm em].
  assert (dv : val (fmin (asif_dt T K pdt) (fsub g s)) = IZR j * bpow radix2 e).
  { rewrite em, ed, es. apply Rmin_left. apply Rmult_le_compat_r; [apply bpow_ge_0|]. apply IZR_le. nia. }
  destruct (while_exact N g (fmin (asif_dt T K pdt) (fsub g s)) s fuel (Z.of_nat k * (Z.of_nat N * j))) as [t' [E' [f' v']]]; try assumption.
  + rewrite eg. f_equal. f_equal. nia.
  + nia.
  + nia.
  + exists t'. repeat split; [exact E'|exact f'|]. rewrite v', eg. f_equal. f_equal. nia.
Qed.
End Exact.

(** T = 1, K = 8, dt = 1/16: the fourth sample is taken at 1/2. *)
Definition sixteenth : b64 := fdiv (fint 1) (fint 16).
Lemma val_sf (x : b64) s m e : B2SF x = SpecFloat.S754_finite s m e -> fin x /\ val x = F2R (Float radix2 (cond_Zopp s (Zpos m)) e).
Proof. destruct x; try discriminate. intros h. injection h as -> -> ->. split; reflexivity. Qed.
Example C96_exact_case : exists t, asif_time 2 (fint 1) 8 sixteenth 4 = Some t /\ val t = 1 / 2.
Proof.
destruct (fint_val 1) as [e1 f1]; [lia|].
destruct (val_sf sixteenth false (2 ^ 52) (-56)) as [fs es]; [vm_compute; reflexivity|].
assert (es' : val sixteenth = IZR 1 * bpow radix2 (-4)) by (rewrite es; change (bpow radix2 52 * bpow radix2 (-56) = 1 * bpow radix2 (-4)); rewrite <- bpow_plus, Rmult_1_l; reflexivity).
destruct (C96_exact (fint 1) sixteenth 8 2 1 (-4) f1 fs ltac:(lia) ltac:(lia) ltac:(lia) ltac:(lia) ltac:(lia) ltac:(lia)) with (fuel := 2%nat) (k := 4%nat) as [t [E [_ v]]].
- rewrite e1. simpl. lra.
- exact es'.
- lia.
- lia.
- exists t. split; [exact E|]. rewrite v, e1. simpl. lra.
Qed.

(** The default parameters T = 1, K = 10, dt = 0.1 (asif_func.hpp:44, 61, 65), for which dt = T / K:
    constraint 5 is evaluated at 0.5, constraint 6 at 0.7 instead of 0.6, and constraint 7 at 0.7. *)
Definition tenth : b64 := fdiv (fint 1) (fint 10).
Definition sample_sf fuel T K pdt k := option_map B2SF (asif_time fuel T K pdt k).
Lemma sample_val fuel T K pdt k m e : sample_sf fuel T K pdt k = Some (SpecFloat.S754_finite false m e) ->
  exists t, asif_time fuel T K pdt k = Some t /\ val t = F2R (Float radix2 (Zpos m) e).
Proof.
unfold sample_sf. destruct (asif_time fuel T K pdt k) as [t|]; [|discriminate]. intros h. exists t. split; [reflexivity|].
injection h as h. now destruct (val_sf t _ _ _ h) as [_ v].
Qed.
Theorem C96_default_refuted : asif_tau (fint 1) 10 = tenth /\ exists t5 t6 t7, forall fuel, (3 <= fuel)%nat ->
  [asif_time fuel (fint 1) 10 tenth 5; asif_time fuel (fint 1) 10 tenth 6; asif_time fuel (fint 1) 10 tenth 7] = [Some t5; Some t6; Some t7] /\
  val t5 = 1 / 2 /\ 6 / 10 + 99 / 1000 <= val t6 /\ val t7 <= 7 / 10 + / 1000000000000000 /\ val t7 - val t6 <= / 1000000000000000.
Proof.
split; [reflexivity|].
destruct (sample_val 3 (fint 1) 10 tenth 5 4503599627370496 (-53)) as [t5 [e5 v5]]; [vm_compute; reflexivity|].
destruct (sample_val 3 (fint 1) 10 tenth 6 6305039478318694 (-53)) as [t6 [e6 v6]]; [vm_compute; reflexivity|].
destruct (sample_val 3 (fint 1) 10 tenth 7 6305039478318695 (-53)) as [t7 [e7 v7]]; [vm_compute; reflexivity|].
exists t5, t6, t7. intros fuel hf. unfold asif_time in *.
rewrite (sample_more _ _ _ _ _ e5 fuel hf), (sample_more _ _ _ _ _ e6 fuel hf), (sample_more _ _ _ _ _ e7 fuel hf).
assert (E : bpow radix2 (-53) = / 9007199254740992) by (simpl; lra).
unfold F2R in v5, v6, v7. cbn [Fnum Fexp] in v5, v6, v7. rewrite E in v5, v6, v7. rewrite v5, v6, v7.
split; [reflexivity|]. lra.
Qed.

(** The inner loop does not end if d is a power of two and g > 2^53 d. *)
Lemma while_forever g d e fuel : fin g -> fin d -> (-1074 <= e <= 900)%Z -> val d = bpow radix2 e -> bpow radix2 53 * val d < val g ->
  forall t j, fin t -> (0 <= j <= 2 ^ 53)%Z -> val t = IZR j * bpow radix2 e -> asif_while fuel g d t = None.
Proof.
intros hg hd he Ed h. pose proof (bpow_gt_0 radix2 e) as p. rewrite Ed in h. induction fuel as [|fuel IH]; intros t j ht hj Et.
all: assert (lt : flt t g = true) by (apply flt_val; [assumption|assumption|]; rewrite Et; apply Rle_lt_trans with (2 := h);
  apply Rmult_le_compat_r; [lra|]; change (bpow radix2 53) with (IZR (2 ^ 53)); apply IZR_le; lia); simpl; rewrite lt.
1: reflexivity.
assert (B : 0 <= val t + val d <= bpow radix2 1023).
{ assert (s : val t + val d = IZR (j + 1) * bpow radix2 e) by (rewrite Et, Ed, plus_IZR; ring). rewrite s.
  split; [apply Rmult_le_pos; [apply (IZR_le 0); lia|lra]|]. apply Rle_trans with (bpow radix2 (54 + e)); [|apply bpow_le; lia].
  rewrite bpow_plus. apply Rmult_le_compat_r; [lra|]. change (bpow radix2 54) with (IZR (2 ^ 54)). apply IZR_le. lia. }
destruct (fadd_val t d ht hd B) as [e1 f1]. destruct (Z.eq_dec j (2 ^ 53)) as [E|E].
- apply (IH _ j f1 hj). rewrite e1, Et, Ed, E. change (IZR (2 ^ 53)) with (bpow radix2 53). rewrite <- bpow_plus. apply stuck. lia.
- apply (IH _ (j + 1)%Z f1); [lia|]. rewrite e1, Et, Ed.
  replace (IZR j * bpow radix2 e + bpow radix2 e) with (IZR (j + 1) * bpow radix2 e) by (rewrite plus_IZR; ring). apply RN_id, int_fmt; lia.
Qed.
(** T = 1, K = 1, dt = 2^-54: asif_to_qp_update does not return, although dt is positive. *)
Theorem C96_forever_refuted : exists T pdt : b64, fin T /\ fin pdt /\ val T = 1 /\ 0 < val pdt /\ forall fuel, asif_time fuel T 1 pdt 1 = None.
Proof.
assert (q : SpecFloat.bounded 53 1024 (2 ^ 52) (-106) = true) by reflexivity.
set (dt := B754_finite false (2 ^ 52) (-106) q : b64).
assert (Ed : val dt = bpow radix2 (-54)) by (change (val dt) with (bpow radix2 52 * bpow radix2 (-106)); rewrite <- bpow_plus; reflexivity).
destruct (fint_val 1) as [e1 f1]; [lia|]. destruct (fint_val 0) as [e0 f0]; [lia|].
exists (fint 1), dt. split; [exact f1|]. split; [reflexivity|]. split; [exact e1|]. split; [rewrite Ed; apply bpow_gt_0|]. intros fuel.
assert (g1 : fmul (asif_tau (fint 1) 1) (fint (Z.of_nat (0 + 1))) = fint 1) by (apply B2SF_inj; vm_compute; reflexivity).
assert (d1 : fmin (asif_dt (fint 1) 1 dt) (fsub (fint 1) (fint 0)) = dt) by (apply B2SF_inj; vm_compute; reflexivity).
unfold asif_time. cbn [asif_sample]. unfold asif_next. rewrite g1, d1.
apply (while_forever (fint 1) dt (-54) fuel f1 eq_refl ltac:(lia) Ed) with (j := 0%Z); [|exact f0|lia|rewrite e0; ring].
rewrite Ed, e1, <- bpow_plus. simpl. lra.
Qed.

(** The hypotheses of C95_ekf_ends and C96_asif for the default parameters. *)
Lemma tenth_val : fin tenth /\ / 11 < val tenth < / 9.
Proof.
destruct (val_sf tenth false 7205759403792794 (-56)) as [f v]; [vm_compute; reflexivity|]. split; [exact f|].
assert (E : bpow radix2 (-56) = / 72057594037927936) by (simpl; lra).
unfold F2R in v. cbn [Fnum Fexp cond_Zopp] in v. rewrite v, E. lra.
Qed.
Example C95_ekf_ends_case : exists fuel l, ekf_predict fuel (fint 1) (Some tenth) = Some l.
Proof.
destruct (fint_val 1) as [e1 f1]; [lia|]. destruct tenth_val as [f v]. apply C95_ekf_ends; [exact f1|exact f|lra|].
rewrite e1, bp53. lra.
Qed.
Example C96_asif_case : exists fuel t, asif_time fuel (fint 1) 10 tenth 6 = Some t /\ 5 / 10 < val t < 8 / 10.
Proof.
destruct (fint_val 1) as [e1 f1]; [lia|]. destruct tenth_val as [f v].
destruct (C96_asif (fint 1) 10 tenth 6 f1 f) as [fuel [t [E [_ b]]]]; try lia; try lra.
- rewrite e1. change 1 with (bpow radix2 0). split; apply bpow_le; lia.
- rewrite e1. simpl (bpow radix2 52). lra.
- exists fuel, t. split; [exact E|]. rewrite e1 in b. simpl Z.of_nat in b.
  assert (0 < bpow radix2 (-51) <= / 1000 /\ 0 < bpow radix2 (-50) <= / 1000) by (simpl; lra).
  set (x := bpow radix2 (-51)) in *. set (y := bpow radix2 (-50)) in *. set (z := val tenth) in *. clearbody x y z. nra.
Qed.

Print Assumptions C95_ekf_steps.
Print Assumptions C96_asif.
Print Assumptions C96_exact.
Print Assumptions C96_default_refuted.
