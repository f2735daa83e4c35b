(** Property C96: the times at which asif_to_qp_update evaluates the barrier function, in double arithmetic. *)
From Coq Require Import Reals ZArith Lia Lra List Bool.
From Flocq Require Import Core BinarySingleNaN Sterbenz Plus_error Relative.
From Verif Require Import LoopModel LoopFacts LoopEkf.
Import ListNotations.
Local Open Scope R_scope.

Lemma b1023 x : 0 <= x -> x <= bpow radix2 1001 -> 0 <= x + x <= bpow radix2 1023.
Proof.
intros h0 h. split; [lra|]. apply Rle_trans with (bpow radix2 1002).
- change 1002%Z with (1 + 1001)%Z. rewrite bpow_plus. simpl (bpow radix2 1). lra.
- apply bpow_le. lia.
Qed.
Lemma fmin_val a b : fin a -> fin b -> fin (fmin a b) /\ val (fmin a b) = Rmin (val a) (val b).
Proof.
intros ha hb. unfold fmin. destruct (flt b a) eqn:E.
- apply flt_val in E; [|assumption|assumption]. split; [exact hb|]. rewrite Rmin_right; lra.
- apply flt_valF in E; [|assumption|assumption]. split; [exact ha|]. rewrite Rmin_left; lra.
Qed.
(** The difference of two doubles t < g is rounded to a positive number. *)
Lemma diff_pos g t : fmt g -> fmt t -> t < g -> 0 < RN (g - t).
Proof.
intros hg ht h. destruct (fmt_int _ hg) as [a Ea]. destruct (fmt_int _ ht) as [b Eb].
pose proof (bpow_gt_0 radix2 (-1074)) as p. apply Rlt_le_trans with (bpow radix2 (-1074)); [exact p|].
rewrite <- (RN_id (bpow radix2 (-1074))) by (apply bpow_fmt; lia). apply RN_le.
rewrite Ea, Eb in h. apply Rmult_lt_reg_r in h; [|exact p]. apply lt_IZR in h.
assert (1 <= IZR (a - b)) by (apply (IZR_le 1); lia). rewrite minus_IZR in H. rewrite Ea, Eb. nra.
Qed.
(** What the inner loop returns. *)
Lemma while_range fuel g d t t' : fin g -> fin d -> fin t -> 0 <= val t -> 0 < val d -> val d <= val g -> val g <= bpow radix2 1001 ->
  val t < val g -> asif_while fuel g d t = Some t' -> fin t' /\ val g <= val t' <= RN (val g + val d).
Proof.
intros hg hd. revert t. induction fuel as [|fuel IH]; intros t ht t0 d0 dg gb tg; simpl.
all: rewrite (proj2 (flt_val t g ht hg) tg).
- discriminate.
- pose proof (b1023 (val g) ltac:(lra) gb) as bb.
  destruct (fadd_val t d ht hd ltac:(lra)) as [e f]. intros h.
  assert (up : RN (val t + val d) <= RN (val g + val d)) by (apply RN_le; lra).
  destruct (Rlt_or_le (val (fadd t d)) (val g)) as [c|c].
  + apply (IH (fadd t d)); try assumption. rewrite e. apply RN_pos; lra.
  + assert (E : asif_while fuel g d (fadd t d) = Some (fadd t d)).
    { pose proof (proj2 (flt_valF _ g f hg) c) as q. destruct fuel; simpl; rewrite q; reflexivity. }
    rewrite E in h. injection h as <-. split; [exact f|]. rewrite e in c |- *. split; assumption.
Qed.
(** The inner loop ends if the end is at most 2^53 steps away from 0. *)
Lemma while_ends n g d t : fin g -> fin d -> fin t -> 0 <= val t -> 0 < val d -> val d <= val g -> val g <= bpow radix2 1001 ->
  val g <= bpow radix2 53 * val d ->
  (exists a b, val t = IZR a * bpow radix2 (-1074) /\ val g = IZR b * bpow radix2 (-1074) /\ (b - a <= Z.of_nat n)%Z) ->
  exists fuel t', asif_while fuel g d t = Some t'.
Proof.
intros hg hd. revert t. induction n as [|n IH]; intros t ht t0 d0 dg gb hl [a [b [Ea [Eb ab]]]].
all: destruct (Rlt_or_le (val t) (val g)) as [c|c];
  [|exists O, t; simpl; rewrite (proj2 (flt_valF t g ht hg) c); reflexivity].
- exfalso. rewrite Ea, Eb in c. pose proof (bpow_gt_0 radix2 (-1074)).
  apply Rmult_lt_reg_r in c; [|assumption]. apply lt_IZR in c. lia.
- pose proof (b1023 (val g) ltac:(lra) gb) as bb.
  destruct (fadd_val t d ht hd ltac:(lra)) as [e f].
  pose proof (progress _ _ (val_fmt t) (val_fmt d) t0 d0 ltac:(lra)) as q.
  destruct (fmt_int _ (val_fmt (fadd t d))) as [z Ez].
  destruct (IH (fadd t d) f) as [fuel [t' E]]; try assumption.
  + rewrite e. lra.
  + exists z, b. repeat split; [exact Ez|exact Eb|]. rewrite <- e, Ea, Ez in q.
    pose proof (bpow_gt_0 radix2 (-1074)). apply Rmult_lt_reg_r in q; [|assumption]. apply lt_IZR in q. lia.
  + exists (S fuel), t'. simpl. rewrite (proj2 (flt_val t g ht hg) c). exact E.
Qed.
Lemma while_more fuel g d t t' : asif_while fuel g d t = Some t' -> forall fuel', (fuel <= fuel')%nat -> asif_while fuel' g d t = Some t'.
Proof.
revert t. induction fuel as [|fuel IH]; intros t h fuel' hf; simpl in h.
- destruct (flt t g) eqn:E; [discriminate|]. destruct fuel'; simpl; rewrite E; exact h.
- destruct fuel' as [|fuel']; [lia|]. simpl. destruct (flt t g); [|exact h]. apply IH; [exact h|lia].
Qed.
Lemma sample_more fuel tau dt k t : asif_sample fuel tau dt k = Some t -> forall fuel', (fuel <= fuel')%nat -> asif_sample fuel' tau dt k = Some t.
Proof.
revert t. induction k as [|k IH]; intros t h fuel' hf; simpl in *; [exact h|].
destruct (asif_sample fuel tau dt k) as [s|] eqn:E; [|discriminate].
rewrite (IH s eq_refl fuel' hf). unfold asif_next in *. now apply while_more with fuel.
Qed.

Section Asif.
Variables (tau dt : b64) (K : nat).
Hypotheses (hT : fin tau) (hd : fin dt) (d0 : 0 < val dt) (dT : val dt <= val tau).
Hypotheses (hK : (Z.of_nat K < 2 ^ 32)%Z) (hb : val tau * IZR (Z.of_nat K) <= bpow radix2 1001).
(** Nominal time of constraint k: the rounded product that the guard of the inner loop computes. *)
Definition nominal (k : nat) : R := RN (val tau * IZR (Z.of_nat k)).

Lemma nominal_0 : nominal 0 = 0.
Proof. unfold nominal. simpl. rewrite Rmult_0_r. apply RN_0. Qed.
Lemma nominal_le j k : (j <= k)%nat -> nominal j <= nominal k.
Proof. intros h. unfold nominal. apply RN_le. apply Rmult_le_compat_l; [lra|]. apply IZR_le. lia. Qed.
Lemma nominal_val k : (k <= K)%nat -> val (fmul tau (fint (Z.of_nat k))) = nominal k /\ fin (fmul tau (fint (Z.of_nat k))).
Proof.
intros h. destruct (fint_val (Z.of_nat k)) as [e f]; [lia|].
assert (0 <= IZR (Z.of_nat k) <= IZR (Z.of_nat K)) by (split; [apply (IZR_le 0)|apply IZR_le]; lia).
assert (bpow radix2 1001 <= bpow radix2 1023) by (apply bpow_le; lia).
destruct (fmul_val tau (fint (Z.of_nat k)) hT f) as [e' f']; [rewrite e; split; [apply Rmult_le_pos; lra|nra]|].
rewrite e in e'. split; assumption.
Qed.
Lemma nominal_bound k : (k <= K)%nat -> nominal k <= bpow radix2 1001.
Proof.
intros h. rewrite <- (RN_id (bpow radix2 1001)) by (apply bpow_fmt; lia).
apply Rle_trans with (1 := nominal_le k K h). now apply RN_le.
Qed.
Lemma nominal_tau k : (0 < k)%nat -> val tau <= nominal k.
Proof.
intros h. rewrite <- (RN_id (val tau)) by apply val_fmt. unfold nominal. apply RN_le.
assert (1 <= IZR (Z.of_nat k)) by (apply (IZR_le 1); lia). nra.
Qed.
(** The step that the inner loop uses. *)
Lemma step_val k t : (k < K)%nat -> fin t -> 0 <= val t -> val t < nominal (k + 1) ->
  let d := fmin dt (fsub (fmul tau (fint (Z.of_nat (k + 1)))) t) in
  fin d /\ val d = Rmin (val dt) (RN (nominal (k + 1) - val t)) /\ 0 < val d.
Proof.
intros hk ht t0 lt d. destruct (nominal_val (k + 1) ltac:(lia)) as [e f].
pose proof (nominal_bound (k + 1) ltac:(lia)) as nb.
assert (bpow radix2 1001 <= bpow radix2 1023) by (apply bpow_le; lia).
destruct (fsub_val (fmul tau (fint (Z.of_nat (k + 1)))) t f ht) as [e' f']; [rewrite e; lra|].
destruct (fmin_val dt _ hd f') as [f'' e'']. unfold d. rewrite e'', e', e. split; [exact f''|split; [reflexivity|]].
apply Rmin_pos; [exact d0|]. apply diff_pos; [apply RN_fmt|apply val_fmt|exact lt].
Qed.
(** Each sample is taken at its nominal time or later, and at most one integration step later. *)
Theorem C96_window fuel k t : (k <= K)%nat -> asif_sample fuel tau dt k = Some t ->
  fin t /\ nominal k <= val t <= RN (nominal k + val dt).
Proof.
revert t. induction k as [|k IH]; intros t hk; cbn [asif_sample].
- intros h. assert (E : t = fint 0) by congruence. subst t. clear h. destruct (fint_val 0) as [e f]; [lia|]. split; [exact f|]. rewrite e, nominal_0.
  split; [lra|]. apply RN_pos. lra.
- destruct (asif_sample fuel tau dt k) as [s|]; [|discriminate]. destruct (IH s ltac:(lia) eq_refl) as [fs [l1 l2]].
  assert (s0 : 0 <= val s) by (rewrite <- nominal_0; apply Rle_trans with (2 := l1); apply nominal_le; lia).
  unfold asif_next. destruct (nominal_val (k + 1) ltac:(lia)) as [e f]. replace (S k) with (k + 1)%nat by lia. intros h.
  destruct (Rlt_or_le (val s) (nominal (k + 1))) as [c|c].
  + destruct (step_val k s ltac:(lia) fs s0 c) as [fd [ed pd]].
    pose proof (Rmin_l (val dt) (RN (nominal (k + 1) - val s))) as m. pose proof (nominal_tau (k + 1) ltac:(lia)).
    assert (W : fin t /\ val (fmul tau (fint (Z.of_nat (k + 1)))) <= val t <= RN (val (fmul tau (fint (Z.of_nat (k + 1)))) + val (fmin dt (fsub (fmul tau (fint (Z.of_nat (k + 1)))) s)))).
    { apply (while_range fuel _ _ s t f fd fs s0 pd); [rewrite e, ed; lra|rewrite e; apply nominal_bound; lia|now rewrite e|exact h]. }
    destruct W as [ft [h1 h2]].
    rewrite e in h1, h2. rewrite ed in h2. split; [exact ft|]. split; [exact h1|]. apply Rle_trans with (1 := h2). apply RN_le. lra.
  + rewrite <- e in c. pose proof (proj2 (flt_valF _ _ fs f) c) as q.
    assert (E : s = t) by (destruct fuel; simpl in h; rewrite q in h; now injection h). subst t. rewrite e in c.
    split; [exact fs|]. split; [exact c|]. apply Rle_trans with (1 := l2). apply RN_le.
    pose proof (nominal_le k (k + 1) ltac:(lia)). lra.
Qed.
(** The loops end if the horizon is at most 2^53 integration steps. *)
Theorem C96_ends k : (k <= K)%nat -> nominal K <= bpow radix2 53 * val dt -> exists fuel t, asif_sample fuel tau dt k = Some t.
Proof.
intros hk hl. induction k as [|k IH]; [exists O, (fint 0); reflexivity|].
destruct IH as [fuel [s E]]; [lia|]. destruct (C96_window fuel k s ltac:(lia) E) as [fs [l1 l2]].
assert (s0 : 0 <= val s) by (rewrite <- nominal_0; apply Rle_trans with (2 := l1); apply nominal_le; lia).
assert (W : exists fuel' t, asif_next fuel' tau dt k s = Some t).
2:{ destruct W as [fuel' [t W]]. exists (fuel + fuel')%nat, t. simpl.
  rewrite (sample_more _ _ _ _ _ E (fuel + fuel')%nat ltac:(lia)). unfold asif_next in *. apply while_more with fuel'; [exact W|lia]. }
unfold asif_next. destruct (nominal_val (k + 1) ltac:(lia)) as [e f]. pose proof (nominal_bound (k + 1) ltac:(lia)) as nb.
destruct (Rlt_or_le (val s) (nominal (k + 1))) as [c|c].
2:{ exists O, s. simpl. rewrite (proj2 (flt_valF _ _ fs f)); [reflexivity|]. now rewrite e. }
destruct (step_val k s ltac:(lia) fs s0 c) as [fd [ed pd]].
pose proof (Rmin_l (val dt) (RN (nominal (k + 1) - val s))) as m. pose proof (nominal_tau (k + 1) ltac:(lia)) as nt.
pose proof (nominal_le (k + 1) K ltac:(lia)) as nK.
set (d := fmin dt _) in *. set (g := fmul tau _) in *.
assert (C : val g <= bpow radix2 53 * val d \/ RN (val s + val d) = val g).
{ destruct (Rle_or_lt (val dt) (RN (nominal (k + 1) - val s))) as [a|a].
  - rewrite Rmin_left in ed by assumption. left. rewrite ed, e. lra.
  - rewrite Rmin_right in ed by lra. destruct (Rle_or_lt (nominal (k + 1)) (2 * val s)) as [b|b].
    + right. rewrite ed, e. rewrite (RN_id (nominal (k + 1) - val s)).
      * replace (val s + (nominal (k + 1) - val s)) with (nominal (k + 1)) by ring. apply RN_id, RN_fmt.
      * apply sterbenz; auto with typeclass_instances; [apply RN_fmt|apply val_fmt|lra].
    + left. rewrite e, ed. rewrite bp53.
      destruct (plus_rel (nominal (k + 1)) (- val s)) as [r _].
      * apply RN_fmt.
      * apply generic_format_opp, val_fmt.
      * lra.
      * assert (bpow radix2 (-53) <= 1 / 2) by (simpl; lra). unfold Rminus. nra. }
destruct C as [C|C].
- destruct (fmt_int _ (val_fmt g)) as [b Eb]. destruct (fmt_int _ (val_fmt s)) as [a Ea].
  apply (while_ends (Z.to_nat (b - a)) g d s f fd fs s0 pd).
  + rewrite e, ed. lra.
  + now rewrite e.
  + exact C.
  + exists a, b. repeat split; [exact Ea|exact Eb|]. lia.
- exists 1%nat, (fadd s d). pose proof (b1023 (nominal (k + 1)) ltac:(lra) nb) as bb.
  destruct (fadd_val s d fs fd ltac:(lra)) as [e' f']. rewrite <- e in c. simpl.
  rewrite (proj2 (flt_val s g fs f) c). rewrite (proj2 (flt_valF _ g f' f)); [reflexivity|]. rewrite e', C. lra.
Qed.
End Asif.

(** Relative error of rounding away from the subnormal numbers. *)
Lemma RN_rel x : bpow radix2 (-1000) <= x -> x * (1 - u) <= RN x <= x * (1 + u).
Proof.
intros h. pose proof (bpow_gt_0 radix2 (-1000)) as p.
pose proof (relative_error_N_FLT radix2 (-1074) 53 ltac:(lia) (fun z => negb (Z.even z)) x) as q.
rewrite Rabs_pos_eq in q by lra. assert (b : bpow radix2 (-1074 + 53 - 1) <= bpow radix2 (-1000)) by (apply bpow_le; lia).
specialize (q ltac:(lra)). change (round radix2 fx ZnearestE x) with (RN x) in q.
assert (E : / 2 * bpow radix2 (- (53) + 1) = u) by (simpl; lra). rewrite E in q. apply Rabs_le_inv in q. lra.
Qed.
(** For sensible parameters all loops end (also the one after the last constraint: k = K), and constraint k is evaluated between k T / K and k T / K + dt, up to rounding. *)
Theorem C96_asif T K pdt k : fin T -> fin pdt -> bpow radix2 (-900) <= val T <= bpow radix2 1000 -> 0 < val pdt ->
  (0 < K)%nat -> (Z.of_nat K < 2 ^ 32)%Z -> val T <= bpow radix2 52 * val pdt -> (k <= K)%nat ->
  exists fuel t, asif_time fuel T K pdt k = Some t /\ fin t /\
    IZR (Z.of_nat k) * (val T / IZR (Z.of_nat K)) * (1 - bpow radix2 (-51)) <= val t
      <= (IZR (Z.of_nat k) * (val T / IZR (Z.of_nat K)) + val pdt) * (1 + bpow radix2 (-50)).
Proof.
intros hT hp [T1 T2] p0 K0 K1 hl hk.
destruct (fint_val (Z.of_nat K)) as [eK fK]; [lia|].
assert (kk : 1 <= IZR (Z.of_nat K) <= bpow radix2 32) by (split; [apply (IZR_le 1); lia|change (bpow radix2 32) with (IZR (2 ^ 32)); apply IZR_le; lia]).
set (Kr := IZR (Z.of_nat K)) in *.
assert (pT : 0 < val T) by (pose proof (bpow_gt_0 radix2 (-900)); lra).
assert (q1 : val T / Kr * Kr = val T) by (field; lra).
assert (q2 : bpow radix2 (-932) <= val T / Kr).
{ apply Rmult_le_reg_r with Kr; [lra|]. rewrite q1. apply Rle_trans with (2 := T1). change (-900)%Z with (-932 + 32)%Z.
  rewrite bpow_plus. pose proof (bpow_gt_0 radix2 (-932)). nra. }
assert (q3 : val T / Kr <= val T) by (pose proof (bpow_gt_0 radix2 (-932)); nra).
assert (b1 : bpow radix2 (-1000) <= bpow radix2 (-932)) by (apply bpow_le; lia).
assert (b2 : bpow radix2 1000 <= bpow radix2 1023) by (apply bpow_le; lia).
pose proof (bpow_gt_0 radix2 (-1000)) as b3.
destruct (fdiv_val T (fint (Z.of_nat K)) hT) as [et ft]; [rewrite eK; fold Kr; lra|rewrite eK; fold Kr; lra|].
rewrite eK in et. fold Kr in et. change (fdiv T (fint (Z.of_nat K))) with (asif_tau T K) in et, ft.
destruct (RN_rel (val T / Kr) ltac:(lra)) as [r1 r2]. rewrite <- et in r1, r2.
destruct (fmin_val pdt (asif_tau T K) hp ft) as [fd ed]. change (fmin pdt (asif_tau T K)) with (asif_dt T K pdt) in fd, ed.
assert (u0 : 0 < u <= / 1024) by (split; [apply bpow_gt_0|simpl; lra]).
assert (tp : 0 < val (asif_tau T K)) by nra.
assert (dp : 0 < val (asif_dt T K pdt)) by (rewrite ed; now apply Rmin_pos).
assert (dl : val (asif_dt T K pdt) <= val (asif_tau T K)) by (rewrite ed; apply Rmin_r).
assert (dl' : val (asif_dt T K pdt) <= val pdt) by (rewrite ed; apply Rmin_l).
assert (tb : val (asif_tau T K) * Kr <= val T * (1 + u)) by nra.
assert (bb : val (asif_tau T K) * IZR (Z.of_nat K) <= bpow radix2 1001).
{ fold Kr. change 1001%Z with (1 + 1000)%Z. rewrite bpow_plus. simpl (bpow radix2 1). nra. }
assert (nn : forall j, bpow radix2 (-1000) <= val (asif_tau T K) * IZR (Z.of_nat j) \/ j = O).
{ intros [|j]; [now right|left]. assert (1 <= IZR (Z.of_nat (S j))) by (apply (IZR_le 1); lia).
  assert (bpow radix2 (-932) = 2 * bpow radix2 (-933)) by (change (-932)%Z with (1 + -933)%Z; rewrite bpow_plus; reflexivity).
  assert (bpow radix2 (-1000) <= bpow radix2 (-933)) by (apply bpow_le; lia). nra. }
assert (nr : forall j, val (asif_tau T K) * IZR (Z.of_nat j) * (1 - u) <= nominal (asif_tau T K) j <= val (asif_tau T K) * IZR (Z.of_nat j) * (1 + u)).
{ intros j. destruct (nn j) as [c|c]; [unfold nominal; now apply RN_rel|]. subst j. rewrite nominal_0. simpl. lra. }
assert (nK : nominal (asif_tau T K) K <= bpow radix2 53 * val (asif_dt T K pdt)).
{ destruct (nr K) as [_ n]. fold Kr in n. apply Rle_trans with (1 := n).
  assert (E53 : bpow radix2 53 = 2 * bpow radix2 52) by (simpl; lra). rewrite E53, ed.
  assert (E52 : bpow radix2 32 * 2 <= bpow radix2 52) by (simpl; lra).
  assert (uu : (1 + u) * (1 + u) <= 2) by nra.
  unfold Rmin. destruct (Rle_dec (val pdt) (val (asif_tau T K))).
  { apply Rle_trans with (val T * (1 + u) * (1 + u)); [apply Rmult_le_compat_r; [lra|exact tb]|].
    apply Rle_trans with (val T * 2); [rewrite Rmult_assoc; apply Rmult_le_compat_l; lra|lra]. }
  apply Rle_trans with (val (asif_tau T K) * Kr * 2); [apply Rmult_le_compat_l; [nra|lra]|].
  apply Rle_trans with (val (asif_tau T K) * bpow radix2 32 * 2); [nra|]. nra. }
destruct (C96_ends (asif_tau T K) (asif_dt T K pdt) K ft fd dp dl K1 bb k ltac:(lia) nK) as [fuel [t E]].
exists fuel, t. split; [exact E|].
destruct (C96_window (asif_tau T K) (asif_dt T K pdt) K ft fd dp dl K1 bb fuel k t ltac:(lia) E) as [f [w1 w2]].
split; [exact f|]. destruct (nr k) as [n1 n2]. set (kr := IZR (Z.of_nat k)) in *.
assert (k0 : 0 <= kr) by (apply (IZR_le 0); lia).
assert (z1 : bpow radix2 (-51) = 4 * u) by (simpl; lra). assert (z2 : bpow radix2 (-50) = 8 * u) by (simpl; lra). rewrite z1, z2.
assert (m1 : kr * (val T / Kr) * (1 - u) <= val (asif_tau T K) * kr <= kr * (val T / Kr) * (1 + u)) by nra.
assert (x0 : 0 <= kr * (val T / Kr)) by (apply Rmult_le_pos; [exact k0|lra]).
set (x := kr * (val T / Kr)) in *. set (y := val (asif_tau T K) * kr) in *.
split.
- apply Rle_trans with (2 := w1). apply Rle_trans with (2 := n1).
  apply Rle_trans with (x * (1 - u) * (1 - u)); [|nra]. assert (0 <= x * u) by nra. nra.
- apply Rle_trans with (1 := w2).
  assert (n0 : 0 <= nominal (asif_tau T K) k) by (apply Rle_trans with (2 := n1); unfold y; apply Rmult_le_pos; [apply Rmult_le_pos; [lra|exact k0]|lra]).
  destruct (plus_rel (nominal (asif_tau T K) k) (val (asif_dt T K pdt))) as [_ pr]; [apply RN_fmt|apply val_fmt|lra|].
  apply Rle_trans with (1 := pr). assert (ny : nominal (asif_tau T K) k <= x * (1 + u) * (1 + u)) by nra.
  apply Rle_trans with ((x * (1 + u) * (1 + u) + val pdt) * (1 + u)); [nra|].
  assert (a1 : 0 <= x * u) by nra. assert (a2 : x * u * u <= x * u * / 1024) by nra. assert (a3 : x * u * u * u <= x * u * / 1024) by nra. nra.
Qed.
