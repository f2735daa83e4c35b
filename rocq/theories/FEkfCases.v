(** C106: negative variances, and cases. *)
From Coq Require Import Reals ZArith Lia Lra List Bool.
From Flocq Require Import Core BinarySingleNaN.
From Verif Require Import LoopModel LoopFacts FPidModel FPidFacts FPidOut FQpModel FQpFacts FScaleModel FScaleProps FEkfModel FEkfProps.
Open Scope R_scope.

Definition ek_h : b64 := fdiv (fint 7) (fint 10).
Definition ek_r1 : b64 := fdiv (fint 1) (fint 1208925819614629174706176).
Definition ek_up (h r p : b64) : b64 * b64 :=
  let k := fk_K h p (fadd (fmul (fmul h p) h) r) in (k, fmul (fsub (fint 1) (fmul k h)) p).
Lemma ek_upE h r p : fk_update h r p (fst (ek_up h r p)) (snd (ek_up h r p)).
Proof. exists (fadd (fmul (fmul h p) h) r). split; [now left|]. split; [reflexivity|now left]. Qed.
Definition ek_p1 : b64 := snd (ek_up ek_h ek_r1 ek_h).
Definition ek_s0 : b64 := fmul (fmul ek_h ek_h) ek_h.
Definition ek_r2 : b64 := fmul ek_s0 (fadd (fdiv (fint 1) (fint 4503599627370496)) (fdiv (fint 1) (fint 5070602400912917605986812821504))).
Lemma sf_val x sg m e : B2SF x = SpecFloat.S754_finite sg m e -> val x = cond_Ropp sg (IZR (Zpos m) * p2 e).
Proof. intros E. unfold val. rewrite <- SF2R_B2SF, E. unfold SF2R, F2R, Fnum, Fexp. destruct sg; simpl cond_Zopp; simpl cond_Ropp; [change (Zneg m) with (- Zpos m)%Z; rewrite opp_IZR; ring|reflexivity]. Qed.
(** Without the bound on r: the measurement of 7/10 x with variance 2^-80 of a state with variance 7/10 makes the variance negative.  A second
    measurement of 7/10 x with some positive variance then has a gain below -10^15 and leaves a variance below -1/10. *)
Theorem C106_negative_refuted : exists h r1 r2 p k1 p1 k2 p2', val h = val p /\ 1 / 2 < val p < 1 /\ 0 < val r1 /\ 0 < val r2 /\
  fk_update h r1 p k1 p1 /\ fin p1 /\ val p1 < 0 /\ fk_update h r2 p1 k2 p2' /\ fin k2 /\ fin p2' /\ val k2 < - 10 ^ 15 /\ val p2' < - (1 / 10).
Proof.
exists ek_h, ek_r1, ek_r2, ek_h, (fst (ek_up ek_h ek_r1 ek_h)), ek_p1, (fst (ek_up ek_h ek_r2 ek_p1)), (snd (ek_up ek_h ek_r2 ek_p1)).
assert (Eh : val ek_h = IZR 6305039478318694 * p2 (-53)) by (apply (sf_val _ false); vm_compute; reflexivity).
assert (E1 : val ek_r1 = IZR 4503599627370496 * p2 (-132)) by (apply (sf_val _ false); vm_compute; reflexivity).
assert (E2 : val ek_r2 = IZR 6178938688752324 * p2 (-106)) by (apply (sf_val _ false); vm_compute; reflexivity).
assert (Ep : val ek_p1 = - (IZR 6305039478318694 * p2 (-105))) by (apply (sf_val _ true); vm_compute; reflexivity).
assert (Ek : val (fst (ek_up ek_h ek_r2 ek_p1)) = - (IZR 7061644215716937 * p2 (-2))) by (apply (sf_val _ true); vm_compute; reflexivity).
assert (Eq : val (snd (ek_up ek_h ek_r2 ek_p1)) = - (IZR 6920411331402604 * p2 (-55))) by (apply (sf_val _ true); vm_compute; reflexivity).
pose proof (p2_pos (-132)) as q1. pose proof (p2_pos (-106)) as q2. pose proof (p2_pos (-105)) as q3.
split; [reflexivity|]. split; [rewrite Eh; simpl; lra|]. split; [rewrite E1; lra|]. split; [rewrite E2; lra|].
split; [apply ek_upE|]. split; [vm_compute; reflexivity|]. split; [rewrite Ep; lra|]. split; [apply ek_upE|].
split; [vm_compute; reflexivity|]. split; [vm_compute; reflexivity|]. split; [rewrite Ek; simpl; lra|rewrite Eq; simpl; lra].
Qed.

(** h = 2, p = r = 1: the gain is 2/5 and the variance 1/5 up to rounding; the hypotheses of C106_error and C106_range hold. *)
Example C106_case : let h := fint 2 in let one := fint 1 in exists k q, fk_update h one one k q /\ fin q /\ Rabs (val q - 1 / 5) <= / 1125899906842624 /\ 0 <= val q <= 1 /\ val q <> 1.
Proof.
intros h one. exists (fst (ek_up h one one)), (snd (ek_up h one one)). pose proof (ek_upE h one one) as hu. split; [exact hu|].
destruct (fint_val 1) as [e1 f1]; [lia|]. destruct (fint_val 2) as [e2 f2]; [lia|]. fold one in e1, f1. fold h in e2, f2.
assert (bh : p2 (-200) <= Rabs (val h) <= p2 200) by (rewrite e2, Rabs_pos_eq by lra; change 2 with (p2 1); split; apply bpow_le; lia).
assert (bp : p2 (-200) <= val one <= p2 200) by (rewrite e1; change 1 with (p2 0); split; apply bpow_le; lia).
assert (br : 0 <= val one <= p2 600) by (rewrite e1; split; [lra|change 1 with (p2 0); apply bpow_le; lia]).
destruct (C106_error h one one _ _ f2 f1 f1 bh bp br hu) as [fq E]. destruct (C106_range h one one _ _ f2 f1 f1 bh bp br hu) as [R1 R2].
rewrite e1, e2 in *. replace (1 * 1 / (2 * 2 * 1 + 1)) with (1 / 5) in E by field. rewrite Rmult_1_r in E. specialize (R2 ltac:(lra)).
split; [exact fq|]. split; [exact E|]. split; [lra|]. apply Rabs_le_inv in E. lra.
Qed.

Print Assumptions C106_error.
Print Assumptions C106_range.
Print Assumptions C106_negative_refuted.
