(** C105: an interval of length zero, and cases. *)
From Coq Require Import Reals ZArith Lia Lra List Bool.
From Flocq Require Import Core BinarySingleNaN.
From Verif Require Import LoopModel LoopFacts LoopEkf LoopAsif FPidModel FPidFacts FMeshModel FMeshFacts FMeshProps FMeshThms FMeshNodes FMeshCases
  FScaleModel FScaleProps FEvalModel FEvalProps.
Import ListNotations.
Open Scope R_scope.

(** Without the bound on the number of divisions: with the degrees 5 to 10 there is a mesh in which the point t = 1 of the last interval
    has the coordinate NaN and the derivatives of the last interval are multiplied by infinity. *)
Theorem C105_refuted : exists l, legal 5 10 2 (fm_uniform 1 5) l /\
  let m := fold_left (mrun 5 10) l (fm_uniform 1 5) in exists i, (i < length m)%nat /\
  val (fm_tau0 m i) <= val (fint 1) <= val (fm_tauf m i) /\
  fe_coord (fm_tau0 m i) (fm_tauf m i) (fint 1) = B754_nan /\ fe_dscale (fm_tau0 m i) (fm_tauf m i) = B754_infinity false.
Proof.
exists (last_runs 35). split; [apply (last_runs_legal 35 0 1); reflexivity|]. intros m. destruct (fint_val 1) as [e1 f1]; [lia|].
assert (L : length m = 71%nat) by (vm_compute; reflexivity).
assert (V : fm_tau0 m 70 = fint 1) by (apply B2SF_inj; vm_compute; reflexivity).
exists 70%nat. split; [lia|]. assert (F : fm_tauf m 70 = fint 1) by (unfold fm_tauf; now rewrite L). rewrite V, F. split; [lra|].
split; apply B2SF_inj; vm_compute; reflexivity.
Qed.

(** Weights of degrees 1 and 2: 2; 1/2 and 3/2. *)
Definition fhalf : b64 := fdiv (fint 1) (fint 2).
Definition f3half : b64 := fdiv (fint 3) (fint 2).
Definition lgw12 (K : nat) : list b64 := if Nat.eqb K 1 then [fint 2; fint 0] else [fhalf; f3half; fint 0].
Lemma halves : (val fhalf = / 2 /\ fin fhalf) /\ (val f3half = 3 / 2 /\ fin f3half).
Proof.
split; (split; [|vm_compute; reflexivity]); unfold val; rewrite <- SF2R_B2SF.
- replace (B2SF fhalf) with (SpecFloat.S754_finite false 4503599627370496 (-53)) by (vm_compute; reflexivity). unfold SF2R, F2R. simpl. lra.
- replace (B2SF f3half) with (SpecFloat.S754_finite false 6755399441055744 (-52)) by (vm_compute; reflexivity). unfold SF2R, F2R. simpl. lra.
Qed.
Lemma lgw12_table K : (1 <= K <= 2)%nat -> wtable 0 K (lgw12 K).
Proof.
intros h. destruct (fint_val 0) as [e0 f0]; [lia|]. destruct (fint_val 2) as [e2 f2]; [lia|]. destruct halves as [[eh fh] [e3 f3]].
assert (C : K = 1%nat \/ K = 2%nat) by lia. destruct C as [-> | ->].
- exists [fint 2], (fint 0). split; [reflexivity|]. split; [reflexivity|]. split; [repeat constructor; assumption|]. split; [constructor; [rewrite e2; lra|constructor]|].
  split; [exact e0|]. unfold wsum. cbn [map fold_right]. rewrite e2. replace (2 + 0 - 2) with 0 by ring. rewrite Rabs_R0. lra.
- exists [fhalf; f3half], (fint 0). split; [reflexivity|]. split; [reflexivity|]. split; [repeat constructor; assumption|].
  split; [constructor; [rewrite eh; lra|constructor; [rewrite e3; lra|constructor]]|].
  split; [exact e0|]. unfold wsum. cbn [map fold_right]. rewrite eh, e3. replace (/ 2 + (3 / 2 + 0) - 2) with 0 by field. rewrite Rabs_R0. lra.
Qed.
(** The mesh of the case of C97: six intervals, eleven points. *)
Definition m6 : fmesh := fold_left (mrun 1 1) hist (fm_uniform 3 1).
Definition t6 : b64 := fdiv (fint 2) (fint 5).
Lemma t6_in : fin t6 /\ val (fm_tau0 m6 2) <= val t6 <= val (fm_tauf m6 2) /\ fin (fm_tau0 m6 2) /\ fin (fm_tauf m6 2).
Proof.
assert (f1 : fin t6) by (vm_compute; reflexivity). assert (f2 : fin (fm_tau0 m6 2)) by (vm_compute; reflexivity). assert (f3 : fin (fm_tauf m6 2)) by (vm_compute; reflexivity).
split; [exact f1|]. split; [|now split]. split; apply flt_valF; try assumption; vm_compute; reflexivity.
Qed.
Example C105_history_case : (fin (fe_coord (fm_tau0 m6 2) (fm_tauf m6 2) t6) /\ -1 <= val (fe_coord (fm_tau0 m6 2) (fm_tauf m6 2) t6) <= 1) /\
  fin (fe_dscale (fm_tau0 m6 2) (fm_tauf m6 2)) /\
  length (fe_all_weights lgw12 m6) = 12%nat /\ Rabs (wsum (fe_all_weights lgw12 m6) - 1) <= / 562949953421312.
Proof.
destruct (C105_history lgw12 0 1 1 1 3 1 hist ltac:(lia) ltac:(lia) ltac:(lia) ltac:(lia) ltac:(lra) (fun K h => lgw12_table K ltac:(lia)) hist_legal hist_small) as (h1 & h2 & h3).
fold m6 in h1, h2, h3. destruct t6_in as (f & b & _).
assert (L : length m6 = 6%nat) by (vm_compute; reflexivity). assert (N : list_sum (map fst m6) = 11%nat) by (vm_compute; reflexivity).
destruct (h1 2%nat t6 ltac:(lia) f b) as (g1 & g2 & _). split; [now split|]. split; [apply h2; lia|]. rewrite N in h3. destruct h3 as (k1 & _ & k2).
split; [exact k1|]. assert (e : p2 (-1075) <= p2 (-100)) by (apply bpow_le; lia). simpl INR in k2. simpl (p2 (-100)) in e. lra.
Qed.
(** The interval [1/4, 1], the point 1/2 and the node with coordinate 1/3. *)
Definition quarter : b64 := fdiv (fint 1) (fint 4).
Lemma q_val : val quarter = / 4 /\ fin quarter.
Proof.
split; [|vm_compute; reflexivity]. unfold val. rewrite <- SF2R_B2SF.
replace (B2SF quarter) with (SpecFloat.S754_finite false 4503599627370496 (-54)) by (vm_compute; reflexivity). unfold SF2R, F2R. simpl. lra.
Qed.
Example C105_coord_case : Rabs (val (fe_coord quarter (fint 1) fhalf) - - / 3) <= / 1125899906842624 /\
  val (fe_coord quarter (fint 1) fhalf) <= val (fe_coord quarter (fint 1) (fint 1)) /\
  Rabs (val (fe_dscale quarter (fint 1)) * (3 / 4) - 2) <= / 1125899906842624.
Proof.
destruct q_val as [eq fq]. destruct halves as [[eh fh] _]. destruct (fint_val 1) as [e1 f1]; [lia|].
split; [|split].
- destruct (C105_coord quarter (fint 1) fq f1 ltac:(lra) ltac:(lra) ltac:(lra) fhalf fh ltac:(lra)) as (_ & _ & h & _). rewrite eq, eh, e1 in h.
  replace (2 * (/ 2 - / 4) / (1 - / 4) - 1) with (- / 3) in h by field. exact h.
- apply (C105_monotone quarter (fint 1) fq f1 ltac:(lra) ltac:(lra) ltac:(lra)); try assumption; lra.
- destruct (C105_dscale quarter (fint 1) fq f1 ltac:(lra) ltac:(lra) ltac:(lra)) as (_ & _ & h).
  + rewrite eq, e1. apply Rle_trans with (p2 (-10)); [apply bpow_le; lia|simpl; lra].
  + rewrite e1, eq in h. replace (1 - / 4) with (3 / 4) in h by field. exact h.
Qed.
Example C105_node_case : Rabs (val (fe_coord quarter (fint 1) (fm_node quarter (fint 1) third)) - val third) <= / 211106232532992.
Proof.
destruct q_val as [eq fq]. destruct (fint_val 1) as [e1 f1]; [lia|]. assert (ft : fin third) by (vm_compute; reflexivity).
pose proof minus_one as [em fm].
assert (b : -1 <= val third <= 1). { split; [rewrite <- em|rewrite <- e1]; apply flt_valF; try assumption; vm_compute; reflexivity. }
assert (fn : fin (fm_node quarter (fint 1) third)) by (vm_compute; reflexivity).
assert (n : val quarter <= val (fm_node quarter (fint 1) third) <= val (fint 1)). { split; apply flt_valF; try assumption; vm_compute; reflexivity. }
pose proof (C105_node quarter (fint 1) fq f1 ltac:(lra) ltac:(lra) ltac:(lra) third ft b n) as h. rewrite eq, e1 in h.
eapply Rle_trans; [exact h|]. lra.
Qed.
Print Assumptions C105_history. Print Assumptions C105_node. Print Assumptions C105_monotone. Print Assumptions C105_refuted.
