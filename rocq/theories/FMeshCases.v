(** Property C97: intervals that vanish, and cases. *)
From Coq Require Import Reals ZArith Lia Lra List Bool.
From Flocq Require Import Core BinarySingleNaN.
From Verif Require Import LoopModel LoopFacts LoopEkf LoopAsif FMeshModel FMeshFacts FMeshProps FMeshThms FMeshNodes.
Import ListNotations.
Local Open Scope R_scope.

Definition last_runs (r : nat) : list mop := map (fun i => MRefine (2 * i) 11) (seq 0 r).
Lemma last_runs_legal r j n : (n = 2 * j + 1)%nat -> forall m, length m = n -> legal 5 10 2 m (map (fun i => MRefine (2 * i) 11) (seq j r)).
Proof.
revert j n. induction r as [|r IH]; intros j n E m hm; cbn [seq map legal]; [easy|]. split.
- split; [lia|]. vm_compute. lia.
- apply (IH (S j) (n + 2)%nat ltac:(lia)). unfold mrun, fm_refine. change (Nat.ltb 10 11) with true. cbn [orb]. change (fm_parts 5 11) with 3%nat.
  cbn [fm_loop]. change (Nat.ltb 1 3) with true. change (Nat.ltb 1 2) with true. change (Nat.ltb 1 1) with false. cbv iota.
  unfold insert_at. repeat (rewrite ?app_length, ?firstn_length, ?skipn_length; cbn [length]). lia.
Qed.
(** With the default degrees 5 and 10: dividing the last interval again and again (35 times) makes an interval of length zero that starts at 1. *)
Theorem C97_refuted : exists l, legal 5 10 2 (fm_uniform 1 5) l /\
  (exists i, (i < length (fold_left (mrun 5 10) l (fm_uniform 1 5)))%nat /\
    val (fm_tau0 (fold_left (mrun 5 10) l (fm_uniform 1 5)) i) = 1 /\ val (fm_tauf (fold_left (mrun 5 10) l (fm_uniform 1 5)) i) = 1) /\
  forall w, 0 < w -> ~ partition w (fold_left (mrun 5 10) l (fm_uniform 1 5)).
Proof.
exists (last_runs 35). set (m := fold_left _ _ _).
destruct (fint_val 1) as [e1 f1]; [lia|].
assert (L : length m = 71%nat) by (vm_compute; reflexivity).
assert (V : snd (nth 70 m (0%nat, fint 1)) = fint 1) by (apply B2SF_inj; vm_compute; reflexivity).
assert (I : val (fm_tau0 m 70) = 1) by (unfold fm_tau0; rewrite V; exact e1).
split; [|split].
- apply (last_runs_legal 35 0 1); reflexivity.
- exists 70%nat. split; [lia|]. split; [exact I|]. unfold fm_tauf. rewrite L. exact e1.
- intros w hw [_ [_ h]]. unfold fm_tau0 in I. clearbody m.
  destruct (exists_last (l := m)) as [a [x E]]; [intros ->; discriminate|]. subst m. rewrite app_length in L. simpl in L.
  replace 70%nat with (length a) in I by lia. rewrite nth_mid in I. unfold pts in h. rewrite map_app, <- app_assoc in h. cbn [map app] in h.
  assert (G : forall l, adjl w (l ++ [val (snd x); 1]) -> val (snd x) + w <= 1).
  { intros l. destruct l as [|y l]; cbn [app adjl]; [intros g; apply g|]. revert y. induction l as [|z l IH]; intros y; cbn [app adj].
    - intros g. apply g.
    - intros [_ g]. now apply (IH z). }
  apply G in h. lra.
Qed.
(** Tables of degrees 1 and 2. *)
Definition third : b64 := fdiv (fint 1) (fint 3).
Definition lgr12 (K : nat) : list b64 := if Nat.eqb K 1 then [fint (-1); fint 1] else [fint (-1); third; fint 1].
Lemma minus_one : val (fint (-1)) = -1 /\ fin (fint (-1)).
Proof.
split; [|vm_compute; reflexivity]. unfold val. rewrite <- SF2R_B2SF. change (B2SF (fint (-1))) with (SpecFloat.S754_finite true 4503599627370496 (-52)).
unfold SF2R, F2R. simpl. lra.
Qed.
Lemma lgr12_table K : (1 <= K <= 2)%nat -> table K (lgr12 K).
Proof.
intros h. destruct (fint_val 1) as [e1 f1]; [lia|]. destruct (fint_val 3) as [e3 f3]; [lia|]. destruct minus_one as [em fm].
assert (C : K = 1%nat \/ K = 2%nat) by lia. destruct C as [-> | ->].
- split; [reflexivity|]. split; [repeat constructor; assumption|]. exists []. cbn [lgr12 Nat.eqb map app adj]. split; [now rewrite em, e1|]. split; [lra|easy].
- split; [reflexivity|].
  destruct (fdiv_val (fint 1) (fint 3) f1) as [e f]; [rewrite e3; lra|rewrite e1, e3; apply small_ok; lra|]. fold third in e, f. rewrite e1, e3 in e.
  assert (B : / 4 <= val third <= / 2).
  { rewrite e. assert (q : RN (/ 4) = / 4) by (apply RN_id; replace (/ 4) with (bpow radix2 (-2)) by (simpl; lra); apply bpow_fmt; lia).
    assert (s : RN (/ 2) = / 2) by (apply RN_id; replace (/ 2) with (bpow radix2 (-1)) by (simpl; lra); apply bpow_fmt; lia).
    split; [rewrite <- q|rewrite <- s]; apply RN_le; lra. }
  split; [repeat constructor; assumption|]. exists [val third]. cbn [lgr12 Nat.eqb map app adj]. split; [now rewrite em, e1|]. split; [lra|]. split; [lra|easy].
Qed.
(** A mesh of three intervals, then a round that divides two of them, then an increase of the degrees and a division of one. *)
Definition hist : list mop := [MErrors (fun i => if Nat.eqb i 1 then None else Some 2%nat); MInc; MRefine 2 2].
Lemma hist_legal : legal 1 1 1 (fm_uniform 3 1) hist.
Proof.
cbn [hist legal mok]. repeat split.
- intros i D. destruct (Nat.eqb i 1); [discriminate|]. intros [= <-]. vm_compute. lia.
- vm_compute. lia.
- vm_compute. lia.
Qed.
Lemma hist_small : INR 3 * 2 ^ (1 * rounds hist) <= 100000000000.
Proof. simpl. lra. Qed.
Example C97_partition_case : partition (/ 13) (fold_left (mrun 1 1) hist (fm_uniform 3 1)) /\ length (fold_left (mrun 1 1) hist (fm_uniform 3 1)) = 6%nat.
Proof.
split; [|vm_compute; reflexivity]. eapply partition_le; [|apply (C97_partition 1 1 1 ltac:(lia) ltac:(lia) 3 1 hist ltac:(lia) hist_legal hist_small)].
assert (e : eps <= / 1000000) by (unfold eps; simpl; lra). simpl. lra.
Qed.
Example C97_nodes_case : exists r d, map val (fm_all_nodes lgr12 (fold_left (mrun 1 1) hist (fm_uniform 3 1))) = 0 :: r ++ [1] /\ 0 < d /\ adj d 0 (r ++ [1]).
Proof. apply (proj2 (C97_nodes lgr12 1 1 1 3 1 hist ltac:(lia) ltac:(lia) ltac:(lia) ltac:(lia) (fun K h => lgr12_table K ltac:(lia)) hist_legal hist_small)). Qed.
Example C97_nodes_count : length (fm_all_nodes lgr12 (fold_left (mrun 1 1) hist (fm_uniform 3 1))) = 12%nat.
Proof. vm_compute. reflexivity. Qed.
Print Assumptions C97_partition. Print Assumptions C97_nodes. Print Assumptions C97_refuted.
