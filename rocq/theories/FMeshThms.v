(** Property C97, continued: histories of operations and the nodes. *)
From Coq Require Import Reals ZArith Lia Lra List Bool.
From Flocq Require Import Core BinarySingleNaN Sterbenz.
From Verif Require Import LoopModel LoopFacts LoopEkf LoopAsif FMeshModel FMeshFacts FMeshProps.
Import ListNotations.
Local Open Scope R_scope.

Lemma partition_le w w' m : w' <= w -> partition w m -> partition w' m.
Proof. intros h [h1 [h2 h3]]. split; [exact h1|split; [exact h2|]]. now apply adjl_le with w. Qed.
Lemma mid_of_partition w w' j m : w' <= w -> (j <= length m)%nat -> partition w m -> mid w w' j m.
Proof.
intros h hj [h1 [h2 h3]]. exists (firstn j m), (skipn j m). rewrite firstn_skipn. split; [reflexivity|].
split; [now apply firstn_length_le|]. split; [exact h1|]. split; [exact h2|].
rewrite <- (firstn_skipn j m) in h3. rewrite pts_app, <- app_assoc in h3.
destruct (skipn j m) as [|x c]; simpl in *; [split; [exact h3|exact I]|]. apply adjl_app in h3. destruct h3 as [h3 h4].
split; [exact h3|]. now apply adj_le with w.
Qed.
Lemma partition_of_mid w w' j m : w' <= w -> mid w w' j m -> partition w' m.
Proof.
intros h [a [c [E [_ [h1 [h2 [h3 h4]]]]]]]. split; [exact h1|split; [exact h2|]]. rewrite E, pts_app, <- app_assoc.
apply (adjl_le w w') in h3; [|exact h]. destruct c as [|x c]; simpl in *; [exact h3|]. apply adjl_app. now split.
Qed.
(** Uniform meshes. *)
Lemma uniform_ok n k : (0 < n)%nat -> (Z.of_nat n <= 2 ^ 40)%Z -> partition (1 / INR n - 2 * eps) (fm_uniform n k).
Proof.
intros n0 nb. assert (e0 : 0 < eps) by apply bpow_gt_0. unfold fm_uniform. destruct (Nat.ltb_spec n 2) as [h|h].
- destruct (fint_val 0) as [z f]; [lia|]. replace n with 1%nat by lia. split; [now constructor|]. unfold pts. cbn [map snd hd app adjl adj]. rewrite z.
  split; [reflexivity|]. split; [|easy]. change (INR 1) with 1. lra.
- pose proof (fun i => uniform_val n i n0 nb) as V. cbv zeta. set (P := fun i => fmul (fnat i) (fdiv (fint 1) (fnat n))) in *.
  assert (np : 0 < INR n) by (apply (lt_INR 0); lia).
  assert (nn : INR n / INR n = 1) by (field; lra).
  assert (P0 : val (P 0%nat) = 0).
  { destruct (fnat_val 0) as [z f]; [simpl; lia|]. destruct (fint_val 1) as [e1 f1]; [lia|]. destruct (fnat_val n) as [en fn]; [lia|].
    assert (i0 : 0 < / INR n <= 1) by (split; [now apply Rinv_0_lt_compat|]; rewrite <- Rinv_1; apply Rinv_le; [lra|apply (le_INR 1); lia]).
    destruct (fdiv_val (fint 1) (fnat n) f1) as [_ fd]; [rewrite en; lra|rewrite e1, en; apply small_ok; unfold Rdiv; lra|].
    assert (z' : val (fnat 0) = 0) by (rewrite z; reflexivity).
    destruct (fmul_val (fnat 0) (fdiv (fint 1) (fnat n)) f fd) as [em _]; [rewrite z', Rmult_0_l; apply small_ok; lra|].
    unfold P. rewrite em, z', Rmult_0_l. apply RN_0. }
  split; [apply Forall_map, Forall_forall; intros i hi; apply in_seq in hi; cbn [snd]; apply (V i); lia|].
  unfold pts. rewrite map_map. cbn [snd].
  assert (G : forall l s, (s + l = n)%nat -> (0 < s)%nat -> forall x, x <= INR (s - 1) / INR n + eps ->
    adj (1 / INR n - 2 * eps) x (map (fun i => val (P i)) (seq s l) ++ [1])).
  { induction l as [|l IH]; intros s hs s0 x hx; cbn [seq map app adj].
    - split; [|easy]. replace s with n in hx by lia. rewrite minus_INR in hx by lia. change (INR 1) with 1 in hx.
      replace ((INR n - 1) / INR n) with (1 - 1 / INR n) in hx by (field; lra). lra.
    - destruct (V s) as [_ [v1 v2]]; [lia|]. fold (P s) in v1, v2. split.
      + rewrite minus_INR in hx by lia. change (INR 1) with 1 in hx. replace ((INR s - 1) / INR n) with (INR s / INR n - 1 / INR n) in hx by (field; lra). lra.
      + apply IH; [lia|lia|]. replace (S s - 1)%nat with s by lia. exact v2. }
  destruct n as [|n]; [lia|]. cbn [seq map hd]. split; [exact P0|]. cbn [app adjl]. apply (G n 1%nat); [lia|lia|].
  apply Rle_trans with (val (P 0%nat)); [right; reflexivity|]. rewrite P0. change (INR (1 - 1)) with 0. unfold Rdiv. rewrite Rmult_0_l. lra.
Qed.
Section Hist.
Variables (Kmin Kmax b : nat).
Hypotheses (hK : (0 < Kmin <= Kmax)%nat) (hb : (1 <= b <= 30)%nat).
(** Public operations that change a mesh. *)
Inductive mop := MRefine (i D : nat) | MErrors (Ds : nat -> option nat) | MSet (i K : nat) | MInc | MDec.
Definition mrun (m : fmesh) (o : mop) : fmesh :=
  match o with
  | MRefine i D => fm_refine Kmin Kmax m i D
  | MErrors Ds => fm_round Kmin Kmax m Ds
  | MSet i K => fm_set m i K
  | MInc => fm_inc Kmax m
  | MDec => fm_dec Kmin m
  end.
(** The assertions of the operations hold, and an interval is divided into at most 2^b parts. *)
Definition mok (m : fmesh) (o : mop) : Prop :=
  match o with
  | MRefine i D => (i < length m)%nat /\ (fm_parts Kmin D <= 2 ^ b)%nat
  | MErrors Ds => forall i D, Ds i = Some D -> (fm_parts Kmin D <= 2 ^ b)%nat
  | MSet i K => (i < length m)%nat /\ (Kmin <= K <= Kmax + 1)%nat
  | _ => True
  end.
(** Number of operations that may divide. *)
Fixpoint rounds (l : list mop) : nat :=
  match l with [] => 0 | MRefine _ _ :: r => S (rounds r) | MErrors _ :: r => S (rounds r) | _ :: r => rounds r end.
Fixpoint legal (m : fmesh) (l : list mop) : Prop := match l with [] => True | o :: r => mok m o /\ legal (mrun m o) r end.

Lemma pts_same f m : (forall x, snd (f x) = snd x) -> pts (map f m) = pts m.
Proof. intros h. unfold pts. rewrite map_map. apply map_ext. intros x. now rewrite h. Qed.
Lemma same_ok w m m' : map snd m' = map snd m -> partition w m -> partition w m'.
Proof.
intros h [h1 [h2 h3]]. assert (E : pts m' = pts m) by (unfold pts; rewrite <- (map_map snd val m'), h, map_map; reflexivity).
split; [|rewrite E; now split].
apply Forall_map with (P := fun x => fin x). rewrite h. now apply Forall_map.
Qed.
Lemma set_same m i K : (i < length m)%nat -> map snd (fm_set m i K) = map snd m.
Proof.
intros h. unfold fm_set, fm_tau0. destruct (nth_split m (0%nat, fint 1) h) as [l1 [l2 [E hl]]].
set (x := nth i m _) in *. rewrite E, <- hl.
rewrite firstn_app, firstn_all, Nat.sub_diag, firstn_O, app_nil_r.
replace (l1 ++ x :: l2) with ((l1 ++ [x]) ++ l2) at 1 by (rewrite <- app_assoc; reflexivity).
replace (length l1 + 1)%nat with (length (l1 ++ [x])) by (rewrite app_length; reflexivity).
rewrite skipn_app, skipn_all, Nat.sub_diag, skipn_O. rewrite !map_app. reflexivity.
Qed.
Lemma pow_b_pos k : 1 <= 2 ^ k. Proof. apply pow_R1_Rle. lra. Qed.
(** Every operation: without rounds nothing changes; a round divides the lengths by at most 2^b. *)
Lemma mrun_ok w m o : / 1000000000000 <= w / 2 ^ b - 2 * eps -> mok m o -> partition w m ->
  partition (if Nat.eqb (rounds [o]) 0 then w else w / 2 ^ b - 2 * eps) (mrun m o).
Proof.
intros hw ho hp. assert (e0 : 0 < eps) by apply bpow_gt_0. pose proof (pow_b_pos b) as pb.
assert (wb : w / 2 ^ b * 2 ^ b = w) by (field; lra). assert (ww : w / 2 ^ b - 2 * eps <= w) by nra.
destruct o as [i D|Ds|i K| |]; cbn [rounds Nat.eqb mrun] in *.
- destruct ho as [hi hD]. apply partition_of_mid with (w := w) (j := i); [exact ww|]. apply (mid_step Kmin Kmax b w i m D hb hw hD).
  apply mid_of_partition; [exact ww|lia|exact hp].
- apply round_ok; assumption.
- apply same_ok with m; [|exact hp]. apply set_same, ho.
- apply same_ok with m; [|exact hp]. unfold fm_inc. rewrite map_map. reflexivity.
- apply same_ok with m; [|exact hp]. unfold fm_dec. rewrite map_map. reflexivity.
Qed.
(** Every history: the mesh is a partition whose intervals are at least 1 / (n 2^(b r)) - 2^-48 long. *)
Theorem C97_partition n k l : (0 < n)%nat -> legal (fm_uniform n k) l -> INR n * 2 ^ (b * rounds l) <= 100000000000 ->
  partition (1 / (INR n * 2 ^ (b * rounds l)) - 4 * eps) (fold_left mrun l (fm_uniform n k)).
Proof.
intros n0 hl hs. assert (np : 1 <= INR n) by (apply (le_INR 1); lia). assert (e0 : 0 < eps <= / 1000000000000000) by (split; [apply bpow_gt_0|simpl; lra]).
assert (nb : (Z.of_nat n <= 2 ^ 40)%Z).
{ apply le_IZR. rewrite <- INR_IZR_INZ. pose proof (pow_b_pos (b * rounds l)). apply Rle_trans with (INR n * 2 ^ (b * rounds l)); [nra|].
  apply Rle_trans with (1 := hs). simpl. lra. }
pose proof (uniform_ok n k n0 nb) as U. set (m := fm_uniform n k) in *.
assert (G : forall l m c, legal m l -> 0 < c -> c * 2 ^ (b * rounds l) <= 100000000000 -> partition (1 / c - 4 * eps) m ->
  partition (1 / (c * 2 ^ (b * rounds l)) - 4 * eps) (fold_left mrun l m)).
2:{ apply G; [exact hl|lra|exact hs|]. apply partition_le with (2 := U). lra. }
clear - hK hb. intros l. assert (e0 : 0 < eps <= / 1000000000000000) by (split; [apply bpow_gt_0|simpl; lra]).
induction l as [|o l IH]; intros m c hl c0 hs hp.
- cbn [rounds fold_left] in *. rewrite Nat.mul_0_r, pow_O, Rmult_1_r. exact hp.
- destruct hl as [ho hl]. cbn [fold_left]. pose proof (pow_b_pos b) as pb.
  assert (R : rounds (o :: l) = (rounds [o] + rounds l)%nat) by (destruct o; reflexivity). rewrite R in hs |- *.
  assert (R1 : rounds [o] = 0%nat \/ rounds [o] = 1%nat) by (destruct o; cbn [rounds]; auto).
  assert (p2 : 2 <= 2 ^ b) by (replace 2 with (2 ^ 1) at 1 by ring; apply Rle_pow; [lra|lia]).
  assert (D : / c * / 2 ^ b * (c * 2 ^ b) = 1) by (field; lra).
  destruct R1 as [R1|R1]; rewrite R1 in hs |- *.
  + rewrite Nat.add_0_l in hs |- *. apply IH; [exact hl|exact c0|exact hs|].
    destruct o; cbn [rounds] in R1; try discriminate; cbn [mrun].
    * apply same_ok with m; [|exact hp]. apply set_same, ho.
    * apply same_ok with m; [|exact hp]. unfold fm_inc. rewrite map_map. reflexivity.
    * apply same_ok with m; [|exact hp]. unfold fm_dec. rewrite map_map. reflexivity.
  + replace (b * (1 + rounds l))%nat with (b + b * rounds l)%nat in hs |- * by lia. rewrite pow_add in hs |- *. rewrite <- Rmult_assoc in hs |- *.
    pose proof (pow_b_pos (b * rounds l)) as pr. assert (cb : 0 < c * 2 ^ b) by nra.
    assert (cs : c * 2 ^ b <= 100000000000) by nra.
    assert (ci : / 100000000000 <= / (c * 2 ^ b)) by (apply Rinv_le; assumption).
    assert (W : 1 / (c * 2 ^ b) - 4 * eps <= (1 / c - 4 * eps) / 2 ^ b - 2 * eps).
    { replace ((1 / c - 4 * eps) / 2 ^ b) with (1 / (c * 2 ^ b) - 4 * eps / 2 ^ b) by (field; lra).
      assert (4 * eps / 2 ^ b <= 2 * eps); [|lra]. apply Rmult_le_reg_r with (2 ^ b); [lra|]. unfold Rdiv. rewrite Rmult_assoc, Rinv_l by lra. nra. }
    apply IH; [exact hl|exact cb|exact hs|].
    pose proof (mrun_ok (1 / c - 4 * eps) m o) as q. rewrite R1 in q. cbn [Nat.eqb] in q.
    apply partition_le with (1 := W). apply q; [|exact ho|exact hp]. apply Rle_trans with (2 := W). unfold Rdiv. lra.
Qed.
End Hist.

(** Degrees stay in the range for which tables exist. *)
Section Degrees.
Variables (Kmin Kmax b : nat).
Hypotheses (hK : (0 < Kmin <= Kmax)%nat).
Definition degrees (m : fmesh) : Prop := Forall (fun x => (Kmin <= fst x <= Kmax + 1)%nat) m.
Lemma refine_deg m i D : (i < length m)%nat -> degrees m -> degrees (fm_refine Kmin Kmax m i D) /\ (length m <= length (fm_refine Kmin Kmax m i D))%nat.
Proof.
intros h hd. destruct (nth_split m (0%nat, fint 1) h) as [a [c [E hl]]]. destruct (nth i m _) as [K t]. subst m i.
destruct (refine_splice Kmin Kmax a K t c D) as [K' [S [R [HK HS]]]]. rewrite R. split.
- apply Forall_app in hd. destruct hd as [hd1 hd2]. apply Forall_app. split; [exact hd1|].
  pose proof (Forall_inv hd2) as h1. apply Forall_inv_tail in hd2. simpl in h1. constructor; [simpl; lia|]. apply Forall_app. split; [|exact hd2].
  destruct HS as [->|HS]; [constructor|]. rewrite HS. apply Forall_map, Forall_forall. intros j _. simpl. lia.
- rewrite !app_length. simpl. rewrite app_length. lia.
Qed.
Lemma errors_deg Ds j m : (j <= length m)%nat -> degrees m -> degrees (fm_errors Kmin Kmax j Ds m).
Proof.
revert m. induction j as [|j IH]; intros m hj hd; [exact hd|]. simpl. destruct (Ds j) as [D|]; [|apply IH; [lia|exact hd]].
destruct (refine_deg m j D ltac:(lia) hd) as [h1 h2]. apply IH; [lia|exact h1].
Qed.
Lemma mrun_deg m o : mok Kmin Kmax b m o -> degrees m -> degrees (mrun Kmin Kmax m o).
Proof.
intros ho hd. destruct o as [i D|Ds|i K| |]; simpl in *.
- now apply refine_deg.
- apply errors_deg; [lia|exact hd].
- unfold fm_set. destruct ho as [hi hk]. pose proof hd as hd'. unfold degrees in hd, hd'. rewrite <- (firstn_skipn i m) in hd. rewrite <- (firstn_skipn (i + 1) m) in hd'.
  apply Forall_app in hd. apply Forall_app in hd'. apply Forall_app. split; [apply hd|]. constructor; [simpl; lia|]. apply hd'.
- unfold fm_inc. apply Forall_map. eapply Forall_impl; [|exact hd]. simpl. intros x hx. lia.
- unfold fm_dec. apply Forall_map. eapply Forall_impl; [|exact hd]. simpl. intros x hx. lia.
Qed.
Lemma hist_deg l m : legal Kmin Kmax b m l -> degrees m -> degrees (fold_left (mrun Kmin Kmax) l m).
Proof. revert m. induction l as [|o l IH]; intros m hl hd; [exact hd|]. destruct hl as [ho hl]. simpl. apply IH; [exact hl|]. now apply mrun_deg. Qed.
Lemma uniform_deg n k : (Kmin <= k <= Kmax + 1)%nat -> degrees (fm_uniform n k).
Proof.
intros h. unfold fm_uniform. destruct (Nat.ltb n 2); [now constructor|]. apply Forall_map, Forall_forall. intros i _. exact h.
Qed.
End Degrees.

Lemma RN_below : RN (1 - bpow radix2 (-54)) = 1.
Proof.
set (x := 1 - bpow radix2 (-54)). assert (v : bpow radix2 (-54) = / 18014398509481984) by (simpl; lra).
assert (ce : cexp radix2 fx x = (-53)%Z).
{ unfold cexp. rewrite (mag_unique radix2 x 0); [reflexivity|]. rewrite Rabs_pos_eq by (unfold x; lra). unfold x. rewrite v. simpl. lra. }
unfold RN, round, scaled_mantissa. rewrite ce. simpl (- -53)%Z.
assert (sm : x * bpow radix2 53 = IZR (2 ^ 53 - 1) + / 2) by (unfold x; rewrite v, bp53, minus_IZR; simpl; lra).
rewrite sm. assert (fl : Zfloor (IZR (2 ^ 53 - 1) + / 2) = (2 ^ 53 - 1)%Z) by (apply Zfloor_imp; rewrite plus_IZR; lra).
assert (cl : Zceil (IZR (2 ^ 53 - 1) + / 2) = (2 ^ 53)%Z) by (apply Zceil_imp; replace (2 ^ 53 - 1)%Z with (2 ^ 53 - 1)%Z by lia; rewrite !minus_IZR; lra).
unfold Znearest. rewrite fl, cl. rewrite Rcompare_Eq by lra. simpl Z.even. cbv iota beta. simpl negb. cbv iota.
unfold F2R. simpl Fnum. simpl Fexp. simpl. lra.
Qed.
(** The last point of the last interval is exactly 1. *)
Lemma last_one t : fmt t -> 0 <= t < 1 -> RN (t + RN (1 - t)) = 1.
Proof.
intros ft ht. assert (f1 : fmt 1) by (apply (bpow_fmt 0); lia). destruct (Rle_or_lt (1 / 2) t) as [h|h].
- rewrite (RN_id (1 - t)); [|apply sterbenz; auto with typeclass_instances; lra]. replace (t + (1 - t)) with 1 by ring. now apply RN_id.
- destruct (Req_dec t 0) as [E|E]; [subst t; rewrite Rminus_0_r, (RN_id 1) by exact f1; rewrite Rplus_0_l; now apply RN_id|].
  assert (er : Rabs (RN (1 - t) - (1 - t)) <= bpow radix2 (-54)).
  { pose proof (error_le_half_ulp radix2 fx (fun z => negb (Z.even z)) (1 - t)) as q. change (round radix2 fx ZnearestE (1 - t)) with (RN (1 - t)) in q.
    rewrite ulp_neq_0 in q by lra. unfold cexp in q. rewrite (mag_unique radix2 (1 - t) 0) in q by (rewrite Rabs_pos_eq by lra; simpl; lra).
    change (FLT_exp (-1074) 53 0) with (-53)%Z in q. replace (bpow radix2 (-54)) with (/ 2 * bpow radix2 (-53)) by (simpl; lra). exact q. }
  apply Rabs_le_inv in er. assert (v : bpow radix2 (-54) <= bpow radix2 (-53)) by (apply bpow_le; lia).
  pose proof (stuck (-53) ltac:(lia)) as up. change (53 + -53)%Z with 0%Z in up. change (bpow radix2 0) with 1 in up.
  apply Rle_antisym.
  + rewrite <- up at 2. apply RN_le. lra.
  + rewrite <- RN_below at 1. apply RN_le. lra.
Qed.
