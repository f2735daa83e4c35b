(** Property C97: in double arithmetic a mesh stays a partition of [0, 1] with distinct nodes from exactly 0 to exactly 1. *)
From Coq Require Import Reals ZArith Lia Lra List Bool.
From Flocq Require Import Core BinarySingleNaN Sterbenz.
From Verif Require Import LoopModel LoopFacts LoopEkf LoopAsif FMeshModel FMeshFacts.
Import ListNotations.
Local Open Scope R_scope.

(** Starting points of the intervals. *)
Definition pts (m : fmesh) : list R := map (fun x => val (snd x)) m.
(** All intervals are at least w long; the first starts at 0, the last ends at 1. *)
Definition partition (w : R) (m : fmesh) : Prop := Forall (fun x => fin (snd x)) m /\ hd 1 (pts m) = 0 /\ adjl w (pts m ++ [1]).

Lemma adj_lt w x l : 0 <= w -> adj w x l -> Forall (fun y => x <= y) l.
Proof.
intros hw. revert x. induction l as [|y l IH]; intros x; simpl; [constructor|]. intros [h1 h2]. constructor; [lra|].
eapply Forall_impl; [|apply IH, h2]. simpl. intros z hz. lra.
Qed.
Lemma adj_last w x l z : 0 <= w -> adj w x (l ++ [z]) -> x + w <= z.
Proof.
intros hw. destruct l as [|y l]; simpl; [tauto|]. intros [h1 h2]. apply (adj_lt w y) in h2; [|exact hw].
apply Forall_app in h2. destruct h2 as [_ h2]. inversion h2. lra.
Qed.
Section Ops.
Variables Kmin Kmax : nat.
Notation loop := (fm_loop Kmin).
Notation refine := (fm_refine Kmin Kmax).

Lemma loop_splice n i tau0 taum a c : length a = (i + 1)%nat ->
  loop n i tau0 taum (a ++ c) = a ++ map (fun j => (Kmin, fadd tau0 (fmul (fnat j) taum))) (seq 1 (n - 1)) ++ c.
Proof.
intros hl. revert c. induction n as [|n IH]; intros c; [reflexivity|].
simpl fm_loop. destruct (Nat.ltb_spec 1 (S n)) as [h|h].
- unfold insert_at. rewrite <- hl, firstn_app, firstn_all, Nat.sub_diag, firstn_O, app_nil_r, skipn_app, skipn_all, Nat.sub_diag, skipn_O.
  rewrite app_nil_l, IH. f_equal. replace (S n - 1)%nat with (S (n - 1))%nat by lia. rewrite seq_S, map_app, <- app_assoc. simpl.
  do 2 f_equal. replace (S (n - 1)) with n by lia. reflexivity.
- replace (S n - 1)%nat with 0%nat by lia. reflexivity.
Qed.
Lemma nth_mid {A} (a c : list A) x d : nth (length a) (a ++ x :: c) d = x.
Proof. rewrite app_nth2, Nat.sub_diag; [reflexivity|lia]. Qed.
(** End of an interval in the middle of a mesh. *)
Lemma tauf_mid a K t c : fm_tauf (a ++ (K, t) :: c) (length a) = match c with [] => fint 1 | x :: _ => snd x end.
Proof.
unfold fm_tauf, fm_tau0. rewrite app_length. simpl length. destruct c as [|x c]; simpl length.
- destruct (Nat.ltb_spec (length a + 1) (length a + 1)); [lia|reflexivity].
- destruct (Nat.ltb_spec (length a + 1) (length a + S (S (length c)))); [|lia].
  replace (a ++ (K, t) :: x :: c) with ((a ++ [(K, t)]) ++ x :: c) by (rewrite <- app_assoc; reflexivity).
  replace (length a + 1)%nat with (length (a ++ [(K, t)])) by (rewrite app_length; reflexivity). now rewrite nth_mid.
Qed.
(** refine_ph replaces one interval. *)
Lemma refine_splice a K t c D : exists K' S, refine (a ++ (K, t) :: c) (length a) D = a ++ (K', t) :: S ++ c /\ (K' = K \/ (K <= K' <= Kmax)%nat) /\
  (S = [] \/ let y := match c with [] => fint 1 | x :: _ => snd x end in
     S = map (fun j => (Kmin, fadd t (fmul (fnat j) (fdiv (fsub y t) (fnat (fm_parts Kmin D)))))) (seq 1 (fm_parts Kmin D - 1))).
Proof.
unfold fm_refine. rewrite tauf_mid. unfold fm_K, fm_tau0. rewrite nth_mid. simpl fst. simpl snd.
destruct (Nat.ltb_spec Kmax D) as [d1|d1]; destruct (Nat.ltb_spec Kmax K) as [d2|d2]; cbn [orb].
1, 2, 3: exists K; eexists; split; [|split; [now left|right; reflexivity]];
  replace (a ++ (K, t) :: c) with ((a ++ [(K, t)]) ++ c) by (rewrite <- app_assoc; reflexivity);
  rewrite loop_splice by (rewrite app_length; reflexivity); rewrite <- app_assoc; reflexivity.
- destruct (Nat.ltb_spec D K) as [d3|d3].
  + exists K, []. split; [reflexivity|split; now left].
  + exists D, []. split; [|split; [right; lia|now left]]. rewrite firstn_app, firstn_all, Nat.sub_diag, firstn_O, app_nil_r. f_equal. f_equal.
    replace (a ++ (K, t) :: c) with ((a ++ [(K, t)]) ++ c) by (rewrite <- app_assoc; reflexivity).
    replace (length a + 1)%nat with (length (a ++ [(K, t)])) by (rewrite app_length; reflexivity).
    now rewrite skipn_app, skipn_all, Nat.sub_diag, skipn_O.
Qed.
(** A split interval of length at least w has parts of length at least w / n - 2^-49. *)
Lemma split_gaps t y n w : fin t -> fin y -> 0 <= val t -> val y <= 1 -> / 1000000000000 <= w -> val t + w <= val y ->
  (2 <= n)%nat -> (Z.of_nat n <= 2 ^ 40)%Z ->
  let P := fun j => fadd t (fmul (fnat j) (fdiv (fsub y t) (fnat n))) in
  Forall (fun j => fin (P j)) (seq 1 (n - 1)) /\ adj (w / INR n - 2 * eps) (val t) (map (fun j => val (P j)) (seq 1 (n - 1)) ++ [val y]).
Proof.
intros ft fy t0 y1 hw hty n2 nb P.
assert (V : forall j, (0 < j <= n)%nat -> fin (P j) /\ val t + INR j * ((val y - val t) / INR n) - eps <= val (P j) <= val t + INR j * ((val y - val t) / INR n) + eps).
{ intros j hj. apply split_val; try assumption; [lra|lia]. }
assert (e0 : 0 < eps) by apply bpow_gt_0.
assert (n0 : 0 < INR n) by (apply (lt_INR 0); lia).
set (W := val y - val t) in *. assert (WW : w / INR n <= W / INR n) by (unfold Rdiv; apply Rmult_le_compat_r; [left; now apply Rinv_0_lt_compat|unfold W; lra]).
assert (Wn : INR n * (W / INR n) = W) by (field; lra).
split; [apply Forall_forall; intros j hj; apply in_seq in hj; apply V; lia|].
(* the list of points continued by the exact points *)
assert (G : forall k s, (s + k = n)%nat -> (0 < s)%nat -> forall x, x <= val t + INR (s - 1) * (W / INR n) + eps ->
  adj (w / INR n - 2 * eps) x (map (fun j => val (P j)) (seq s k) ++ [val y])).
{ induction k as [|k IH]; intros s hs s0 x hx.
  - cbn [seq map app adj]. split; [|easy]. replace s with n in hx by lia. rewrite minus_INR in hx by lia. simpl INR in hx.
    assert (val y = val t + W) by (unfold W; ring). lra.
  - cbn [seq map app adj]. destruct (V s) as [_ [v1 v2]]; [lia|]. split.
    + rewrite minus_INR in hx by lia. simpl INR in hx. nra.
    + apply IH; [lia|lia|]. replace (S s - 1)%nat with s by lia. exact v2. }
apply (G (n - 1)%nat 1%nat); [lia|lia|]. change (INR (1 - 1)) with 0. lra.
Qed.
Lemma pts_app a b : pts (a ++ b) = pts a ++ pts b. Proof. apply map_app. Qed.
Lemma pts_bounds w m : 0 <= w -> partition w m -> Forall (fun x => 0 <= x <= 1) (pts m).
Proof.
intros hw [_ [h1 h2]]. destruct (pts m) as [|x l]; [constructor|]. simpl in h1. subst x. simpl in h2.
constructor; [lra|]. pose proof (adj_lt _ _ _ hw h2) as q. apply Forall_app in q. destruct q as [q _].
apply Forall_forall. intros y hy. split; [now apply (proj1 (Forall_forall _ _) q)|].
apply in_split in hy. destruct hy as [l1 [l2 E]]. subst l. rewrite <- app_assoc in h2. simpl in h2. apply adj_app in h2. destruct h2 as [_ h2].
apply adj_last in h2; [|exact hw]. lra.
Qed.
(** Middle state of refine_errors: the intervals before position i are still those of length at least w. *)
Definition mid (w w' : R) (i : nat) (m : fmesh) : Prop := exists a c, m = a ++ c /\ length a = i /\
  Forall (fun x => fin (snd x)) m /\ hd 1 (pts m) = 0 /\ adjl w (pts a ++ [hd 1 (pts c)]) /\ adjl w' (pts c ++ [1]).
Lemma mid_step b w i m D : (1 <= b <= 30)%nat -> / 1000000000000 <= w / 2 ^ b - 2 * eps -> (fm_parts Kmin D <= 2 ^ b)%nat ->
  mid w (w / 2 ^ b - 2 * eps) (S i) m -> mid w (w / 2 ^ b - 2 * eps) i (refine m i D) /\ mid w (w / 2 ^ b - 2 * eps) i m.
Proof.
intros hb hw hn [a [c [E [la [hf [h0 [h1 h2]]]]]]].
assert (e0 : 0 < eps) by apply bpow_gt_0.
assert (b1 : 2 <= 2 ^ b).
{ replace 2 with (2 ^ 1) at 1 by ring. apply Rle_pow; [lra|lia]. }
set (w' := w / 2 ^ b - 2 * eps) in *.
assert (wb : w / 2 ^ b * 2 ^ b = w) by (field; lra).
assert (w0 : / 1000000000000 <= w / 2 ^ b) by (unfold w' in hw; lra).
assert (ww : w' <= w) by (unfold w'; nra).
assert (w1 : / 1000000000000 <= w) by nra.
destruct (exists_last (l := a)) as [a1 [[K t] Ea]]; [destruct a; [discriminate|easy]|]. subst a.
rewrite app_length in la. simpl in la. assert (li : length a1 = i) by lia. subst i.
assert (Em : m = a1 ++ (K, t) :: c) by (rewrite E, <- app_assoc; reflexivity).
rewrite pts_app, <- app_assoc in h1. cbn [pts map snd app] in h1. fold (pts c) in h1. apply adjl_app in h1. destruct h1 as [h1 [h3 _]].
set (y := match c with [] => fint 1 | x :: _ => snd x end).
assert (ey : hd 1 (pts c) = val y).
{ unfold y. destruct c; [|reflexivity]. simpl hd. destruct (fint_val 1) as [e1 _]; [lia|]. now rewrite e1. }
assert (fy : fin y).
{ unfold y. destruct c as [|x c]; [apply (fint_val 1); lia|]. rewrite Em in hf. apply Forall_app in hf. destruct hf as [_ hf].
  apply Forall_inv_tail in hf. now apply Forall_inv in hf. }
assert (y1 : val y <= 1).
{ rewrite <- ey. destruct c as [|x c]; simpl; [lra|]. cbn [pts map app adjl] in h2. apply adj_last in h2; lra. }
assert (ft : fin t).
{ rewrite Em in hf. apply Forall_app in hf. destruct hf as [_ hf]. now apply Forall_inv in hf. }
assert (t0 : 0 <= val t).
{ destruct a1 as [|x a1]; [rewrite Em in h0; simpl in h0; lra|]. rewrite Em in h0. simpl in h0. cbn [pts map app adjl] in h1.
  rewrite h0 in h1. apply adj_last in h1; lra. }
rewrite ey in h3.
split.
2:{ exists a1, ((K, t) :: c). repeat split; try assumption. change (adj w' (val t) (pts c ++ [1])).
  destruct c as [|x c]; simpl in *; [split; [|easy]; rewrite ey; lra|]. split; [rewrite ey; lra|exact h2]. }
destruct (refine_splice a1 K t c D) as [K' [S [R [_ HS]]]]. rewrite Em, R. fold y in HS.
set (n := fm_parts Kmin D) in *. assert (n2 : (2 <= n)%nat) by (unfold n, fm_parts; lia).
assert (nb : INR n <= 2 ^ b).
{ replace 2 with (INR 2) by reflexivity. rewrite <- pow_INR. now apply le_INR. }
assert (nz : (Z.of_nat n <= 2 ^ 40)%Z).
{ apply Z.le_trans with (Z.of_nat (2 ^ b)); [lia|]. rewrite Nat2Z.inj_pow. apply Z.pow_le_mono_r; lia. }
assert (n0 : 0 < INR n) by (apply (lt_INR 0); lia).
assert (H : Forall (fun x => fin (snd x)) S /\ adj w' (val t) (pts S ++ [val y])).
{ destruct HS as [->|HS]; [split; [constructor|simpl; split; [lra|easy]]|].
  destruct (split_gaps t y n w ft fy t0 y1 w1 h3 n2 nz) as [G1 G2]. rewrite HS. split.
  - apply Forall_map. exact G1.
  - unfold pts. rewrite map_map. cbn [snd]. apply adj_le with (2 := G2). unfold w'. apply Rplus_le_compat_r. unfold Rdiv.
    apply Rmult_le_compat_l; [lra|]. now apply Rinv_le. }
destruct H as [H1 H2]. exists a1, ((K', t) :: S ++ c). repeat split.
- rewrite Em in hf. apply Forall_app in hf. destruct hf as [hf1 hf2]. apply Forall_app. split; [exact hf1|].
  constructor; [exact ft|]. apply Forall_app. split; [exact H1|]. now apply Forall_inv_tail in hf2.
- rewrite Em in h0. destruct a1; exact h0.
- exact h1.
- change (adj w' (val t) (pts (S ++ c) ++ [1])). rewrite pts_app, <- app_assoc. destruct c as [|x c].
  + cbn [pts map app] in *. unfold y in H2. destruct (fint_val 1) as [e1 _]; [lia|]. rewrite e1 in H2. exact H2.
  + cbn [pts map app adjl] in *. apply adj_app. split; [exact H2|exact h2].
Qed.
(** One call of refine_errors. *)
Lemma round_ok b w m Ds : (1 <= b <= 30)%nat -> / 1000000000000 <= w / 2 ^ b - 2 * eps ->
  (forall i D, Ds i = Some D -> fm_parts Kmin D <= 2 ^ b)%nat -> partition w m -> partition (w / 2 ^ b - 2 * eps) (fm_round Kmin Kmax m Ds).
Proof.
intros hb hw hD [h1 [h2 h3]]. unfold fm_round.
assert (S : mid w (w / 2 ^ b - 2 * eps) (length m) m).
{ exists m, []. rewrite app_nil_r. repeat split; assumption. }
revert S. generalize (length m). intros n. clear h1 h2 h3. revert m. induction n as [|n IH]; intros m S.
- destruct S as [a [c [E [la [s1 [s2 [_ s3]]]]]]]. destruct a; [|discriminate]. subst m. now split.
- simpl. apply IH. destruct (Ds n) as [D|] eqn:E.
  + apply (mid_step b); try assumption. now apply (hD n).
  + apply (mid_step b w n m 0 hb hw) in S; [apply S|]. unfold fm_parts.
    assert (Z : ((0 + Kmin - 1) / Kmin = 0)%nat) by (destruct Kmin; [reflexivity|apply Nat.div_small; lia]). rewrite Z.
    pose proof (Nat.pow_le_mono_r 2 1 b ltac:(lia) ltac:(lia)). simpl (2 ^ 1)%nat in *. lia.
Qed.
End Ops.
