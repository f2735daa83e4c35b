(** Property C97, continued: the nodes of a mesh. *)
From Coq Require Import Reals ZArith Lia Lra List Bool.
From Flocq Require Import Core BinarySingleNaN Sterbenz Mult_error.
From Verif Require Import LoopModel LoopFacts LoopEkf LoopAsif FMeshModel FMeshFacts FMeshProps FMeshThms.
Import ListNotations.
Local Open Scope R_scope.

(** A table of K + 1 numbers from -1 to 1 that are at least 1/1000 apart, as the Gauss-Radau nodes of small degree. *)
Definition table (K : nat) (l : list b64) : Prop := length l = (K + 1)%nat /\ Forall (fun d => fin d) l /\
  exists r, map val l = -1 :: r ++ [1] /\ adj (/ 1000) (-1) (r ++ [1]).
Section Nodes.
Variable lgr : nat -> list b64.
(** The nodes interval by interval. *)
Fixpoint tail_nodes (c : fmesh) : list b64 :=
  match c with
  | [] => []
  | (K, t) :: c' =>
    match c' with
    | [] => firstn (K + 1) (map (fm_node t (fint 1)) (lgr K))
    | x :: _ => firstn K (map (fm_node t (snd x)) (lgr K)) ++ tail_nodes c'
    end
  end.
Lemma all_nodes_tail m : fm_all_nodes lgr m = tail_nodes m.
Proof.
unfold fm_all_nodes. assert (G : forall c a, m = a ++ c -> concat (map (fun i => firstn (if Nat.ltb (i + 1) (length m) then fm_K m i else fm_K m i + 1)
  (fm_nodes lgr m i)) (seq (length a) (length c))) = tail_nodes c).
2:{ apply (G m []). reflexivity. }
induction c as [|[K t] c IH]; intros a E; [reflexivity|]. cbn [length seq map concat].
assert (E2 : m = (a ++ [(K, t)]) ++ c) by (rewrite E, <- app_assoc; reflexivity).
specialize (IH (a ++ [(K, t)]) E2). rewrite app_length in IH. simpl length in IH. rewrite Nat.add_1_r in IH. rewrite IH.
assert (k : fm_K m (length a) = K) by (unfold fm_K; rewrite E, nth_mid; reflexivity). rewrite k.
unfold fm_nodes. rewrite k. assert (t0 : fm_tau0 m (length a) = t) by (unfold fm_tau0; rewrite E, nth_mid; reflexivity). rewrite t0.
pose proof (tauf_mid a K t c) as tf. rewrite <- E in tf. rewrite tf. clear IH. rewrite E, app_length. cbn [length tail_nodes].
destruct c as [|x c]; cbn [length].
- destruct (Nat.ltb_spec (length a + 1) (length a + 1)); [lia|]. cbn [tail_nodes]. now rewrite app_nil_r.
- destruct (Nat.ltb_spec (length a + 1) (length a + S (S (length c)))); [reflexivity|lia].
Qed.
Section Interval.
Variables (t y : b64) (w : R).
Hypotheses (ft : fin t) (fy : fin y) (t0 : 0 <= val t) (y1 : val y <= 1) (hw : / 1000000000000 <= w) (hty : val t + w <= val y).
Lemma node_first d : fin d -> val d = -1 -> val (fm_node t y d) = val t.
Proof.
intros fd vd. destruct (fint_val 1) as [e1 f1]; [lia|]. destruct (fint_val 2) as [e2 f2]; [lia|].
destruct (width t y ft fy t0 y1 ltac:(lra)) as [fw vw]. pose proof (near_range _ _ _ vw ltac:(lra) ltac:(lra)) as g.
destruct (fdiv_val (fsub y t) (fint 2) fw) as [ed fdv]; [rewrite e2; lra|rewrite e2; apply small_ok; lra|].
destruct (fadd_val d (fint 1) fd f1) as [es fs]; [rewrite e1, vd; apply small_ok; lra|]. rewrite e1, vd in es. replace (-1 + 1) with 0 in es by ring. rewrite RN_0 in es.
destruct (fmul_val (fdiv (fsub y t) (fint 2)) (fadd d (fint 1)) fdv fs) as [em fm]; [rewrite es, Rmult_0_r; apply small_ok; lra|]. rewrite es, Rmult_0_r, RN_0 in em.
unfold fm_node. destruct (fadd_val t (fmul (fdiv (fsub y t) (fint 2)) (fadd d (fint 1))) ft fm) as [ea _]; [rewrite em; apply small_ok; lra|].
rewrite ea, em, Rplus_0_r. apply RN_id, val_fmt.
Qed.
Lemma node_last d : fin d -> val d = 1 -> val y = 1 -> val (fm_node t y d) = 1.
Proof.
intros fd vd vy. destruct (fint_val 1) as [e1 f1]; [lia|]. destruct (fint_val 2) as [e2 f2]; [lia|].
destruct (fsub_val y t fy ft) as [ew fw]; [apply small_ok; lra|]. rewrite vy in ew.
pose proof (plus_rel 1 (- val t) (bpow_fmt 0 ltac:(lia)) (generic_format_opp _ _ _ (val_fmt t)) ltac:(lra)) as g.
change (1 + - val t) with (1 - val t) in g. rewrite <- ew in g. destruct u_eps as [u0 [_ us]].
assert (G : / 10000000000000 <= val (fsub y t) <= 2) by nra.
assert (hf : fmt (val (fsub y t) / 2)).
{ replace (val (fsub y t) / 2) with (val (fsub y t) * bpow radix2 (-1)) by (simpl; lra). apply mult_bpow_exact_FLT; [apply val_fmt|].
  assert (M : (-100 <= mag radix2 (val (fsub y t)))%Z); [|lia]. apply mag_ge_bpow. rewrite Rabs_pos_eq by lra. apply Rle_trans with (2 := proj1 G). simpl. lra. }
destruct (fdiv_val (fsub y t) (fint 2) fw) as [ed fdv]; [rewrite e2; lra|rewrite e2; apply small_ok; lra|]. rewrite e2, (RN_id _ hf) in ed.
destruct (fadd_val d (fint 1) fd f1) as [es fs]; [rewrite e1, vd; apply small_ok; lra|]. rewrite e1, vd in es.
assert (h2 : fmt (1 + 1)) by (replace (1 + 1) with (bpow radix2 1) by (simpl; lra); apply bpow_fmt; lia). rewrite (RN_id _ h2) in es.
destruct (fmul_val (fdiv (fsub y t) (fint 2)) (fadd d (fint 1)) fdv fs) as [em fm]; [rewrite ed, es; apply small_ok; lra|].
rewrite ed, es in em. replace (val (fsub y t) / 2 * (1 + 1)) with (val (fsub y t)) in em by field. rewrite (RN_id _ (val_fmt _)) in em.
unfold fm_node. destruct (fadd_val t (fmul (fdiv (fsub y t) (fint 2)) (fadd d (fint 1))) ft fm) as [ea _]; [rewrite em; apply small_ok; lra|].
rewrite ea, em, ew. apply last_one; [apply val_fmt|lra].
Qed.
Notation delta := (w / 2000 - 2 * eps).
Lemma nodes_gaps l p x : Forall (fun d => fin d) l -> -1 <= p -> adj (/ 1000) p (map val l ++ [1]) -> x <= val t + (val y - val t) / 2 * (p + 1) + eps ->
  Forall (fun d => fin d) (map (fm_node t y) l) /\ adj delta x (map (fun d => val (fm_node t y d)) l ++ [val y]).
Proof.
assert (e0 : 0 < eps) by apply bpow_gt_0. set (W := val y - val t). assert (Ww : w <= W) by (unfold W; lra).
revert p x. induction l as [|d l IH]; intros p x hf hp ha hx; cbn [map app adj] in *.
- split; [constructor|]. split; [|easy]. destruct ha as [ha _]. replace (val y) with (val t + W / 2 * 2) by (unfold W; field). clear - hw Ww ha hx e0. nra.
- destruct ha as [h1 h2]. pose proof (Forall_inv hf) as fd. apply Forall_inv_tail in hf.
  assert (d1 : val d <= 1) by (apply adj_last in h2; lra).
  destruct (node_val t y ft fy t0 y1 ltac:(lra) d fd ltac:(right; lra)) as [fn [v1 v2]]. fold W in v1, v2.
  destruct (IH (val d) (val (fm_node t y d)) hf ltac:(lra) h2 v2) as [g1 g2].
  split; [now constructor|]. split; [|exact g2]. clear - hw Ww h1 hx v1 e0. nra.
Qed.
End Interval.
Lemma table_split K l : table K l -> exists d0 l' d1, l = d0 :: l' ++ [d1] /\ length l' = (K - 1)%nat /\ (0 < K)%nat /\ val d0 = -1 /\ val d1 = 1 /\
  Forall (fun d => fin d) l /\ adj (/ 1000) (-1) (map val l' ++ [1]).
Proof.
intros [hl [hf [r [E ha]]]]. destruct l as [|d0 l]; [discriminate|]. cbn [map] in E. injection E as E0 E.
destruct (exists_last (l := l)) as [l' [d1 El]]; [intros ->; simpl in E; destruct r; discriminate|]. subst l.
rewrite map_app in E. apply app_inj_tail in E. destruct E as [Er E1]. subst r. exists d0, l', d1. simpl in hl. rewrite app_length in hl. simpl in hl.
repeat split; try assumption; lia.
Qed.
(** The nodes of any part of a mesh up to the end. *)
Lemma nodes_ok w c : / 1000000000000 <= w -> Forall (fun x => table (fst x) (lgr (fst x))) c -> Forall (fun x => fin (snd x)) c ->
  adjl w (pts c ++ [1]) -> c <> [] -> 0 <= hd 1 (pts c) ->
  Forall (fun d => fin d) (tail_nodes c) /\ exists r, map val (tail_nodes c) = hd 1 (pts c) :: r ++ [1] /\ adj (w / 2000 - 2 * eps) (hd 1 (pts c)) (r ++ [1]).
Proof.
intros hw. assert (e0 : 0 < eps) by apply bpow_gt_0. destruct (fint_val 1) as [e1 f1]; [lia|].
induction c as [|[K t] c IH]; [easy|]. intros hT hF ha _ h0.
pose proof (Forall_inv hT) as T. apply Forall_inv_tail in hT. pose proof (Forall_inv hF) as F. apply Forall_inv_tail in hF. change (table K (lgr K)) in T. change (fin t) in F.
destruct (table_split _ _ T) as [d0 [l' [d1 [El [len [K0 [v0 [v1 [fl ga]]]]]]]]].
change (hd 1 (pts ((K, t) :: c))) with (val t) in *. cbn [pts map app adjl snd] in ha. fold (pts c) in ha.
rewrite El in fl. pose proof (Forall_inv fl) as d0f. apply Forall_inv_tail in fl. apply Forall_app in fl. destruct fl as [fl' fd1]. apply Forall_inv in fd1.
cbn [tail_nodes]. rewrite El. destruct c as [|[K2 y] c].
- cbn [pts map app adj] in ha. destruct ha as [ha _]. rewrite <- e1 in ha.
  rewrite firstn_all2; [|rewrite map_length; simpl; rewrite app_length; simpl; lia].
  pose proof (node_first t (fint 1) w F f1 h0 ltac:(lra) hw ha d0 d0f v0) as n0.
  pose proof (node_last t (fint 1) w F f1 h0 ltac:(lra) hw ha d1 fd1 v1 e1) as n1.
  destruct (nodes_gaps t (fint 1) w F f1 h0 ltac:(lra) hw ha l' (-1) (val t) fl' ltac:(lra) ga ltac:(lra)) as [g1 g2]. split.
  + cbn [map]. rewrite map_app. constructor; [apply (node_val t (fint 1) F f1 h0); [lra|lra|exact d0f|now left]|]. apply Forall_app. split; [exact g1|].
    constructor; [|constructor]. apply (node_val t (fint 1) F f1 h0); [lra|lra|exact fd1|right; lra].
  + exists (map (fun d => val (fm_node t (fint 1) d)) l'). cbn [map]. rewrite !map_app, map_map. cbn [map]. rewrite n0, n1. rewrite e1 in g2. split; [reflexivity|exact g2].
- cbn [pts map app adj snd] in ha. destruct ha as [ha hr]. cbn [snd].
  assert (y1 : val y <= 1) by (apply adj_last in hr; lra).
  pose proof (Forall_inv hF) as fy. change (fin y) in fy.
  destruct (IH hT hF hr ltac:(easy) ltac:(simpl; lra)) as [i1 [r [i2 i3]]]. change (hd 1 (pts ((K2, y) :: c))) with (val y) in i2, i3.
  assert (fn : firstn K (map (fm_node t y) (d0 :: l' ++ [d1])) = map (fm_node t y) (d0 :: l')).
  { rewrite app_comm_cons, map_app. rewrite firstn_app. rewrite firstn_all2 by (rewrite map_length; simpl; lia).
    replace (K - length (map (fm_node t y) (d0 :: l')))%nat with 0%nat by (rewrite map_length; simpl; lia). now rewrite firstn_O, app_nil_r. }
  rewrite fn. pose proof (node_first t y w F fy h0 y1 hw ha d0 d0f v0) as n0.
  destruct (nodes_gaps t y w F fy h0 y1 hw ha l' (-1) (val t) fl' ltac:(lra) ga ltac:(lra)) as [g1 g2]. split.
  + apply Forall_app. split; [|exact i1]. cbn [map]. constructor; [apply (node_val t y F fy h0 y1); [lra|exact d0f|now left]|exact g1].
  + exists (map (fun d => val (fm_node t y d)) l' ++ val y :: r). rewrite map_app, i2. cbn [map app]. rewrite map_map, n0. split.
    * rewrite <- app_assoc. reflexivity.
    * rewrite <- app_assoc. cbn [app]. apply adj_app. split; [exact g2|exact i3].
Qed.
Lemma nodes_length c : c <> [] -> Forall (fun x => table (fst x) (lgr (fst x))) c -> length (tail_nodes c) = (list_sum (map fst c) + 1)%nat.
Proof.
induction c as [|[K t] c IH]; [easy|]. intros _ h. pose proof (proj1 (Forall_inv h)) as l. apply Forall_inv_tail in h. cbn [fst] in l.
cbn [tail_nodes map fst]. destruct c as [|x c].
- rewrite firstn_length, map_length, l. simpl. lia.
- rewrite app_length, firstn_length, map_length, l, (IH ltac:(easy) h). cbn [map list_sum fold_right]. unfold list_sum. cbn [fold_right]. lia.
Qed.
(** For every history of operations: there is one node for each collocation point and one more, the nodes are finite, start at 0, end at 1 and are distinct and increasing. *)
Theorem C97_nodes Kmin Kmax b n k l : (0 < Kmin <= Kmax)%nat -> (1 <= b <= 30)%nat -> (0 < n)%nat -> (Kmin <= k <= Kmax + 1)%nat ->
  (forall K, (Kmin <= K <= Kmax + 1)%nat -> table K (lgr K)) ->
  legal Kmin Kmax b (fm_uniform n k) l -> INR n * 2 ^ (b * rounds l) <= 100000000000 ->
  let nodes := fm_all_nodes lgr (fold_left (mrun Kmin Kmax) l (fm_uniform n k)) in
  length nodes = (list_sum (map fst (fold_left (mrun Kmin Kmax) l (fm_uniform n k))) + 1)%nat /\
  Forall (fun d => fin d) nodes /\ exists r d, map val nodes = 0 :: r ++ [1] /\ 0 < d /\ adj d 0 (r ++ [1]).
Proof.
intros hK hb hn hk hT hl hs nodes. pose proof (C97_partition Kmin Kmax b hK hb n k l hn hl hs) as P.
pose proof (hist_deg Kmin Kmax b hK l _ hl (uniform_deg Kmin Kmax n k hk)) as D. unfold nodes. clear nodes. rewrite all_nodes_tail.
set (m := fold_left _ _ _) in *. set (w := _ - 4 * eps) in P.
assert (e0 : 0 < eps <= / 1000000000000000) by (split; [apply bpow_gt_0|simpl; lra]).
assert (w0 : / 100000000000 - 4 * eps <= w).
{ unfold w. unfold Rdiv. rewrite Rmult_1_l. apply Rplus_le_compat_r. apply Rinv_le; [|exact hs]. apply Rmult_lt_0_compat; [apply (lt_INR 0); lia|].
  pose proof (pow_b_pos (b * rounds l)). lra. }
clearbody w. destruct P as [P1 [P2 P3]].
assert (ne : m <> []) by (intros E; rewrite E in P2; simpl in P2; lra).
assert (TT : Forall (fun x => table (fst x) (lgr (fst x))) m) by (eapply Forall_impl; [|exact D]; intros x hx; now apply hT).
destruct (nodes_ok w m) as [N1 [r [N2 N3]]]; try assumption.
- lra.
- lra.
- split; [exact (nodes_length m ne TT)|]. split; [exact N1|]. exists r, (w / 2000 - 2 * eps). rewrite P2 in N2, N3. repeat split; [exact N2|lra|exact N3].
Qed.
End Nodes.
