(** Lemmas on interval_find, the global node list and eval. *)
From mathcomp Require Import all_ssreflect all_algebra zify.
From mathcomp.algebra_tactics Require Import ring.
From Verif Require Import MeshModel MeshSpec PolyFacts MeshFacts MeshQuad.
Set Implicit Arguments.
Unset Strict Implicit.
Unset Printing Implicit Defensive.
Import Order.TTheory GRing.Theory Num.Theory.
Local Open Scope ring_scope.

Section Eval.
Variable F : realFieldType.
Variables Kmin Kmax : nat.
Variable lgr : nat -> seq F * seq F.
Variable bis : seq F -> F -> option nat.
Hypothesis Kmin0 : (0 < Kmin)%N.
Hypothesis Hl : forall K, (Kmin <= K <= Kmax.+1)%N -> lgr_contract K (lgr K).
Hypothesis Hb : bis_contract bis.
Notation d0 := (0%N, 0 : F).
Notation lp := (lgr_plus_one lgr).
Variable m : seq (nat * F).
Hypothesis Hp : is_partition m.
Hypothesis Hr : all (range Kmin Kmax) m.
Notation K i := (N_colloc_ival m i).
Notation hl i := (half_len m i).
Notation phi := (phi m).

Lemma tau_mono i j : (i < j)%N -> (j < size m)%N -> tauf m i <= tau0 m j.
Proof.
case: Hp => _ s ij hj.
have hi : (i < size m)%N by lia.
have hi1 : (i.+1 < size m)%N by lia.
rewrite /tauf hi1 -!nth_ends //.
apply: (sorted_leq_nth le_trans lexx); rewrite ?inE ?size_rcons ?size_map //; try lia.
by apply: sub_sorted s => x y /ltW.
Qed.

(** The half-open interval containing t (closed at 1 for the last one). *)
Definition contains i (t : F) : Prop :=
  [/\ (i < size m)%N, tau0 m i <= t, t <= 1 & (i.+1 < size m)%N -> t < tauf m i].

Lemma contains_unique i j t : contains i t -> contains j t -> i = j.
Proof.
move=> [hi ai _ bi] [hj aj _ bj]; case: (ltngtP i j) => // c.
  have c1 : (i.+1 < size m)%N by lia.
  by have := tau_mono c hj; have := bi c1 => x y; have := lt_le_trans x (le_trans y aj); rewrite ltxx.
have c1 : (j.+1 < size m)%N by lia.
by have := tau_mono c hi; have := bj c1 => x y; have := lt_le_trans x (le_trans y ai); rewrite ltxx.
Qed.

Lemma find_contains t : 0 <= t <= 1 -> contains (interval_find bis m t) t.
Proof.
case/andP=> t0 t1; rewrite /interval_find ltNge t0 /= ltNge t1 /=.
have [hd s] := Hp.
have s' : sorted <%R [seq x.2 | x <- m].
  by move: s; rewrite -cats1 => /cat_sorted2 [].
have ne : [seq x.2 | x <- m] != [::] by have := size_m0 Hp; case: m.
have hd0 : head 0 [seq x.2 | x <- m] <= t by move: hd ne; case: [seq x.2 | x <- m] => //= a l -> _.
have [i [-> hi ai bi]] := Hb s' ne hd0; rewrite size_map in hi bi.
split=> //; first by rewrite /tau0 -(nth_map _ 0).
move=> c; rewrite /tauf c /tau0 -(nth_map _ 0 snd) //; exact: bi.
Qed.

Lemma find_eq i t : 0 <= t <= 1 -> contains i t -> interval_find bis m t = i.
Proof. by move=> h c; apply: contains_unique c; apply: find_contains. Qed.

Lemma tau0_ge0 i : (i < size m)%N -> 0 <= tau0 m i.
Proof.
move=> h; case: i h => [|i] h; first by rewrite tau00.
have c : (0 < i.+1)%N by [].
apply: le_trans (tau_mono c h); have := partition_lt Hp (size_m0 Hp); rewrite (tau00 Hp).
exact: ltW.
Qed.

Lemma contains_ge0 i t : contains i t -> 0 <= t <= 1.
Proof. by case=> h a -> _; rewrite andbT (le_trans _ a) // tau0_ge0. Qed.

Lemma tauf_le1 i : (i < size m)%N -> tauf m i <= 1.
Proof.
move=> h; rewrite /tauf; case: ifP => // c; apply: ltW.
case: Hp => _ s; rewrite -nth_ends //.
have e : nth 1 (ends m) (size m) = 1 by rewrite nth_rcons size_map ltnn eqxx.
rewrite -[X in _ < X]e.
by apply: (sorted_ltn_nth lt_trans _ s); rewrite ?inE ?size_rcons ?size_map //; lia.
Qed.

(** Node j of interval i, and its position in all_nodes. *)
Definition tnode i j : F := phi i (nth 0 (lp (K i)).1 j).
Notation nodes := (all_nodes Kmin Kmax lgr m).

Lemma shape_nodes : shape [seq take (n_take m i) (interval_nodes Kmin Kmax lgr m i) | i <- iota 0 (size m)]
  = [seq n_take m i | i <- iota 0 (size m)].
Proof.
rewrite /shape -map_comp; apply/eq_in_map => i; rewrite mem_iota add0n => h /=.
exact: (size_seg Hl Hr).
Qed.

Lemma N_before_shape i : (i < size m)%N -> sumn (take i [seq n_take m j | j <- iota 0 (size m)]) = N_before m i.
Proof.
move=> h; rewrite /N_before -!map_take.
have -> : take i (iota 0 (size m)) = iota 0 i by rewrite take_iota; congr iota; lia.
congr sumn; apply: (@eq_from_nth _ 0%N); rewrite !size_map size_iota ?size_takel ?(ltnW h) // => j hj.
rewrite (nth_map 0%N) ?size_iota // nth_iota // (nth_map d0) ?size_takel ?(ltnW h) //.
by rewrite nth_take // add0n /n_take ifT //; lia.
Qed.

Lemma nodes_at i j : (i < size m)%N -> (j < n_take m i)%N -> nth 0 nodes (N_before m i + j) = tnode i j.
Proof.
move=> h hj; rewrite /all_nodes nth_flatten shape_nodes.
set sh := [seq n_take m i | i <- iota 0 (size m)].
have ssh : size sh = size m by rewrite size_map size_iota.
have -> : (N_before m i + j)%N = flatten_index sh i j by rewrite /flatten_index N_before_shape.
have nsh : nth 0%N sh i = n_take m i by rewrite (nth_map 0%N) ?size_iota // nth_iota.
rewrite flatten_indexKl ?flatten_indexKr ?nsh ?ssh //.
rewrite (nth_map 0%N) ?size_iota // nth_iota // add0n nth_take // (inodes_nth Hl Hr) //.
by move: hj; rewrite /n_take; case: ifP; lia.
Qed.

Lemma node_index k : (k < size nodes)%N ->
  exists i j, [/\ (i < size m)%N, (j < n_take m i)%N & k = (N_before m i + j)%N].
Proof.
move=> h; set sh := [seq n_take m i | i <- iota 0 (size m)].
have ssh : size sh = size m by rewrite size_map size_iota.
have hk : (k < sumn sh)%N by move: h; rewrite /all_nodes size_flatten shape_nodes.
exists (reshape_index sh k), (reshape_offset sh k).
have hi := reshape_indexP hk; have ho := reshape_offsetP hk; rewrite ssh in hi.
split=> //.
  by move: ho; rewrite (nth_map 0%N) ?size_iota // nth_iota.
by rewrite -N_before_shape // -[LHS](reshape_indexK sh).
Qed.

Lemma tnode_contains i j : (i < size m)%N -> (j < n_take m i)%N -> contains i (tnode i j).
Proof.
move=> h hj; have c := lgr_at Hl Hr h; have K0 := K_pos Kmin0 Hr h.
have hjK : (j <= K i)%N by move: hj; rewrite /n_take; case: ifP; lia.
have le1 : tnode i j <= tauf m i.
  rewrite -phi_1 /tnode; move: hjK; rewrite leq_eqVlt => /orP [/eqP ->|hj']; first by rewrite lp_last.
  by apply: ltW; apply: (phi_lt Hp) => //; rewrite -[X in _ < X](lp_last c); apply: (lp_lt Kmin0 Hr c); rewrite hj' leqnn.
split=> //.
- rewrite -(phi_m1 m i) /tnode; case: j {hjK le1} hj => [|j] hj; first by rewrite lp_first.
  apply: ltW; apply: (phi_lt Hp) => //; rewrite -[X in X < _](lp_first K0 c); apply: (lp_lt Kmin0 Hr c) => /=.
  by move: hj; rewrite /n_take; case: ifP; lia.
- by apply: le_trans le1 _; apply: tauf_le1.
- move=> c1; rewrite -phi_1 /tnode; apply: (phi_lt Hp) => //; rewrite -[X in _ < X](lp_last c).
  by apply: (lp_lt Kmin0 Hr c); move: hj; rewrite /n_take c1 leqnn andbT.
Qed.

(** eval as a combination of the values of the containing interval. *)
Definition eval_nodes (extend : bool) i : seq F :=
  if extend || (i.+1 < size m)%N then (lp (K i)).1 else (lgr (K i)).1.
Lemma size_eval_nodes ext i : (i < size m)%N ->
  size (eval_nodes ext i) = if ext || (i.+1 < size m)%N then (K i).+1 else K i.
Proof.
move=> h; have c := lgr_at Hl Hr h; rewrite /eval_nodes; case: ifP => _; first exact: lp_size.
by rewrite (lgr_size c).
Qed.
Lemma uniq_eval_nodes ext i : (i < size m)%N -> uniq (eval_nodes ext i).
Proof.
move=> h; have c := lgr_at Hl Hr h; rewrite /eval_nodes; case: ifP => _; [exact: lp_uniq|exact: lgr_uniq].
Qed.
Lemma nth_eval_nodes ext i j : (i < size m)%N -> (j < size (eval_nodes ext i))%N ->
  phi i (nth 0 (eval_nodes ext i) j) = tnode i j.
Proof.
move=> h; have c := lgr_at Hl Hr h; rewrite size_eval_nodes // /eval_nodes; case: ifP => _ // hj.
by rewrite /tnode lp1 // nth_rcons (lgr_size c) hj.
Qed.

Definition uu i (t : F) : F := 2%:R * (t - tau0 m i) / (tauf m i - tau0 m i) - 1.
Lemma phi_uu i t : (i < size m)%N -> phi i (uu i t) = t.
Proof.
move=> h; rewrite /phi /uu /half_len subrK.
have : tauf m i - tau0 m i != 0 by rewrite subr_eq0 gt_eqF // partition_lt.
have : 2%:R != 0 :> F by rewrite pnatr_eq0.
move: (tauf m i - tau0 m i) => d d0 t0.
by rewrite mulrA [_ * (2%:R * _)]mulrA divfK // [d * _]mulrC mulfK // addrC subrK.
Qed.

Lemma zip_sum (V : lmodType F) (W : seq F) (r : seq V) : (size W <= size r)%N ->
  \sum_(wv <- zip W r) wv.1 *: wv.2 = \sum_(j < size W) nth 0 W j *: nth 0 r j.
Proof.
elim: W r => [|w W IH] [|v r] //=; rewrite ?big_nil ?big_ord0 // ltnS => h.
by rewrite big_cons big_ord_recl IH.
Qed.

Lemma evalE (V : lmodType F) i t (r : seq V) p ext : contains i t ->
  (N_before m i + size (eval_nodes ext i) <= size r)%N ->
  eval Kmin Kmax lgr bis m t r p ext =
  \sum_(j < size (eval_nodes ext i)) ((lagrange (eval_nodes ext i) j)^`(p)).[uu i t] *: nth 0 r (N_before m i + j).
Proof.
move=> c hr; have h : (i < size m)%N by case: c.
rewrite /eval (find_eq (contains_ge0 c) c) /has_table range_at // -/(uu i t).
have -> : (if ext || (i.+1 < size m)%N then (lp (K i)).1 else take (K i) (lgr (K i)).1) = eval_nodes ext i.
  by rewrite /eval_nodes; case: ifP => // _; rewrite take_oversize // (lgr_size (lgr_at Hl Hr h)).
rewrite zip_sum size_map size_iota; last by rewrite size_drop; lia.
by apply: eq_bigr => j _; rewrite (nth_map 0%N) ?size_iota // nth_iota // nth_drop.
Qed.

Lemma eval_node (V : lmodType F) i j (r : seq V) ext : (i < size m)%N -> (j < size (eval_nodes ext i))%N ->
  (j < n_take m i)%N -> (N_before m i + size (eval_nodes ext i) <= size r)%N ->
  eval Kmin Kmax lgr bis m (tnode i j) r 0 ext = nth 0 r (N_before m i + j).
Proof.
move=> h hj hj' hr; rewrite (@evalE _ i) //; last exact: tnode_contains.
have -> : uu i (tnode i j) = nth 0 (eval_nodes ext i) j.
  have := phi_uu (tnode i j) h; rewrite -{2}(nth_eval_nodes h hj) /phi => /addrI.
  by move/(mulfI (lt0r_neq0 (hl_gt0 Hp h)))/addIr.
rewrite (bigD1 (Ordinal hj)) //= lagrange_node ?uniq_eval_nodes // eqxx scale1r big1 ?addr0 // => k ne.
rewrite lagrange_node ?uniq_eval_nodes // (negbTE (_ : j != k)) ?scale0r //.
by apply: contra ne => /eqP e; apply/eqP/val_inj.
Qed.

Lemma eval_poly (V : lmodType F) i t (r : seq V) p ext n (ps : nat -> {poly F}) (cs : nat -> V) : contains i t ->
  (N_before m i + size (eval_nodes ext i) <= size r)%N ->
  (forall l, (l < n)%N -> (size (ps l) <= size (eval_nodes ext i))%N) ->
  (forall j, (j < size (eval_nodes ext i))%N ->
     nth 0 r (N_before m i + j) = \sum_(l < n) (ps l).[tnode i j] *: cs l) ->
  eval Kmin Kmax lgr bis m t r p ext = \sum_(l < n) (hl i ^+ p * ((ps l)^`(p)).[t]) *: cs l.
Proof.
move=> c hr hs hv; have h : (i < size m)%N by case: c.
rewrite (evalE _ c hr).
transitivity (\sum_(j < size (eval_nodes ext i)) \sum_(l < n)
   ((ps l).[tnode i j] * ((lagrange (eval_nodes ext i) j)^`(p)).[uu i t]) *: cs l).
  by apply: eq_bigr => j _; rewrite hv // scaler_sumr; apply: eq_bigr => l _; rewrite scalerA mulrC.
rewrite exchange_big; apply: eq_bigr => l _; rewrite -scaler_suml; congr (_ *: _).
rewrite -{2}(phi_uu t h) -(interp_derivn Hp p (uu i t) h (uniq_eval_nodes ext h) (hs _ (ltn_ord l))).
by apply: eq_bigr => j _; rewrite nth_eval_nodes.
Qed.
End Eval.
