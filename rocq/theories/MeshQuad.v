(** Lemmas on nodes, weights, differentiation matrices and evaluation of a mesh. *)
From mathcomp Require Import all_ssreflect all_algebra zify.
From mathcomp.algebra_tactics Require Import ring.
From Verif Require Import MeshModel MeshSpec PolyFacts MeshFacts.
Set Implicit Arguments.
Unset Strict Implicit.
Unset Printing Implicit Defensive.
Import Order.TTheory GRing.Theory Num.Theory.
Local Open Scope ring_scope.

Section Quad.
Variable F : realFieldType.
Variables Kmin Kmax : nat.
Variable lgr : nat -> seq F * seq F.
Hypothesis Kmin0 : (0 < Kmin)%N.
Hypothesis Hl : forall K, (Kmin <= K <= Kmax.+1)%N -> lgr_contract K (lgr K).
Notation d0 := (0%N, 0 : F).
Notation lp := (lgr_plus_one lgr).
Variable m : seq (nat * F).
Hypothesis Hp : is_partition m.
Hypothesis Hr : all (range Kmin Kmax) m.
Notation K i := (N_colloc_ival m i).

Lemma range_at i : (i < size m)%N -> (Kmin <= K i <= Kmax.+1)%N.
Proof. by move=> h; have /allP/(_ _ (mem_nth d0 h)) := Hr. Qed.
Lemma K_pos i : (i < size m)%N -> (0 < K i)%N.
Proof. by move/range_at; lia. Qed.
Lemma lgr_at i : (i < size m)%N -> lgr_contract (K i) (lgr (K i)).
Proof. by move/range_at/Hl. Qed.

Lemma lp1 k : lgr_contract k (lgr k) -> (lp k).1 = rcons (lgr k).1 1.
Proof. by move=> c; rewrite /= take_oversize // (lgr_size c). Qed.
Lemma lp2 k : lgr_contract k (lgr k) -> (lp k).2 = rcons (lgr k).2 0.
Proof. by move=> c; rewrite /= take_oversize // (lgr_wsize c). Qed.
Lemma lp_size k : lgr_contract k (lgr k) -> size (lp k).1 = k.+1.
Proof. by move=> c; rewrite lp1 // size_rcons (lgr_size c). Qed.
Lemma lp_uniq k : lgr_contract k (lgr k) -> uniq (lp k).1.
Proof. by move=> c; rewrite lp1 //; apply: (sorted_uniq lt_trans ltxx); exact: (lgr_sorted c). Qed.
Lemma lgr_uniq k : lgr_contract k (lgr k) -> uniq (lgr k).1.
Proof. by move=> c; have := lp_uniq c; rewrite lp1 // rcons_uniq => /andP []. Qed.
Lemma lp_last k : lgr_contract k (lgr k) -> nth 0 (lp k).1 k = 1.
Proof. by move=> c; rewrite lp1 // nth_rcons (lgr_size c) ltnn eqxx. Qed.
Lemma lp_first k : (0 < k)%N -> lgr_contract k (lgr k) -> nth 0 (lp k).1 0 = -1.
Proof. by move=> k0 c; rewrite lp1 // nth_rcons (lgr_size c) k0 nth0 (lgr_first c). Qed.
Lemma lp_lt k a b : lgr_contract k (lgr k) -> (a < b <= k)%N -> nth 0 (lp k).1 a < nth 0 (lp k).1 b.
Proof.
move=> c h; have := lgr_sorted c; rewrite -lp1 // => s.
by apply: (sorted_ltn_nth lt_trans 0 s); rewrite ?inE ?lp_size //; lia.
Qed.

(** The affine map [-1,1] -> [tau0, tauf]. *)
Notation hl i := (half_len m i).
Definition phi i (x : F) : F := tau0 m i + hl i * (x + 1).
Lemma hl_gt0 i : (i < size m)%N -> 0 < hl i.
Proof. by move=> h; rewrite divr_gt0 ?ltr0n // subr_gt0 partition_lt. Qed.
Lemma phi_m1 i : phi i (-1) = tau0 m i.
Proof. by rewrite /phi addNr mulr0 addr0. Qed.
Lemma phi_1 i : phi i 1 = tauf m i.
Proof.
rewrite /phi /half_len -[1 + 1]/(2%:R) divfK ?pnatr_eq0 //.
by rewrite addrC subrK.
Qed.
Lemma phi_lt i x y : (i < size m)%N -> x < y -> phi i x < phi i y.
Proof. by move=> h xy; rewrite ltr_add2l ltr_pmul2l ?hl_gt0 // ltr_add2r. Qed.

Lemma inodesE i : (i < size m)%N -> interval_nodes Kmin Kmax lgr m i = [seq phi i x | x <- (lp (K i)).1].
Proof. by move=> h; rewrite /interval_nodes /has_table range_at. Qed.
Lemma iweightsE i : (i < size m)%N ->
  interval_weights Kmin Kmax lgr m i = [seq hl i * x | x <- (lp (K i)).2].
Proof. by move=> h; rewrite /interval_weights /has_table range_at. Qed.
Lemma inodes_nth i j : (i < size m)%N -> (j <= K i)%N ->
  nth 0 (interval_nodes Kmin Kmax lgr m i) j = phi i (nth 0 (lp (K i)).1 j).
Proof. by move=> h hj; rewrite inodesE // (nth_map 0) // lp_size //; exact: lgr_at. Qed.

Definition seg i := take (n_take m i) (interval_nodes Kmin Kmax lgr m i).
Definition wseg i := take (n_take m i) (interval_weights Kmin Kmax lgr m i).

Lemma segE i : (i < size m)%N ->
  seg i = if (i.+1 < size m)%N then [seq phi i x | x <- (lgr (K i)).1]
          else rcons [seq phi i x | x <- (lgr (K i)).1] 1.
Proof.
move=> h; have c := lgr_at h; rewrite /seg inodesE // lp1 // /n_take map_rcons.
have s : size [seq phi i x | x <- (lgr (K i)).1] = K i by rewrite size_map (lgr_size c).
case: ifP => e; first by rewrite -cats1 take_cat s ltnn subnn /= cats0.
by rewrite take_oversize ?size_rcons ?s // phi_1 /tauf e.
Qed.
Lemma wsegE i : (i < size m)%N ->
  wseg i = if (i.+1 < size m)%N then [seq hl i * x | x <- (lgr (K i)).2]
          else rcons [seq hl i * x | x <- (lgr (K i)).2] 0.
Proof.
move=> h; have c := lgr_at h; rewrite /wseg iweightsE // lp2 // /n_take map_rcons.
have s : size [seq hl i * x | x <- (lgr (K i)).2] = K i by rewrite size_map (lgr_wsize c).
case: ifP => e; first by rewrite -cats1 take_cat s ltnn subnn /= cats0.
by rewrite take_oversize ?size_rcons ?s // mulr0.
Qed.
Lemma size_seg i : (i < size m)%N -> size (seg i) = n_take m i.
Proof.
move=> h; rewrite segE // /n_take; case: ifP => _; rewrite ?size_rcons size_map (lgr_size (lgr_at h)) //.
Qed.
Lemma size_wseg i : (i < size m)%N -> size (wseg i) = n_take m i.
Proof.
move=> h; rewrite wsegE // /n_take; case: ifP => _; rewrite ?size_rcons size_map (lgr_wsize (lgr_at h)) //.
Qed.
Lemma seg_sorted i : (i < size m)%N -> sorted <%R (seg i).
Proof.
move=> h; have c := lgr_at h.
have S : sorted <%R [seq phi i x | x <- rcons (lgr (K i)).1 1].
  rewrite sorted_map; apply: (sub_sorted _ (lgr_sorted c)) => x y xy /=; exact: phi_lt.
rewrite /seg inodesE // lp1 // ; exact: take_sorted.
Qed.
Lemma seg_head i : (i < size m)%N -> exists s, seg i = tau0 m i :: s.
Proof.
move=> h; have c := lgr_at h; rewrite segE //.
have := lgr_first c; have := lgr_size c; have := K_pos h.
case: (lgr (K i)).1 => [|x s] /=; first by move=> a b; move: a; rewrite -b.
by move=> _ _ ->; rewrite phi_m1; case: ifP => _; eexists.
Qed.
Lemma seg_ge i x : (i < size m)%N -> x \in seg i -> tau0 m i <= x.
Proof.
move=> h; have [s e] := seg_head h; have := seg_sorted h; rewrite e /= inE.
by rewrite lt_path_sortedE => /andP [/allP a _] /orP [/eqP ->|/a /ltW].
Qed.
Lemma seg_lt i x : (i.+1 < size m)%N -> x \in seg i -> x < tau0 m i.+1.
Proof.
move=> h; have h' : (i < size m)%N by lia.
rewrite segE // h => /mapP [y yi ->].
have -> : tau0 m i.+1 = phi i 1 by rewrite phi_1 /tauf h.
have c := lgr_at h'; apply: phi_lt => //; move: yi => /(nthP 0) [k hk <-].
rewrite (lgr_size c) in hk.
have := @lp_lt (K i) k (K i) c; rewrite hk leqnn lp_last // lp1 // nth_rcons (lgr_size c) hk.
exact.
Qed.

Notation total := (sumn [seq x.1 | x <- m]).
Notation nodes_from k l := (flatten [seq seg i | i <- iota k l]).
Notation weights_from k l := (flatten [seq wseg i | i <- iota k l]).

Lemma nodes_from_size k l : (0 < l)%N -> (k + l = size m)%N ->
  size (nodes_from k l) = (sumn [seq x.1 | x <- drop k m]).+1 /\
  size (weights_from k l) = (sumn [seq x.1 | x <- drop k m]).+1.
Proof.
elim: l k => [//|l IH] k _ e /=.
have h : (k < size m)%N by lia.
rewrite !size_cat size_seg // size_wseg // (drop_nth d0) //= /n_take.
case: l IH e => [|l] IH e /=.
  rewrite drop_oversize ?addn0; last by lia.
  by rewrite ifN /= ?addn0 //; lia.
by case: (IH k.+1) => //= [|-> ->]; [lia|rewrite ifT ?addnS //; lia].
Qed.

Lemma nodes_from_sorted k l : (0 < l)%N -> (k + l = size m)%N ->
  [/\ sorted <%R (nodes_from k l), all (fun x => tau0 m k <= x) (nodes_from k l),
      head 0 (nodes_from k l) = tau0 m k & last 0 (nodes_from k l) = 1].
Proof.
elim: l k => [//|l IH] k _ e.
have h : (k < size m)%N by lia.
case: l IH e => [|l] IH e.
  rewrite /= cats0; split; first exact: seg_sorted.
  - by apply/allP => x; exact: seg_ge.
  - by case: (seg_head h) => s ->.
  - by rewrite segE // ifN ?last_rcons //; lia.
have [//||s1 a1 h1 l1] := IH k.+1; first by lia.
have h' : (k.+1 < size m)%N by lia.
have -> : nodes_from k l.+2 = seg k ++ nodes_from k.+1 l.+1 by [].
set N := nodes_from k.+1 l.+1 in s1 a1 h1 l1 *.
split.
- rewrite (sorted_pairwise lt_trans) pairwise_cat -!(sorted_pairwise lt_trans) seg_sorted // s1 !andbT.
  apply/allrelP => x y xs yn; apply: lt_le_trans (seg_lt h' xs) _.
  by move/allP: a1 => /(_ _ yn).
- rewrite all_cat; apply/andP; split; first by apply/allP => x; exact: seg_ge.
  apply: sub_all a1 => x; apply: le_trans; have := partition_lt Hp h.
  by rewrite /tauf h' => /ltW.
- by case: (seg_head h) => s ->.
- rewrite last_cat -[LHS](_ : last 0 N = _) // /N.
  by case: (seg_head h') => s /= ->.
Qed.

Lemma weights_from_pos k l : (0 < l)%N -> (k + l = size m)%N ->
  exists2 ws, weights_from k l = rcons ws 0 & all (fun w => 0 < w) ws.
Proof.
elim: l k => [//|l IH] k _ e /=.
have h : (k < size m)%N by lia.
have P : all (fun w => 0 < w) [seq hl k * x | x <- (lgr (K k)).2].
  rewrite all_map; apply: sub_all (lgr_pos (lgr_at h)) => x /= x0.
  by rewrite mulr_gt0 ?hl_gt0.
case: l IH e => [|l] IH e.
  rewrite /= cats0; exists [seq hl k * x | x <- (lgr (K k)).2] => //.
  by rewrite wsegE // ifN //; lia.
have [//||ws e1 p1] := IH k.+1; first by lia.
exists ([seq hl k * x | x <- (lgr (K k)).2] ++ ws); last by rewrite all_cat P p1.
by rewrite e1 wsegE // ifT ?rcons_cat //; lia.
Qed.

Lemma size_comp_affine (p : {poly F}) al be : al != 0 -> size (p \Po (al *: 'X + be%:P)) = size p.
Proof.
move=> a0; apply: size_comp_poly2.
by rewrite size_addl size_scale ?size_polyX // size_polyC; case: (be == 0).
Qed.

Lemma seg_quad i (p : {poly F}) : (i < size m)%N -> (size p <= (2 * K i).-1)%N ->
  \sum_(xw <- zip (seg i) (wseg i)) xw.2 * p.[xw.1] = integ p (tau0 m i) (tauf m i).
Proof.
move=> h sp; have c := lgr_at h.
have hl0 : hl i != 0 by rewrite gt_eqF // hl_gt0.
have base : \sum_(xw <- zip [seq phi i x | x <- (lgr (K i)).1] [seq hl i * x | x <- (lgr (K i)).2])
   xw.2 * p.[xw.1] = integ p (tau0 m i) (tauf m i).
  set L := hl i *: 'X + (tau0 m i + hl i)%:P.
  have LE x : phi i x = hl i * x + (tau0 m i + hl i) by rewrite /phi; ring.
  rewrite -phi_1 -(phi_m1 i) !LE -integ_affine -/L -(lgr_exact c); last by rewrite size_comp_affine.
  rewrite mulr_sumr.
  elim: (lgr (K i)).1 (lgr (K i)).2 => [|x xs IH] [|w ws]; rewrite /= ?big_nil // !big_cons IH /=.
  by rewrite horner_comp hornerD hornerZ hornerX hornerC -LE mulrA.
rewrite segE // wsegE //; case: ifP => _ //.
rewrite -!cats1 zip_cat ?big_cat /= ?big_seq1 /= ?mul0r ?addr0 //.
by rewrite !size_map (lgr_size c) (lgr_wsize c).
Qed.

Lemma quad_from k l (p : {poly F}) : (0 < l)%N -> (k + l = size m)%N -> (size p <= (2 * Kmin).-1)%N ->
  \sum_(xw <- zip (nodes_from k l) (weights_from k l)) xw.2 * p.[xw.1] = integ p (tau0 m k) 1.
Proof.
move=> l0 e sp; elim: l k l0 e => [//|l IH] k _ e /=.
have h : (k < size m)%N by lia.
rewrite zip_cat ?size_seg ?size_wseg // big_cat /= seg_quad //; last by have := range_at h; lia.
case: l IH e => [|l] IH e.
  by rewrite /= big_nil addr0 /tauf ifN //; lia.
rewrite IH //; last by lia.
by rewrite /tauf ifT ?integ_chasles //; lia.
Qed.

Lemma size_m0 : (0 < size m)%N. Proof. exact: partition_size Hp. Qed.
Lemma tau00 : tau0 m 0 = 0.
Proof. by case: Hp => + _; rewrite /tau0; case: m => [/eqP|//]; rewrite /= oner_eq0. Qed.

(** Differentiation matrix. *)
Lemma deriv_comp_affine (p : {poly F}) al be k :
  (p \Po (al *: 'X + be%:P))^`(k) = al ^+ k *: (p^`(k) \Po (al *: 'X + be%:P)).
Proof.
elim: k => [|k IH]; first by rewrite !derivn0 expr0 scale1r.
rewrite derivnS IH derivZ deriv_comp derivD derivZ derivX derivC addr0 alg_polyC -derivnS.
by rewrite mulrC mul_polyC scalerA -exprSr.
Qed.

Lemma interp_derivn i k (p : {poly F}) u xs : (i < size m)%N -> uniq xs -> (size p <= size xs)%N ->
  \sum_(j < size xs) p.[phi i (nth 0 xs j)] * ((lagrange xs j)^`(k)).[u] =
  hl i ^+ k * (p^`(k)).[phi i u].
Proof.
move=> h ux sp; set L := hl i *: 'X + (tau0 m i + hl i)%:P.
have LE x : L.[x] = phi i x by rewrite /phi /L hornerD hornerZ hornerX hornerC; ring.
rewrite -(derivn_interp xs (fun j => p.[phi i (nth 0 xs j)])).
have -> : interp xs (fun j => p.[phi i (nth 0 xs j)]) = p \Po L.
  rewrite -[RHS](interp_poly ux); last by rewrite size_comp_affine ?gt_eqF ?hl_gt0.
  by rewrite /interp; apply: eq_bigr => j _; rewrite horner_comp LE.
by rewrite deriv_comp_affine hornerZ horner_comp LE.
Qed.

Lemma diffmat_exact i (p : {poly F}) (b : 'I_(K i)) : (i < size m)%N -> (size p <= (K i).+1)%N ->
  \sum_(a < (K i).+1) p.[nth 0 (interval_nodes Kmin Kmax lgr m i) a] * interval_diffmat lgr m i a b =
  p^`().[nth 0 (interval_nodes Kmin Kmax lgr m i) b].
Proof.
move=> h sp; have c := lgr_at h.
have hl0 : hl i != 0 by rewrite gt_eqF // hl_gt0.
have tt : tauf m i - tau0 m i = 2%:R * hl i by rewrite /half_len mulrC divfK ?pnatr_eq0.
rewrite inodes_nth //; last by rewrite ltnW.
have := @interp_derivn i 1 p (nth 0 (lp (K i)).1 b) (lp (K i)).1 h (lp_uniq c); rewrite lp_size //.
move/(_ sp); rewrite expr1 derivn1 => E.
transitivity ((hl i)^-1 * (hl i * p^`().[phi i (nth 0 (lp (K i)).1 b)])); last by rewrite mulKf.
rewrite -E mulr_sumr; apply: eq_bigr => a _.
rewrite inodes_nth ?leq_ord // !mxE tt derivn1.
have -> : 2%:R / (2%:R * hl i) = (hl i)^-1 by rewrite invfM mulrA mulfV ?pnatr_eq0 // mul1r.
by rewrite mulrCA.
Qed.

Lemma diffmat_unit i : (i < size m)%N -> row' ord0 (interval_diffmat lgr m i) \in unitmx.
Proof.
move=> h; have c := lgr_at h; have K0 := K_pos h.
rewrite unitmxE unitfE; apply/negP => /det0P [v v0 e].
set xs := (lp (K i)).1 in c *.
have sx : size xs = (K i).+1 by rewrite lp_size.
have ux : uniq xs by rewrite lp_uniq.
pose f (j : nat) : F := if j is j'.+1 then (if insub j' is Some o then v 0 o else 0) else 0.
have fS (a : 'I_(K i)) : f a.+1 = v 0 a by rewrite /f valK.
set y := interp xs f.
have sy : (size y <= (K i).+1)%N by rewrite -sx size_interp.
have dy (b : 'I_(K i)) : y^`().[nth 0 xs b] = 0.
  rewrite -derivn1 derivn_interp sx big_ord_recl mul0r add0r.
  have := congr1 (fun M : 'rV[F]_(K i) => M 0 b) e; rewrite !mxE => E.
  have c0 : 2%:R / (tauf m i - tau0 m i) != 0.
    by rewrite mulf_neq0 ?pnatr_eq0 // invr_eq0 subr_eq0 gt_eqF // partition_lt.
  apply: (mulfI c0); rewrite mulr0 -[RHS]E mulr_sumr; apply: eq_bigr => a _.
  by rewrite !mxE derivn1 fS mulrCA.
have y0 : y^`() = 0.
  apply: (@poly_eq_nodes F _ _ (take (K i) xs)); rewrite ?size_poly0 // ?size_takel ?sx //.
  - exact: take_uniq.
  - by apply: leq_trans (size_poly _ _) _; move: sy; case: (size y).
  - by move=> x /(nthP 0) [b]; rewrite size_takel ?sx // => hb <-; rewrite nth_take // (dy (Ordinal hb)) horner0.
have yc := deriv0_const y0.
have z : y = 0.
  have : y.[nth 0 xs 0] = 0 by rewrite interp_node ?sx.
  by rewrite yc hornerC => ->.
case/negP: v0; apply/eqP/matrixP => a b; rewrite (ord1 a) mxE -fS.
have := @interp_node F xs f b.+1 ux; rewrite sx ltnS => /(_ (ltn_ord b)) <-.
by rewrite -/y z horner0.
Qed.
End Quad.
