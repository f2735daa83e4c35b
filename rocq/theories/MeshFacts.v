From mathcomp Require Import all_ssreflect all_algebra zify.
From mathcomp.algebra_tactics Require Import ring.
From Verif Require Import MeshModel MeshSpec PolyFacts.
Set Implicit Arguments.
Unset Strict Implicit.
Unset Printing Implicit Defensive.
Import Order.TTheory GRing.Theory Num.Theory.
Local Open Scope ring_scope.

Section Structure.
Variable F : realFieldType.
Variables Kmin Kmax : nat.
Variable kinc : nat -> F -> F -> nat.
Hypothesis Kmin0 : (0 < Kmin)%N.
Hypothesis KminKmax : (Kmin <= Kmax)%N.
Implicit Types (m : seq (nat * F)) (i j n k : nat).
Notation d0 := (0%N, 0 : F).

Lemma iota_rcons a n : iota a n.+1 = rcons (iota a n) (a + n)%N.
Proof. by rewrite -{1}(addn1 n) iotaD cats1. Qed.

Lemma split_loopE i t0 tm n m : (i < size m)%N ->
  split_loop Kmin i t0 tm n m =
  take i.+1 m ++ [seq (Kmin, t0 + j%:R * tm) | j <- iota 1 n.-1] ++ drop i.+1 m.
Proof.
elim: n m => [|n IH] m h /=; first by rewrite cat_take_drop.
case: n IH => [|n] IH; first by rewrite cat_take_drop.
have h1 : size (take i.+1 m) = i.+1 by rewrite size_takel.
rewrite IH; last by rewrite /insert_at size_cat /= h1; lia.
rewrite /insert_at take_size_cat // drop_cat h1 ltnn subnn drop0.
have e : iota 1 n.+1 = iota 1 n ++ [:: n.+1] by rewrite -{1}(addn1 n) iotaD add1n.
by rewrite e map_cat -!catA.
Qed.

Lemma set_nthE i (x : nat * F) m : (i < size m)%N -> set_nth d0 m i x = take i m ++ x :: drop i.+1 m.
Proof using F. by elim: m i => [//|a m IH] [|i] h //=; rewrite ?drop0 ?IH. Qed.

Lemma refine_phE i D m : (i < size m)%N ->
  refine_ph Kmin Kmax i D m =
  Some (take i m ++ refined Kmin Kmax (N_colloc_ival m i) (N_colloc_ival m i) D (tau0 m i) (tauf m i)
        ++ drop i.+1 m).
Proof.
move=> h; rewrite /refine_ph h /refined.
have ev : (N_colloc_ival m i, tau0 m i) = nth d0 m i by rewrite /N_colloc_ival /tau0; case: (nth _ _ _).
case: ifP => _.
  rewrite (negbTE (_ : Kmin != 0%N)) -?lt0n // split_loopE // (take_nth d0) //.
  by rewrite -cats1 -catA /split_into ev.
case: ifP => _; last by rewrite set_nthE.
by rewrite ev /= -(drop_nth d0 h) cat_take_drop.
Qed.

Lemma refined_head K0 K D (a b : F) : K0 = K -> exists K' r, refined Kmin Kmax K0 K D a b = (K', a) :: r.
Proof. by move=> ->; rewrite /refined; case: ifP => _; [|case: ifP => _]; eexists; eexists. Qed.

Definition range (x : nat * F) : bool := (Kmin <= x.1 <= Kmax.+1)%N.

Lemma refined_range K D (a b : F) : (Kmin <= K <= Kmax.+1)%N -> all range (refined Kmin Kmax K K D a b).
Proof.
move=> h; rewrite /refined; case: ifP => c1.
  rewrite /= /range /= h; apply/allP => x /mapP [j _ ->]; rewrite /=; lia.
case: ifP => c2; rewrite /= /range /= andbT //; lia.
Qed.

(** taus of a refined interval: a < ... < b *)
Lemma split_into_sorted n K0 (a b : F) : (0 < n)%N -> a < b ->
  sorted <%R (rcons [seq x.2 | x <- split_into Kmin n K0 a b] b).
Proof.
move=> n0 ab; rewrite /split_into /=.
have n0' : 0 < n%:R :> F by rewrite ltr0n.
have -> : [seq x.2 | x <- [seq (Kmin, a + j%:R * ((b - a) / n%:R)) | j <- iota 1 n.-1]] =
          [seq a + j%:R * ((b - a) / n%:R) | j <- iota 1 n.-1] by rewrite -map_comp.
set g := fun j : nat => a + j%:R * ((b - a) / n%:R).
have g0 : a = g 0%N by rewrite /g mul0r addr0.
have gn : b = g n by rewrite /g mulrC divfK ?gt_eqF // addrC subrK.
have -> : path <%R a (rcons [seq g j | j <- iota 1 n.-1] b) = sorted <%R [seq g j | j <- iota 0 n.+1].
  rewrite [in LHS]gn [in LHS]g0 -map_rcons; congr path; congr map.
  by case: n n0 {n0' g g0 gn} => // n _; rewrite -[RHS]/(iota 1 n.+1) iota_rcons add1n.
rewrite sorted_map; apply: (sub_sorted _ (iota_ltn_sorted _ _)) => x y xy /=.
by rewrite /g ltr_add2l ltr_pmul2r ?ltr_nat // divr_gt0 // subr_gt0.
Qed.

Lemma refined_sorted K0 K D (a b : F) : a < b ->
  sorted <%R (rcons [seq x.2 | x <- refined Kmin Kmax K0 K D a b] b).
Proof.
move=> ab; rewrite /refined; case: ifP => _; last by case: ifP => _ /=; rewrite ab.
by apply: split_into_sorted => //; rewrite /n_split; lia.
Qed.

(** The sequence t_0, ..., t_(n-1), 1 and its pieces. *)
Definition ends m := rcons [seq x.2 | x <- m] 1.
Lemma nth_ends m i : (i < size m)%N -> nth 1 (ends m) i = tau0 m i.
Proof using F. by move=> h; rewrite nth_rcons size_map h /tau0 (nth_map d0). Qed.
Lemma nth_endsS m i : (i < size m)%N -> nth 1 (ends m) i.+1 = tauf m i.
Proof using F.
move=> h; rewrite nth_rcons size_map /tauf; case: ltngtP => c //.
  by rewrite /tau0 (nth_map d0).
Qed.
Lemma partition_lt m i : is_partition m -> (i < size m)%N -> tau0 m i < tauf m i.
Proof using F.
case=> _ s h; rewrite -nth_ends // -nth_endsS //.
have sz : size (ends m) = (size m).+1 by rewrite size_rcons size_map.
by apply: (sorted_ltn_nth lt_trans 1 s); rewrite ?inE ?sz //; clear kinc Kmin0 KminKmax; lia.
Qed.

(** Replacing the piece i by a sorted piece keeps the partition. *)
Lemma partition_replace m i (ps : seq (nat * F)) :
  is_partition m -> (i < size m)%N -> head 1 [seq x.2 | x <- ps] = tau0 m i -> ps != [::] ->
  sorted <%R (rcons [seq x.2 | x <- ps] (tauf m i)) ->
  is_partition (take i m ++ ps ++ drop i.+1 m).
Proof using F.
case=> h0 s h hp pn sp; split.
  case: i h hp sp => [|i] h hp sp.
    by rewrite take0 /= map_cat; case: ps pn hp {sp} => //= p ps _ ->; rewrite /tau0 -h0 {h0 s}; case: m h.
  by case: m h h0 {s hp sp}.
rewrite !map_cat -cats1 -!catA cats1.
have E : ends m = [seq x.2 | x <- take i m] ++ tau0 m i :: rcons [seq x.2 | x <- drop i.+1 m] 1.
  by rewrite /ends -{1}(cat_take_drop i m) (drop_nth d0) // map_cat rcons_cat.
case: ps pn hp sp => [//|p ps] _ /= hp sp.
move: s; rewrite -/(ends m) E => s.
have R : exists r, rcons [seq x.2 | x <- drop i.+1 m] 1 = tauf m i :: r.
  rewrite /tauf; case: (ltnP i.+1 (size m)) => h1.
    by rewrite (drop_nth d0) //=; eexists.
  by rewrite drop_oversize //=; exists [::].
case: R => r R; rewrite R in s *; rewrite {h0 E R}.
rewrite hp; move: s; case: (map _ (take i m)) => [|a l] /=.
  move=> /andP [_ pr]; rewrite cat_path /=; move: sp; rewrite rcons_path hp => /andP [-> ->].
  by rewrite pr.
rewrite !cat_path /= => /andP [-> /andP [-> /andP [_ pr]]] /=.
rewrite cat_path /=; move: sp; rewrite rcons_path hp => /andP [-> ->].
by rewrite pr.
Qed.

Lemma map_taus_partition (f : nat * F -> nat * F) m :
  (forall x, (f x).2 = x.2) -> is_partition m -> is_partition (map f m).
Proof using F.
move=> hf; rewrite /is_partition -map_comp.
by have -> : [seq (snd \o f) i | i <- m] = [seq x.2 | x <- m] by apply: eq_map => x /=.
Qed.

Lemma set_nth_partition m i K : (i < size m)%N -> is_partition m ->
  is_partition (set_nth d0 m i (K, tau0 m i)).
Proof using F.
move=> h; rewrite /is_partition.
have -> : [seq x.2 | x <- set_nth d0 m i (K, tau0 m i)] = [seq x.2 | x <- m] => //.
rewrite set_nthE // map_cat /=.
by rewrite -[in RHS](cat_take_drop i m) map_cat (drop_nth d0 h).
Qed.

Lemma partition_size m : is_partition m -> (0 < size m)%N.
Proof using F. by case: m => [|//] [] /= /eqP; rewrite oner_eq0. Qed.

Lemma refine_partition m i D m' : is_partition m -> refine_ph Kmin Kmax i D m = Some m' -> is_partition m'.
Proof.
move=> p; case: (ltnP i (size m)) => [h|h]; last by rewrite /refine_ph ltnNge h.
rewrite refine_phE // => -[<-].
have [K' [r e]] := @refined_head (N_colloc_ival m i) (N_colloc_ival m i) D (tau0 m i) (tauf m i) erefl.
apply: partition_replace => //; rewrite ?e //.
by rewrite -e; apply: refined_sorted; apply: partition_lt.
Qed.

Lemma refine_range m i D m' : all range m -> refine_ph Kmin Kmax i D m = Some m' -> all range m'.
Proof.
move=> p; case: (ltnP i (size m)) => [h|h]; last by rewrite /refine_ph ltnNge h.
rewrite refine_phE // => -[<-]; rewrite !all_cat.
have := p; rewrite -{1}(cat_take_drop i m) all_cat => /andP [-> q] /=.
move: q; rewrite (drop_nth d0) //= => /andP [q ->]; rewrite andbT.
exact: refined_range.
Qed.

(** refine_errors *)
Definition piece (target : F) m (ie : nat * F) : seq (nat * F) :=
  if target < ie.2 then
    refined Kmin Kmax (N_colloc_ival m ie.1) (N_colloc_ival m ie.1)
      (N_colloc_ival m ie.1 + kinc (N_colloc_ival m ie.1) ie.2 target) (tau0 m ie.1) (tauf m ie.1)
  else [:: nth d0 m ie.1].

Lemma piece_head target m ie :
  exists K r, piece target m ie = (K, tau0 m ie.1) :: r.
Proof.
rewrite /piece; case: ifP => _; first exact: refined_head.
by exists (nth d0 m ie.1).1, [::]; rewrite /tau0; case: (nth _ _ _).
Qed.

Lemma refine_errors_gen target m k (errs : seq F) :
  (k + size errs = size m)%N ->
  foldr (fun ie om =>
             if om is Some m' then
               if target < ie.2 then
                 let Ki := N_colloc_ival m' ie.1 in
                 refine_ph Kmin Kmax ie.1 (Ki + kinc Ki ie.2 target) m'
               else Some m'
             else None)
          (Some m) (zip (iota k (size errs)) errs) =
  Some (take k m ++ flatten [seq piece target m ie | ie <- zip (iota k (size errs)) errs]).
Proof.
elim: errs k => [|e errs IH] k h /=; first by rewrite cats0 take_oversize //; move: h; rewrite /=; lia.
have hk : (k < size m)%N by rewrite -h /=; lia.
rewrite IH; last by rewrite -h /= addSnnS.
set rest := flatten _.
set M := take k.+1 m ++ rest.
have st : size (take k.+1 m) = k.+1 by rewrite size_takel.
have nM : nth d0 M k = nth d0 m k by rewrite /M nth_cat st ltnSn nth_take.
have hM : (k < size M)%N by rewrite /M size_cat st; lia.
have fM : tauf M k = tauf m k.
  rewrite /tauf /M size_cat st /rest; case: errs {IH rest M nM hM} h => [|e' errs] h.
    by rewrite /= addn0 ltnn ifN //; move: h; rewrite /=; lia.
  have [K [r E]] := piece_head target m (k.+1, e'); rewrite /= E /=.
  have c1 : (k.+1 < size m)%N by rewrite -h /=; lia.
  have c2 n : (k.+1 < k.+1 + n.+1)%N by lia.
  rewrite c1 c2.
  by rewrite /tau0 nth_cat st ltnn subnn /=.
have dM : drop k.+1 M = rest by rewrite /M drop_cat st ltnn subnn drop0.
have tM : take k M = take k m by rewrite /M takel_cat ?st // take_take.
rewrite /piece /=; case: ifP => c.
  by rewrite refine_phE // /N_colloc_ival /tau0 nM fM dM tM.
by rewrite /M (take_nth d0) // -cats1 -catA.
Qed.

Lemma refine_errorsE target m errs : size errs = size m ->
  refine_errors Kmin Kmax kinc errs target m =
  Some (flatten [seq piece target m ie | ie <- zip (iota 0 (size m)) errs]).
Proof.
move=> h; rewrite /refine_errors h eqxx foldl_rev.
by have := @refine_errors_gen target m 0 errs; rewrite h add0n take0 => /(_ erefl).
Qed.

(** refine_errors as a sequence of refine_ph calls: invariants carry over. *)
Lemma refine_errors_inv (P : seq (nat * F) -> Prop) target m errs m' :
  (forall m i D m', P m -> refine_ph Kmin Kmax i D m = Some m' -> P m') ->
  P m -> refine_errors Kmin Kmax kinc errs target m = Some m' -> P m'.
Proof.
move=> hP pm; rewrite /refine_errors; case: ifP => // _.
move: (rev (zip (iota 0 (size m)) errs)) => s.
elim: s m pm => [|[i e] s IH] m pm /=; first by case=> <-.
case: ifP => _; last exact: IH.
case E: (refine_ph _ _ _ _ _) => [m1|]; first by apply: IH; apply: hP E.
by elim: s {IH} => //= [].
Qed.

(** Reachable meshes *)
Definition ctor (om : option (seq (nat * F))) : Prop :=
  om = Some (mesh_default F Kmin) \/ exists n k, om = mesh_new F Kmin Kmax n k.

Lemma ctor_inv m : ctor (Some m) -> is_partition m /\ all range m.
Proof.
case=> [[->]|[n [k]]]; first by rewrite /is_partition /= /range /= ltr01; split=> //; lia.
rewrite /mesh_new; case: ifP => // kr [->]; case: ltnP => n2.
  by rewrite /is_partition /= ltr01 /range /= kr.
split; last by apply/allP => x /mapP [i _ ->]; rewrite /range.
have n0 : 0 < n%:R :> F by rewrite ltr0n; lia.
rewrite /is_partition -map_comp /=; split; first by case: n n2 {n0} => //= n _; rewrite mul0r.
have -> : rcons [seq (snd \o (fun i => (k, i%:R * (1 / n%:R : F)))) i | i <- iota 0 n] 1 =
          [seq i%:R * (1 / n%:R) | i <- iota 0 n.+1].
  by rewrite -[n.+1]addn1 iotaD map_cat cats1 /= add0n mul1r mulfV ?gt_eqF.
rewrite sorted_map; apply: (sub_sorted _ (iota_ltn_sorted _ _)) => x y xy /=.
by rewrite ltr_pmul2r ?ltr_nat // divr_gt0 // ltr01.
Qed.

Lemma step_inv m o m' : is_partition m /\ all range m -> mesh_step Kmin Kmax kinc m o = Some m' ->
  is_partition m' /\ all range m'.
Proof.
case=> p r; case: o => [i D|errs t|i K||] /=.
- by move=> e; split; [apply: refine_partition e|apply: refine_range e].
- move=> e; split; first exact: (refine_errors_inv refine_partition p e).
  exact: (@refine_errors_inv (fun m => all range m) _ _ _ _ refine_range r e).
- rewrite /set_N_colloc_ival; case: ifP => // /andP [kr h] [<-]; split; first exact: set_nth_partition.
  rewrite set_nthE // all_cat /= /range /= kr /=.
  have := r; rewrite -{1}(cat_take_drop i m) all_cat (drop_nth d0) //= => /andP [-> /andP [_ ->]] //.
- case=> <-; split; first exact: map_taus_partition.
  rewrite all_map; apply: sub_all r => x; rewrite /range /=; lia.
- rewrite /decrease_degrees; case: ifP => // _ [<-]; split; first exact: map_taus_partition.
  rewrite all_map; apply: sub_all r => x; rewrite /range /=; lia.
Qed.

Lemma run_inv om os m : ctor om -> mesh_run Kmin Kmax kinc om os = Some m ->
  is_partition m /\ all range m.
Proof.
elim/last_ind: os m => [|os o IH] m c; first by rewrite /mesh_run /= => e; apply: ctor_inv; rewrite -e.
rewrite /mesh_run foldl_rcons -/(mesh_run _ _ _ _ _).
case E: (mesh_run _ _ _ _ _) => [m1|//]; apply: step_inv; exact: IH.
Qed.
End Structure.
