(** Property C92: a solution moved to a refined mesh describes the same trajectory. *)
From mathcomp Require Import all_ssreflect all_algebra zify.
From mathcomp.algebra_tactics Require Import ring.
From Verif Require Import Calc QpModel QpSpec QpFacts QpLoop MeshModel MeshSpec PolyFacts MeshFacts MeshQuad MeshEval MeshProps MeshTransfer.
From Verif Require Import SparseModel SparseFacts MeshFunModel MeshFunFacts MeshFunLoops MeshFunDyn MeshFunProps MeshFunCases NlpModel NlpFacts NlpProps NlpSol.
Set Implicit Arguments.
Unset Strict Implicit.
Unset Printing Implicit Defensive.
Import Order.TTheory GRing.Theory Num.Theory.
Local Open Scope ring_scope.

Section Keeps.
Variable F : realFieldType.
(** Interval i' of the mesh m' lies in an interval of m that has at most as many points. *)
Definition kept (m m' : seq (nat * F)) (i' : nat) : Prop :=
  exists i, [/\ (i < size m)%N, tau0 m i <= tau0 m' i', tauf m' i' <= tauf m i & (N_colloc_ival m i <= N_colloc_ival m' i')%N].
Notation d0 := (0%N, 0 : F).
Lemma kept_refl m i : (i < size m)%N -> kept m m i.
Proof. by move=> h; exists i. Qed.
Lemma kept_trans m1 m2 m3 i : (forall i, (i < size m2)%N -> kept m1 m2 i) -> kept m2 m3 i -> kept m1 m3 i.
Proof.
move=> h12 [j [hj a b c]]; have [k [hk a' b' c']] := h12 j hj.
by exists k; split=> //; [exact: le_trans a' a|exact: le_trans b b'|exact: leq_trans c' c].
Qed.
(** Replacing interval i by intervals inside it with at least as many points keeps all intervals. *)
Lemma kept_replace (m R : seq (nat * F)) i i' : (i < size m)%N -> (0 < size R)%N -> (nth d0 R 0).2 = tau0 m i ->
  all (fun x => (N_colloc_ival m i <= x.1)%N && (tau0 m i <= x.2 <= tauf m i)) R ->
  (i' < size (take i m ++ R ++ drop i.+1 m))%N -> kept m (take i m ++ R ++ drop i.+1 m) i'.
Proof.
move=> h R0 hR al; set M := _ ++ _; move=> h'.
have st : size (take i m) = i by rewrite size_takel // ltnW.
have sM : size M = (i + size R + (size m - i.+1))%N by rewrite /M !size_cat size_drop st addnA.
have n1 j : (j < i)%N -> nth d0 M j = nth d0 m j by move=> hj; rewrite /M nth_cat st hj nth_take.
have n2 j : (j < size R)%N -> nth d0 M (i + j) = nth d0 R j.
  by move=> hj; rewrite /M nth_cat st ltnNge leq_addr /= addKn nth_cat hj.
have n3 j : nth d0 M (i + size R + j) = nth d0 m (i.+1 + j).
  by rewrite /M nth_cat st ltnNge -addnA leq_addr /= addKn nth_cat ltnNge leq_addr /= addKn nth_drop.
case: (ltnP i' i) => c1.
  have hi' : (i' < size m)%N by exact: ltn_trans c1 h.
  exists i'; split=> //; rewrite /tau0 /N_colloc_ival ?n1 //.
  rewrite /tauf sM; have -> : (i'.+1 < i + size R + (size m - i.+1))%N by move: R0 c1; clear; lia.
  have -> : (i'.+1 < size m)%N by exact: leq_ltn_trans c1 h.
  rewrite /tau0; move: c1; rewrite leq_eqVlt => /orP[/eqP e|c1]; last by rewrite n1.
  by rewrite e -[X in nth d0 M X](addn0 i) n2 // hR /tau0.
case: (ltnP i' (i + size R)) => c2.
  have [j ej hj] : exists2 j, i' = (i + j)%N & (j < size R)%N by exists (i' - i)%N; lia.
  have /allP al' := al; have /andP[a1 /andP[a2 a3]] := al' _ (mem_nth d0 hj).
  exists i; split=> //; rewrite /tau0 /N_colloc_ival ej ?n2 //.
  rewrite /tauf sM; case: (ltnP j.+1 (size R)) => c3.
    have -> : ((i + j).+1 < i + size R + (size m - i.+1))%N by move: c3; clear; lia.
    by rewrite /tau0 -addnS n2 //; have /andP[_ /andP[_]] := al' _ (mem_nth d0 c3).
  have ej' : (i + j).+1 = (i + size R)%N by move: hj c3; clear; lia.
  rewrite ej' /tau0; case: (ltnP i.+1 (size m)) => c4; last by rewrite ifF //; lia.
  by rewrite ifT; [rewrite -[X in nth d0 M X]addn0 n3 addn0|lia].
have [j ej] : exists j, i' = (i + size R + j)%N by exists (i' - (i + size R))%N; rewrite subnKC.
have hj : (i.+1 + j < size m)%N by move: h'; rewrite sM ej; clear - h; lia.
exists (i.+1 + j)%N; split=> //; rewrite /tau0 /N_colloc_ival ej ?n3 //.
rewrite /tauf sM /tau0 -[(i + size R + j).+1]addnS n3 [(i.+1 + j.+1)%N]addnS.
have -> : (i + size R + j.+1 < i + size R + (size m - i.+1))%N = ((i.+1 + j).+1 < size m)%N.
  by apply/idP/idP; clear - h; lia.
by [].
Qed.
End Keeps.

Section Refine.
Variable F : realFieldType.
Variables Nx Nu Nq Ncr Nce : nat.
Variables (Kmin Kmax : nat) (lgr : nat -> seq F * seq F) (kinc : nat -> F -> F -> nat) (m m' : mesh F).
Variable bis : seq F -> F -> option nat.
Hypotheses (k0 : (0 < Kmin)%N) (km : (Kmin <= Kmax)%N).
Hypothesis Hl : forall K, (Kmin <= K <= Kmax.+1)%N -> lgr_contract K (lgr K).
Hypothesis Hb : bis_contract bis.
Hypotheses (rm : reachable Kmin Kmax kinc m) (rm' : reachable Kmin Kmax kinc m').
Hypothesis hN : (\sum_(i < size m) N_colloc_ival m i < uint_mod)%N.
Hypothesis hN' : (\sum_(i < size m') N_colloc_ival m' i < uint_mod)%N.
Local Notation to_ocp m := (nlpsol_to_ocpsol Nx Nu Nq Ncr Nce Kmin Kmax lgr m bis).
Local Notation to_nlp m := (ocpsol_to_nlpsol Kmin Kmax lgr m).
Let SN : sumn [seq x.1 | x <- m] = N_colloc m.
Proof.
have [_ /(_ hN) -> _] := C26_N_colloc_partial m.
by rewrite sumnE big_map (big_nth (0%N, 0)) big_mkord; exact: eq_bigr.
Qed.
Let SN' : sumn [seq x.1 | x <- m'] = N_colloc m'.
Proof.
have [_ /(_ hN') -> _] := C26_N_colloc_partial m'.
by rewrite sumnE big_map (big_nth (0%N, 0)) big_mkord; exact: eq_bigr.
Qed.
Let inv : is_partition m /\ all (range Kmin Kmax) m.
Proof. by case: rm => om [os [c e]]; exact: (run_inv k0 km c e). Qed.
Let inv' : is_partition m' /\ all (range Kmin Kmax) m'.
Proof. by case: rm' => om [os [c e]]; exact: (run_inv k0 km c e). Qed.

(** One of the four interpolated quantities: n components, stored from position b of v, at len points. *)
Lemma eval_moved n (v v' : nat -> F) b b' len len' ext (t : F) i' :
  len = (if ext then (N_colloc m).+1 else N_colloc m) -> len' = (if ext then (N_colloc m').+1 else N_colloc m') ->
  (forall i k, (i < len')%N -> (k < n)%N ->
     v' (b' + (n * i + k))%N = vget (eval Kmin Kmax lgr bis m (nth 0 (all_nodes Kmin Kmax lgr m') i) (colseq n v b len) 0 ext) k) ->
  kept m m' i' -> contains m' i' t ->
  eval Kmin Kmax lgr bis m' t (colseq n v' b' len') 0 ext = eval Kmin Kmax lgr bis m t (colseq n v b len) 0 ext.
Proof.
move=> e1 e2 hv [i ins] c; have [p r] := inv; have [p' r'] := inv'.
have s1 : size (colseq n v b len) = if ext then (sumn [seq x.1 | x <- m]).+1 else sumn [seq x.1 | x <- m].
  by rewrite size_map size_iota e1 SN.
have s2 : size (colseq n v' b' len') = if ext then (sumn [seq x.1 | x <- m']).+1 else sumn [seq x.1 | x <- m'].
  by rewrite size_map size_iota e2 SN'.
apply: (transfer k0 Hl Hb p r p' r' s1 s2 _ ins c) => k; rewrite size_map size_iota => hk.
rewrite (nth_map 0%N) ?size_iota // nth_iota // add0n.
apply/matrixP => a z; rewrite (ord1 z) mxE hv //.
by rewrite (vgetE _ (ltn_ord a)); congr (fun_of_matrix _ _ _); exact: val_inj.
Qed.

(** The solution c of the program on m, written as a point of the program on m' and read back there, has the same times,
    integrals and multipliers of integrals and of end constraints.  Its functions of time are unchanged on every interval of
    m' that is part of an interval of m with at most as many points. *)
Theorem C92_moved (s : nlpsol F) (jx jl : nat -> F) c : s_x s 0%N != 0 -> to_ocp m s = Some c ->
  exists2 c', to_ocp m' (to_nlp m' jx jl c) = Some c' &
    [/\ c_tf c' = c_tf c, c_Q c' = c_Q c, c_lq c' = c_lq c, c_lce c' = c_lce c &
        forall t i', contains m' i' (t / c_tf c) -> kept m m' i' ->
          [/\ c_x c' t = c_x c t, c_u c' t = c_u c t, c_ldyn c' t = c_ldyn c t & c_lcr c' t = c_lcr c t]].
Proof.
move=> t0 E; have [hv hm] := C39_to_nlp k0 km Hl rm' hN' c jx jl.
have Nz : [|| Nx == 0, Nu == 0 | Ncr == 0]%N = false by move: E; rewrite /nlpsol_to_ocpsol; case: ifP.
have : exists c', to_ocp m' (to_nlp m' jx jl c) = Some c' by rewrite /nlpsol_to_ocpsol Nz; eexists.
case=> c' E'; exists c' => //.
move: (to_nlp m' jx jl c) hv hm E' => sn hv hm E'.
have tfE : s_x sn (tfvar_B Nx Nu Nq m') = c_tf c by exact: (hv QTf isT).
have cE : c_tf c = s_x s (tfvar_B Nx Nu Nq m) by move: E; rewrite /nlpsol_to_ocpsol Nz; case=> <-.
move: E'; rewrite /nlpsol_to_ocpsol Nz tfE; case=> <-.
have xL M : (xvar_L Nx Nu Nq M %/ Nx = (N_colloc M).+1)%N.
  by rewrite -[xvar_L _ _ _ _]/(Nx * (N_colloc M + 1))%N mulKn ?addn1 // lt0n; case: eqP Nz.
have uL M : (uvar_L Nx Nu Nq M %/ Nu = N_colloc M)%N.
  by rewrite -[uvar_L _ _ _ _]/(Nu * N_colloc M)%N mulKn // lt0n; case: (Nu == 0%N) Nz; rewrite ?orbT.
have dL M : (dcon_L Nx Nq Ncr Nce M %/ Nx = N_colloc M)%N.
  by rewrite -[dcon_L _ _ _ _ _]/(Nx * N_colloc M)%N mulKn // lt0n; case: eqP Nz.
have rL M : (crcon_L Nx Nq Ncr Nce M %/ Ncr = N_colloc M)%N.
  by rewrite -[crcon_L _ _ _ _ _]/(Ncr * N_colloc M)%N mulKn // lt0n; case: (Ncr == 0%N) Nz; rewrite ?orbT.
have tc t0' : (t0' * c_tf c - 0) / (c_tf c - 0) = t0' by rewrite !subr0 mulfK // cE.
split=> //.
- by apply/matrixP => a z; rewrite (ord1 z) mxE; apply: (etrans (hv (QInt a) (ltn_ord a))); rewrite /= (vgetE _ (ltn_ord a)); congr (c_Q c _ 0); exact: val_inj.
- by apply/matrixP => a z; rewrite (ord1 z) mxE; apply: (etrans (hm (CInt a) (ltn_ord a))); rewrite /= (vgetE _ (ltn_ord a)); congr (c_lq c _ 0); exact: val_inj.
- by apply/matrixP => a z; rewrite (ord1 z) mxE; apply: (etrans (hm (CEnd a) (ltn_ord a))); rewrite /= (vgetE _ (ltn_ord a)); congr (c_lce c _ 0); exact: val_inj.
move=> t i' ct kp.
have ct' : contains m' i' ((t - 0) / (c_tf c - 0)) by rewrite !subr0.
move: E; rewrite /nlpsol_to_ocpsol Nz -cE; case.
set ex := (fun t => eval _ _ _ _ _ _ (colseq Nx (s_x s) _ _) _ _).
set eu := (fun t => eval _ _ _ _ _ _ (colseq Nu _ _ _) _ _).
set el := (fun t => eval _ _ _ _ _ _ (colseq Nx (s_lam s) _ _) _ _).
set ec := (fun t => eval _ _ _ _ _ _ (colseq Ncr _ _ _) _ _) => Ec.
have xE : c_x c = ex by rewrite -Ec.
have uE : c_u c = eu by rewrite -Ec.
have lE : c_ldyn c = el by rewrite -Ec.
have rE : c_lcr c = ec by rewrite -Ec.
rewrite xE uE lE rE; split.
- rewrite /ex; apply: eval_moved kp ct'; rewrite ?xL // => i k hi hk.
  apply: (etrans (hv (QState i k) _)); [by rewrite /= hk andbT|by rewrite /= xE /ex tc xL].
- rewrite /eu; apply: eval_moved kp ct'; rewrite ?uL // => i k hi hk.
  apply: (etrans (hv (QInput i k) _)); [by rewrite /= hk andbT|by rewrite /= uE /eu tc uL].
- rewrite /el; apply: eval_moved kp ct'; rewrite ?dL // => i k hi hk.
  apply: (etrans (hm (CDyn i k) _)); [by rewrite /= hk andbT|by rewrite /= lE /el tc dL].
rewrite /ec; apply: eval_moved kp ct'; rewrite ?rL // => i k hi hk.
apply: (etrans (hm (CRun i k) _)); [by rewrite /= hk andbT|by rewrite /= rE /ec tc rL].
Qed.

(** On every mesh m' the functions agree at the nodes of m'. *)
Theorem C92_nodes (s : nlpsol F) (jx jl : nat -> F) c c' i : s_x s 0%N != 0 -> to_ocp m s = Some c ->
  to_ocp m' (to_nlp m' jx jl c) = Some c' -> let t := nth 0 (all_nodes Kmin Kmax lgr m') i * c_tf c in
  ((i <= N_colloc m')%N -> c_x c' t = c_x c t) /\
  ((i < N_colloc m')%N -> [/\ c_u c' t = c_u c t, c_ldyn c' t = c_ldyn c t & c_lcr c' t = c_lcr c t]).
Proof.
move=> t0 E E' t; have [hv hm] := C39_to_nlp k0 km Hl rm' hN' c jx jl.
have Nz : [|| Nx == 0, Nu == 0 | Ncr == 0]%N = false by move: E; rewrite /nlpsol_to_ocpsol; case: ifP.
move: (to_nlp m' jx jl c) hv hm E' => sn hv hm E'.
have tfE : s_x sn (tfvar_B Nx Nu Nq m') = c_tf c by exact: (hv QTf isT).
have cE : c_tf c = s_x s (tfvar_B Nx Nu Nq m) by move: E; rewrite /nlpsol_to_ocpsol Nz; case=> <-.
move: E'; rewrite /nlpsol_to_ocpsol Nz tfE; case=> <-.
have xL M : (xvar_L Nx Nu Nq M %/ Nx = (N_colloc M).+1)%N.
  by rewrite -[xvar_L _ _ _ _]/(Nx * (N_colloc M + 1))%N mulKn ?addn1 // lt0n; case: eqP Nz.
have uL M : (uvar_L Nx Nu Nq M %/ Nu = N_colloc M)%N.
  by rewrite -[uvar_L _ _ _ _]/(Nu * N_colloc M)%N mulKn // lt0n; case: (Nu == 0%N) Nz; rewrite ?orbT.
have dL M : (dcon_L Nx Nq Ncr Nce M %/ Nx = N_colloc M)%N.
  by rewrite -[dcon_L _ _ _ _ _]/(Nx * N_colloc M)%N mulKn // lt0n; case: eqP Nz.
have rL M : (crcon_L Nx Nq Ncr Nce M %/ Ncr = N_colloc M)%N.
  by rewrite -[crcon_L _ _ _ _ _]/(Ncr * N_colloc M)%N mulKn // lt0n; case: (Ncr == 0%N) Nz; rewrite ?orbT.
have tE : (t - 0) / (c_tf c - 0) = nth 0 (all_nodes Kmin Kmax lgr m') i by rewrite /t !subr0 mulfK // cE.
have col n (u v : 'cV[F]_n) : (forall k, (k < n)%N -> vget u k = vget v k) -> u = v.
  by move=> h; apply/matrixP => a z; rewrite (ord1 z); have := h a (ltn_ord a); rewrite !(vgetE _ (ltn_ord a));
     congr (_ = _); congr (fun_of_matrix _ _ _); exact: val_inj.
split=> hi; [|split]; apply: col => k hk; rewrite /= tE ?xL ?uL ?dL ?rL.
- rewrite (@eval_col F Kmin Kmax lgr kinc m' bis k0 km Hl Hb rm' hN' Nx _ _ i k true) //.
  by apply: (etrans (hv (QState i k) _)) => //; rewrite /= hk andbT.
- rewrite (@eval_col F Kmin Kmax lgr kinc m' bis k0 km Hl Hb rm' hN' Nu _ _ i k false) //.
  by apply: (etrans (hv (QInput i k) _)) => //; rewrite /= hk andbT.
- rewrite (@eval_col F Kmin Kmax lgr kinc m' bis k0 km Hl Hb rm' hN' Nx _ _ i k false) //.
  by apply: (etrans (hm (CDyn i k) _)) => //; rewrite /= hk andbT.
rewrite (@eval_col F Kmin Kmax lgr kinc m' bis k0 km Hl Hb rm' hN' Ncr _ _ i k false) //.
by apply: (etrans (hm (CRun i k) _)) => //; rewrite /= hk andbT.
Qed.
End Refine.

Section Refinements.
Variable F : realFieldType.
Variables (Kmin Kmax : nat) (kinc : nat -> F -> F -> nat).
Hypotheses (k0 : (0 < Kmin)%N) (km : (Kmin <= Kmax)%N).
Notation d0 := (0%N, 0 : F).
(** refine_ph does not lower the degree anywhere: the interval is not split, or it has no more than Kmin points. *)
Definition no_loss (m : seq (nat * F)) (i D : nat) : bool :=
  ((N_colloc_ival m i <= Kmin) || (D <= Kmax) && (N_colloc_ival m i <= Kmax))%N.
Lemma kept_refine_ph m i D m' i' : is_partition m -> (i < size m)%N -> no_loss m i D ->
  refine_ph Kmin Kmax i D m = Some m' -> (i' < size m')%N -> kept m m' i'.
Proof.
move=> p h nl; rewrite refine_phE // => -[<-] h'; apply: kept_replace => //.
- by rewrite /refined; case: ifP => _; [|case: ifP].
- by rewrite /refined; case: ifP => _; [|case: ifP].
have ab := partition_lt p h; rewrite /refined; case: ifP => c.
  have lK : (N_colloc_ival m i <= Kmin)%N by move: nl c; rewrite /no_loss; lia.
  rewrite /= leqnn lexx (ltW ab) /=; apply/allP => x /mapP[j]; rewrite mem_iota => hj -> /=.
  set n := n_split _ _ in hj *; rewrite lK /=.
  have n0 : 0 < n%:R :> F by rewrite ltr0n; move: hj; clear; lia.
  have d : 0 < tauf m i - tau0 m i by rewrite subr_gt0.
  rewrite ler_addl mulr_ge0 ?ler0n ?divr_ge0 ?(ltW d) ?(ltW n0) //= -ler_subr_addl mulrA ler_pdivr_mulr // mulrC.
  by rewrite ler_pmul2l // ler_nat; move: hj; clear; lia.
by case: ifP => c1; rewrite /= ?leqnn lexx (ltW ab) //= !andbT; move: c1; clear; lia.
Qed.

(** The three ways to refine that keep every interval. *)
Theorem C92_increase (m : mesh F) i' : all (fun x => x.1 <= Kmax.+1)%N m -> (i' < size m)%N -> kept m (increase_degrees Kmax m) i'.
Proof.
move=> al h; exists i'.
have n0 j : (j < size m)%N -> nth d0 (increase_degrees Kmax m) j = (minn (nth d0 m j).1.+1 Kmax.+1, (nth d0 m j).2).
  by move=> hj; rewrite (nth_map d0).
have E : tauf (increase_degrees Kmax m) i' = tauf m i'.
  by rewrite /tauf size_map; case: ifP => // hj; rewrite /tau0 n0.
rewrite /N_colloc_ival E /tau0 n0 //; split=> //=.
by rewrite leq_min leqnSn; move/allP: al; apply; exact: mem_nth.
Qed.
Lemma kept_errors target m k (errs : seq F) : is_partition m -> (k + size errs = size m)%N ->
  (forall j, (j < size errs)%N -> target < nth 0 errs j ->
     no_loss m (k + j) (N_colloc_ival m (k + j) + kinc (N_colloc_ival m (k + j)) (nth 0 errs j) target)) ->
  let M := take k m ++ flatten [seq piece Kmin Kmax kinc target m ie | ie <- zip (iota k (size errs)) errs] in
  is_partition M /\ forall i', (i' < size M)%N -> kept m M i'.
Proof.
move=> p; elim: errs k => [|e errs IH] k h nl /=.
  have -> : take k m ++ [::] = m by rewrite cats0 take_oversize //; move: h; rewrite /=; lia.
  by split=> // i' hi'; exact: kept_refl.
have hk : (k < size m)%N by rewrite -h /=; lia.
have h' : (k.+1 + size errs = size m)%N by rewrite -h /= addSnnS.
have [|pM kM] := IH k.+1 h'.
  by move=> j hj; have := nl j.+1; rewrite addnS; apply.
set rest := flatten _ in pM kM *.
set M := take k.+1 m ++ rest in pM kM.
have st : size (take k.+1 m) = k.+1 by rewrite size_takel.
have nM : nth d0 M k = nth d0 m k by rewrite /M nth_cat st ltnSn nth_take.
have hM : (k < size M)%N by rewrite /M size_cat st; lia.
have fM : tauf M k = tauf m k.
  rewrite /tauf /M size_cat st /rest; case: errs {IH rest M nM hM pM kM nl} h h' => [|e' errs] h h'.
    by rewrite /= addn0 ltnn ifN //; move: h; rewrite /=; lia.
  have [K [r E]] := piece_head Kmin Kmax kinc target m (k.+1, e'); rewrite /= E /=.
  have c1 : (k.+1 < size m)%N by rewrite -h /=; lia.
  have c2 n : (k.+1 < k.+1 + n.+1)%N by lia.
  by rewrite c1 c2 /tau0 nth_cat st ltnn subnn /=.
have dM : drop k.+1 M = rest by rewrite /M drop_cat st ltnn subnn drop0.
have tM : take k M = take k m by rewrite /M takel_cat ?st // take_take.
rewrite /piece /=; case: ifP => c; last first.
  by have -> : take k m ++ nth d0 m k :: rest = M by rewrite /M (take_nth d0) // -cats1 -catA.
have := nl 0%N isT c; rewrite addn0 /= => nl0.
have nlM : no_loss M k (N_colloc_ival m k + kinc (N_colloc_ival m k) e target) by move: nl0; rewrite /no_loss /N_colloc_ival nM.
have R : refine_ph Kmin Kmax k (N_colloc_ival m k + kinc (N_colloc_ival m k) e target) M =
  Some (take k m ++ refined Kmin Kmax (N_colloc_ival m k) (N_colloc_ival m k)
          (N_colloc_ival m k + kinc (N_colloc_ival m k) e target) (tau0 m k) (tauf m k) ++ rest).
  by rewrite refine_phE // /N_colloc_ival /tau0 nM fM dM tM.
split; first exact: (refine_partition k0 km pM R).
by move=> i' hi'; apply: kept_trans kM _; exact: (kept_refine_ph pM hM nlM R hi').
Qed.
Theorem C92_errors m errs target m' i' : is_partition m -> refine_errors Kmin Kmax kinc errs target m = Some m' ->
  (forall i, (i < size m)%N -> target < nth 0 errs i ->
     no_loss m i (N_colloc_ival m i + kinc (N_colloc_ival m i) (nth 0 errs i) target)) ->
  (i' < size m')%N -> kept m m' i'.
Proof.
move=> p R nl; have sz : size errs = size m by move: R; rewrite /refine_errors; case: eqP.
move: R; rewrite refine_errorsE // -sz => -[<-] h.
have [|_ H] := @kept_errors target m 0 errs p sz; first by move=> j hj; apply: nl; rewrite -sz.
by move: H; rewrite take0; apply.
Qed.
End Refinements.
