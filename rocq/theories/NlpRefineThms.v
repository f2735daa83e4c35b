(** Property C92: the whole trajectory after a refinement by errors; a refinement that changes the trajectory. *)
From mathcomp Require Import all_ssreflect all_algebra zify.
From mathcomp.algebra_tactics Require Import ring.
From Verif Require Import Calc QpModel QpSpec QpFacts QpLoop MeshModel MeshSpec PolyFacts MeshFacts MeshQuad MeshEval MeshProps MeshTransfer.
From Verif Require Import SparseModel SparseFacts MeshFunModel MeshFunFacts MeshFunLoops MeshFunDyn MeshFunProps MeshFunCases NlpModel NlpFacts NlpProps NlpSol NlpRefine.
Set Implicit Arguments.
Unset Strict Implicit.
Unset Printing Implicit Defensive.
Import Order.TTheory GRing.Theory Num.Theory.
Local Open Scope ring_scope.

Lemma run_rcons (F : realFieldType) Kmin Kmax kinc (om : option (mesh F)) os o m m' : mesh_run Kmin Kmax kinc om os = Some m ->
  mesh_step Kmin Kmax kinc m o = Some m' -> mesh_run Kmin Kmax kinc om (rcons os o) = Some m'.
Proof. by rewrite /mesh_run foldl_rcons => -> /= ->. Qed.
Lemma reach_step (F : realFieldType) Kmin Kmax kinc (m m' : mesh F) o : reachable Kmin Kmax kinc m ->
  mesh_step Kmin Kmax kinc m o = Some m' -> reachable Kmin Kmax kinc m'.
Proof. by move=> [om [os [c e]]] h; exists om, (rcons os o); split=> //; exact: run_rcons e h. Qed.

Section Full.
Variable F : realFieldType.
Variables Nx Nu Nq Ncr Nce : nat.
Variables (Kmin Kmax : nat) (lgr : nat -> seq F * seq F) (kinc : nat -> F -> F -> nat).
Variable bis : seq F -> F -> option nat.
Hypotheses (k0 : (0 < Kmin)%N) (km : (Kmin <= Kmax)%N).
Hypothesis Hl : forall K, (Kmin <= K <= Kmax.+1)%N -> lgr_contract K (lgr K).
Hypothesis Hb : bis_contract bis.
Local Notation to_ocp m := (nlpsol_to_ocpsol Nx Nu Nq Ncr Nce Kmin Kmax lgr m bis).
Local Notation to_nlp m := (ocpsol_to_nlpsol Kmin Kmax lgr m).
(** The functions of two solutions are the same on the horizon. *)
Definition same_sol (c c' : ocpsol F Nx Nu Nq Ncr Nce) : Prop :=
  [/\ c_tf c' = c_tf c, c_Q c' = c_Q c, c_lq c' = c_lq c, c_lce c' = c_lce c &
      forall t, 0 <= t <= c_tf c ->
        [/\ c_x c' t = c_x c t, c_u c' t = c_u c t, c_ldyn c' t = c_ldyn c t & c_lcr c' t = c_lcr c t]].

(** The refinement loop of the examples: solve on m, refine by errors, move the solution to the new mesh.  If no interval with
    more than Kmin points is split, the starting point on the new mesh describes the solution found on the old one. *)
Theorem C92_refined_partial (m m' : mesh F) errs target (s : nlpsol F) (jx jl : nat -> F) c : reachable Kmin Kmax kinc m ->
  refine_errors Kmin Kmax kinc errs target m = Some m' ->
  (forall i, (i < size m)%N -> target < nth 0 errs i ->
     no_loss Kmin Kmax m i (N_colloc_ival m i + kinc (N_colloc_ival m i) (nth 0 errs i) target)) ->
  (\sum_(i < size m) N_colloc_ival m i < uint_mod)%N -> (\sum_(i < size m') N_colloc_ival m' i < uint_mod)%N ->
  0 < s_x s 0%N -> to_ocp m s = Some c ->
  exists2 c', to_ocp m' (to_nlp m' jx jl c) = Some c' & same_sol c c'.
Proof.
move=> rm R nl h1 h2 t0 E.
have rm' : reachable Kmin Kmax kinc m' by apply: (@reach_step _ _ _ _ m m' (MErrors errs target)).
have [p r] : is_partition m /\ all (range Kmin Kmax) m by case: rm => om [os [c0 e]]; exact: (run_inv k0 km c0 e).
have [p' r'] : is_partition m' /\ all (range Kmin Kmax) m' by case: rm' => om [os [c0 e]]; exact: (run_inv k0 km c0 e).
have [c' E' [e1 e2 e3 e4 e5]] := C92_moved k0 km Hl Hb rm rm' h1 h2 jx jl (lt0r_neq0 t0) E.
exists c' => //; split=> // t /andP[ta tb].
have cE : c_tf c = s_x s 0%N by move: E; rewrite /nlpsol_to_ocpsol; case: ifP => // _ [<-].
have ct : contains m' (interval_find bis m' (t / c_tf c)) (t / c_tf c).
  apply: (find_contains Hb p'); rewrite cE in tb *; rewrite divr_ge0 ?(ltW t0) //= ler_pdivr_mulr // mul1r //.
by apply: (e5 _ _ ct); apply: (C92_errors k0 km p R nl); case: ct.
Qed.
(** Raising all degrees never changes the trajectory. *)
Theorem C92_increased (m : mesh F) (s : nlpsol F) (jx jl : nat -> F) c : reachable Kmin Kmax kinc m ->
  let m' := increase_degrees Kmax m in
  (\sum_(i < size m) N_colloc_ival m i < uint_mod)%N -> (\sum_(i < size m') N_colloc_ival m' i < uint_mod)%N ->
  0 < s_x s 0%N -> to_ocp m s = Some c ->
  exists2 c', to_ocp m' (to_nlp m' jx jl c) = Some c' & same_sol c c'.
Proof.
move=> rm m' h1 h2 t0 E.
have rm' : reachable Kmin Kmax kinc m' by apply: (@reach_step _ _ _ _ m m' (MInc _)).
have [p r] : is_partition m /\ all (range Kmin Kmax) m by case: rm => om [os [c0 e]]; exact: (run_inv k0 km c0 e).
have [p' r'] : is_partition m' /\ all (range Kmin Kmax) m' by case: rm' => om [os [c0 e]]; exact: (run_inv k0 km c0 e).
have [c' E' [e1 e2 e3 e4 e5]] := C92_moved k0 km Hl Hb rm rm' h1 h2 jx jl (lt0r_neq0 t0) E.
exists c' => //; split=> // t /andP[ta tb].
have cE : c_tf c = s_x s 0%N by move: E; rewrite /nlpsol_to_ocpsol; case: ifP => // _ [<-].
have ct : contains m' (interval_find bis m' (t / c_tf c)) (t / c_tf c).
  apply: (find_contains Hb p'); rewrite cE in tb *; rewrite divr_ge0 ?(ltW t0) //= ler_pdivr_mulr // mul1r //.
apply: (e5 _ _ ct); apply: C92_increase.
  by apply: sub_all r => x /andP[].
by case: ct; rewrite size_map.
Qed.
End Full.

(** The trajectory changes if an interval with more than Kmin points is split: x(t) = t^2 with two points, Kmin = Kmax = 1. *)
Section Refuted.
Local Notation Q := [realFieldType of rat].
Definition rf_m : mesh Q := [:: (2%N, 0)].
Definition rf_m' : mesh Q := [:: (2%N, 0); (1%N, 1 / 3%:Q); (1%N, 2%:Q / 3%:Q)].
Lemma rf_reach : reachable 1 1 ex_kinc rf_m.
Proof. by exists (mesh_new Q 1 1 1 2), [::]; split=> //; right; exists 1%N, 2%N. Qed.
Lemma rf_refine : refine_errors 1 1 ex_kinc [:: 1] 0 rf_m = Some rf_m'.
Proof. by vm_compute. Qed.
Lemma rf_reach' : reachable 1 1 ex_kinc rf_m'.
Proof. exact: (@reach_step _ _ _ _ rf_m rf_m' (MErrors [:: 1] 0) rf_reach rf_refine). Qed.
(** tf = 1, q = 0, x = 0, 4/9, 1 at the nodes 0, 2/3, 1. *)
Definition rf_s : nlpsol Q := NlpSol (fun i => if i == 0%N then 1 else if i == 3%N then 4%:Q / 9%:Q else if i == 4%N then 1 else 0)
  (fun=> 0) (fun=> 0) (fun=> 0).
Local Notation to_ocp m := (nlpsol_to_ocpsol 1 1 1 1 1 1 1 ex_lgr m ex_bis).
Local Notation to_nlp m := (ocpsol_to_nlpsol 1 1 ex_lgr m).
Lemma small n : (n < 5)%N -> (n < uint_mod)%N.
Proof. by move=> h; apply: leq_trans h _; apply: (@leq_trans (2 ^ 3)) => //; rewrite leq_exp2l. Qed.
Lemma rf_hN : (\sum_(i < size rf_m) N_colloc_ival rf_m i < uint_mod)%N.
Proof. by rewrite big_ord1; exact: small. Qed.
Lemma rf_hN' : (\sum_(i < size rf_m') N_colloc_ival rf_m' i < uint_mod)%N.
Proof. by rewrite !big_ord_recl big_ord0; exact: small. Qed.
Lemma rf_N : N_colloc rf_m = 2%N.
Proof. by have [_ /(_ rf_hN) -> _] := C26_N_colloc_partial rf_m; rewrite big_ord1. Qed.
Lemma rf_N' : N_colloc rf_m' = 4%N.
Proof. by have [_ /(_ rf_hN') -> _] := C26_N_colloc_partial rf_m'; rewrite !big_ord_recl big_ord0. Qed.
Lemma rf_x c t : to_ocp rf_m rf_s = Some c -> 0 <= t <= 1 -> c_x c t = const_mx (t ^+ 2).
Proof.
rewrite /nlpsol_to_ocpsol => -[<-] /andP[ta tb]; cbv beta iota zeta delta [c_x].
rewrite -[xvar_L _ _ _ _]/(1 * (N_colloc rf_m + 1))%N rf_N -[(1 * (2 + 1) %/ 1)%N]/3%N.
rewrite !subr0 divr1.
rewrite (@C23_eval_polynomial Q 1 1 ex_lgr ex_bis ex_kinc ex_lgr_contract ex_bis_contract _ rf_m _ 1 (fun _ _ => 'X ^+ 2) (fun _ _ => const_mx 1) 0 t) //.
- by rewrite big_ord1 hornerXn; apply/matrixP => a z; rewrite !mxE mulr1.
- exact: rf_reach.
- by move=> i l; case: i => // _; rewrite size_polyXn.
- case=> // j _; rewrite big_ord1 hornerXn -[N_before _ _]/0%N add0n.
  by case: j => [|[|[|//]]] _; apply/matrixP => a z; rewrite !mxE (ord1 a); apply/eqP.
Qed.
Lemma rf_mid sn c' : to_ocp rf_m' sn = Some c' -> s_x sn 0%N = 1 ->
  c_x c' (1 / 2%:Q) = (1 / 2%:Q) *: (c_x c' (1 / 3%:Q) + c_x c' (2%:Q / 3%:Q)).
Proof.
rewrite /nlpsol_to_ocpsol => -[<-]; cbv beta iota zeta delta [c_x]; rewrite -[tfvar_B _ _ _ _]/0%N => ->.
rewrite -[xvar_L _ _ _ _]/(1 * (N_colloc rf_m' + 1))%N rf_N' -[(1 * (4 + 1) %/ 1)%N]/5%N !subr0 !divr1.
have [p' r'] : is_partition rf_m' /\ all (range 1 1) rf_m'.
  by case: rf_reach' => om [os [c0 e]]; exact: (run_inv (isT : (0 < 1)%N) (leqnn 1) c0 e).
have ec t : tau0 rf_m' 1 <= t <= tauf rf_m' 1 -> eval 1 1 ex_lgr ex_bis rf_m' t (colseq 1 (s_x sn) 2 5) 0 true =
    (lagrange (eval_nodes ex_lgr rf_m' true 1) 0).[uu rf_m' 1 t] *: nth 0 (colseq 1 (s_x sn) 2 5) 2 +
    (lagrange (eval_nodes ex_lgr rf_m' true 1) 1).[uu rf_m' 1 t] *: nth 0 (colseq 1 (s_x sn) 2 5) 3.
  move=> ht; rewrite (eval_closed (isT : (0 < 1)%N) ex_lgr_contract ex_bis_contract p' r' _ _ ht) //.
  by rewrite big_ord_recl big_ord1.
rewrite -[xvar_B _ _ _ _]/2%N !ec //; move: (nth 0 _ 2) (nth 0 _ 3) => a b.
have l0 t : (lagrange (eval_nodes ex_lgr rf_m' true 1) 0).[t] = (1 - t) / 2%:R.
  rewrite /lagrange hornerZ horner_prod /others /= !big_cons !big_nil hornerXsubC !mulr1.
  by rewrite -[-1 - 1]/(- 2%:R : Q) invrN mulNr mulrC -mulNr opprB.
have l1 t : (lagrange (eval_nodes ex_lgr rf_m' true 1) 1).[t] = (1 + t) / 2%:R.
  rewrite /lagrange hornerZ horner_prod /others /= !big_cons !big_nil hornerXsubC !mulr1.
  by rewrite mulrC opprK addrC.
have [u1 u2 u3] : [/\ uu rf_m' 1 (1 / 2%:Q) = 0, uu rf_m' 1 (1 / 3%:Q) = -1 & uu rf_m' 1 (2%:Q / 3%:Q) = 1].
  by split; apply/eqP.
rewrite u1 u2 u3 !l0 !l1.
have [v1 v2 v3] : [/\ (1 - 0) / 2%:R = 1 / 2%:Q, (1 - -1) / 2%:R = 1 :> Q & (1 + -1) / 2%:R = 0 :> Q] by split; apply/eqP.
have [v4 v5 v6] : [/\ (1 + 0) / 2%:R = 1 / 2%:Q, (1 - 1) / 2%:R = 0 :> Q & (1 + 1) / 2%:R = 1 :> Q] by split; apply/eqP.
by rewrite ?v1 ?v2 ?v3 ?v5 ?v6 ?v4 !scale0r addr0 add0r !scale1r scalerDr.
Qed.
(** The full statement: for every refinement by errors the moved solution is the same function.  It is false. *)
Theorem C92_refined_refuted :
  exists (m m' : mesh Q) errs target (s : nlpsol Q) jx jl c c',
    [/\ reachable 1 1 ex_kinc m, refine_errors 1 1 ex_kinc errs target m = Some m', 0 < s_x s 0%N,
        to_ocp m s = Some c & to_ocp m' (to_nlp m' jx jl c) = Some c'] /\
    exists2 t, 0 <= t <= c_tf c & c_x c' t <> c_x c t.
Proof.
have [c E] : exists c, to_ocp rf_m rf_s = Some c by rewrite /nlpsol_to_ocpsol; eexists.
have [c' E' [e1 _ _ _ _]] := C92_moved (isT : (0 < 1)%N) (leqnn 1) ex_lgr_contract ex_bis_contract rf_reach rf_reach' rf_hN rf_hN'
  (fun=> 0) (fun=> 0) (isT : s_x rf_s 0%N != 0) E.
exists rf_m, rf_m', [:: 1], 0, rf_s, (fun=> 0), (fun=> 0), c, c'; split; first by split=> //; exact: rf_reach.
have cE : c_tf c = 1 by move: E; rewrite /nlpsol_to_ocpsol => -[<-].
exists (1 / 2%:Q); first by rewrite cE.
rewrite (rf_x E) // => h.
have N1 i := @C92_nodes Q 1 1 1 1 1 1 1 ex_lgr ex_kinc rf_m rf_m' ex_bis (isT : (0 < 1)%N) (leqnn 1) ex_lgr_contract ex_bis_contract
  rf_reach' rf_hN' rf_s (fun=> 0) (fun=> 0) c c' i isT E E'.
have := (N1 2%N).1; rewrite rf_N' cE mulr1 => /(_ isT).
rewrite (_ : nth 0 _ 2 = 1 / 3%:Q); last by apply/eqP.
rewrite (rf_x E) // => n2; have := (N1 3%N).1; rewrite rf_N' cE mulr1 => /(_ isT).
rewrite (_ : nth 0 _ 3 = 2%:Q / 3%:Q); last by apply/eqP.
rewrite (rf_x E) // => n3; move: h; rewrite (rf_mid E') ?n2 ?n3; last by rewrite -cE.
by move=> /matrixP /(_ 0 0); rewrite !mxE => /eqP h; have := h; vm_compute.
Qed.
(** A case of C92_refined_partial and of C92_moved: the mesh [0,1) with one point is split in two; x(t) = t. *)
Definition rg_m : mesh Q := [:: (1%N, 0)].
Definition rg_s : nlpsol Q := NlpSol (fun i => if i == 0%N then 2%:Q else if i == 3%N then 1 else 0) (fun=> 0) (fun=> 1) (fun=> 0).
Lemma rg_reach : reachable 1 1 ex_kinc rg_m.
Proof. by exists (mesh_new Q 1 1 1 1), [::]; split=> //; right; exists 1%N, 1%N. Qed.
Example C92_case : exists m' c c', [/\ refine_errors 1 1 ex_kinc [:: 1] 0 rg_m = Some m', m' <> rg_m,
   to_ocp rg_m rg_s = Some c, to_ocp m' (to_nlp m' (fun=> 0) (fun=> 0) c) = Some c' & same_sol c c'].
Proof.
have [m' R n] : exists2 m', refine_errors 1 1 ex_kinc [:: 1] 0 rg_m = Some m' & m' = [:: (1%N, 0); (1%N, 1 / 2%:Q)].
  by eexists; [vm_compute; reflexivity|vm_compute].
have [c E] : exists c, to_ocp rg_m rg_s = Some c by rewrite /nlpsol_to_ocpsol; eexists.
have [||||c' E' S] := @C92_refined_partial Q 1 1 1 1 1 1 1 ex_lgr ex_kinc ex_bis (isT : (0 < 1)%N) (leqnn 1) ex_lgr_contract
  ex_bis_contract rg_m m' [:: 1] 0 rg_s (fun=> 0) (fun=> 0) c rg_reach R _ _ _ _ E.
- by case=> // _ _; vm_compute.
- by rewrite big_ord1; exact: small.
- by rewrite n !big_ord_recl big_ord0; exact: small.
- by [].
by exists m', c, c'; split=> //; rewrite n.
Qed.
(** A case of C92_increased. *)
Example C92_increased_case : exists c c', [/\ to_ocp rg_m rg_s = Some c, increase_degrees 1 rg_m = rf_m,
   to_ocp rf_m (to_nlp rf_m (fun=> 0) (fun=> 0) c) = Some c' & same_sol c c'].
Proof.
have [c E] : exists c, to_ocp rg_m rg_s = Some c by rewrite /nlpsol_to_ocpsol; eexists.
have [||| c' E' S] := @C92_increased Q 1 1 1 1 1 1 1 ex_lgr ex_kinc ex_bis (isT : (0 < 1)%N) (leqnn 1) ex_lgr_contract
  ex_bis_contract rg_m rg_s (fun=> 0) (fun=> 0) c rg_reach _ _ _ E.
- by rewrite big_ord1; exact: small.
- by rewrite big_ord1; exact: small.
- by [].
by exists c, c'; split.
Qed.
End Refuted.
Print Assumptions C92_moved.
Print Assumptions C92_nodes.
Print Assumptions C92_refined_partial.
Print Assumptions C92_increased.
Print Assumptions C92_refined_refuted.
