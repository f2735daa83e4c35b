(** Property C44, and concrete cases and counterexamples for C40-C43. *)
From mathcomp Require Import all_ssreflect all_algebra zify.
From mathcomp.algebra_tactics Require Import ring.
From Verif Require Import Calc QpModel QpSpec MeshModel MeshSpec PolyFacts MeshFacts MeshQuad MeshEval MeshProps.
From Verif Require Import SparseModel SparseFacts MeshFunModel MeshFunFacts MeshFunLoops MeshFunDyn MeshFunProps MeshFunTraj MeshFunCases NlpModel NlpFacts NlpProps NlpSol.
From Verif Require Import OqpModel OqpFacts OqpProps OqpCost.
Set Implicit Arguments.
Unset Strict Implicit.
Unset Printing Implicit Defensive.
Import Order.TTheory GRing.Theory Num.Theory.
Local Open Scope ring_scope.
Local Arguments muln : simpl never.

(** * C44 *)
Section Sol.
Variable F : realFieldType.
Variables Nx Nu : nat.
Variables (Kmin Kmax : nat) (lgr : nat -> seq F * seq F) (kinc : nat -> F -> F -> nat) (m : mesh F).
Variable bis : seq F -> F -> option nat.
Hypotheses (k0 : (0 < Kmin)%N) (km : (Kmin <= Kmax)%N).
Hypothesis Hl : forall K, (Kmin <= K <= Kmax.+1)%N -> lgr_contract K (lgr K).
Hypothesis Hb : bis_contract bis.
Hypothesis rm : reachable Kmin Kmax kinc m.
Hypothesis hN : (\sum_(i < size m) N_colloc_ival m i < uint_mod)%N.
Local Notation N := (N_colloc m).
Variables (X U : Type) (rplusX : X -> 'cV[F]_Nx -> X) (rplusU : U -> 'cV[F]_Nu -> U).
Local Notation tm tf i := (time Kmin Kmax lgr m tf i).
Lemma tmE tf i : tf != 0 -> (tm tf i - 0) / (tf - 0) = nth 0 (all_nodes Kmin Kmax lgr m) i.
Proof. by move=> h; rewrite !subr0 /time mulrAC divff // mul1r. Qed.
(** The state trajectory passes at all N + 1 nodes, and the input trajectory at the N collocation points, through the
    reference plus the corresponding block of the primal solution. *)
Theorem C44_nodes xl ul tf (primal : nat -> F) i : tf != 0 ->
  ((i <= N)%N -> sol_x Kmin Kmax lgr m rplusX bis xl tf primal (tm tf i) =
     rplusX (xl (tm tf i)) (\col_k dx_of Nx primal i k)) /\
  ((i < N)%N -> sol_u Nx Kmin Kmax lgr m rplusU bis ul tf primal (tm tf i) =
     rplusU (ul (tm tf i)) (\col_k du_of Nx Nu m primal i k)).
Proof.
move=> h; rewrite /sol_x /sol_u tmE //; split=> hi; [congr rplusX|congr rplusU]; apply/matrixP => k j; rewrite (ord1 j) mxE.
  have := @eval_col F Kmin Kmax lgr kinc m bis k0 km Hl Hb rm hN Nx primal 0 i k true (N + 1) (ltn_ord k).
  rewrite (vgetE _ (ltn_ord k)) /dx_of add0n => <- //; last by rewrite addn1.
  by congr (_ _ 0); apply: ord_inj.
have := @eval_col F Kmin Kmax lgr kinc m bis k0 km Hl Hb rm hN Nu primal (qxvar_L Nx m) i k false N (ltn_ord k).
rewrite (vgetE _ (ltn_ord k)) /du_of -addnA => <- //.
by congr (_ _ 0); apply: ord_inj.
Qed.
End Sol.

Section Cases.
Local Notation Q := [realFieldType of rat].
Local Notation m := ex_m.
Local Notation ne := (1 + 2 * 1 + 1)%N.
(** Functions of one coordinate of the end point. *)
Lemma single_derivs (k : 'I_ne) (g g1 g2 : Q -> Q) (df d2f : 'cV[Q]_ne -> smat Q) :
  (forall x, deriv g x (g1 x)) -> (forall x, deriv g1 x (g2 x)) ->
  (forall z a, val (df z) 0 a = if a == k then g1 (z k 0) else 0) ->
  (forall z a b, (b < ne)%N -> val (d2f z) a b = if (a == k :> nat) && (b == k :> nat) then g2 (z k 0) else 0) ->
  end_derivs 1 (fun z _ => g (z k 0)) df d2f.
Proof.
move=> h1 h2 e1 e2; split=> [z [|//] a _|z [|//] a b _]; rewrite /partial.
  rewrite e1 val_eqE; case: (eqVneq a k) => [->|ne].
    by apply: deriv_ext (h1 _) => s; rewrite mxE eqxx.
  by apply: deriv_ext (deriv_const (g (z k 0)) _) => s; rewrite mxE eq_sym (negbTE ne).
rewrite muln0 add0n e2 //; case: (eqVneq (a : nat) k) => [ak|ne] /=; last first.
  by apply: deriv_ext (deriv_const 0 _) => s; rewrite e1 (negbTE ne).
case: (eqVneq (b : nat) k) => [bk|ne]; last first.
  apply: deriv_ext (deriv_const (g1 (z k 0)) _) => s; rewrite e1 ak eqxx mxE -val_eqE /= eq_sym (negbTE ne) //.
have -> : b = k by apply: ord_inj.
by apply: deriv_ext (h2 _) => s; rewrite e1 ak eqxx mxE eqxx.
Qed.
Lemma deriv_sq (x : Q) : deriv (fun s => s * s) x (2%:R * x).
Proof. by apply: deriv_eq (deriv_mul (deriv_id x) (deriv_id x)); rewrite mul1r mulr1 mulr_natl. Qed.
Lemma deriv_2 (x : Q) : deriv (fun s => 2%:R * s) x 2%:R.
Proof. by rewrite -[X in deriv _ _ X]mulr1; apply: deriv_scale; exact: deriv_id. Qed.
(** Integrand, dynamics and running constraint u x; no other terms than theta or ce with coordinate k of
    (tf, x0, xf, q). *)
Definition one_d (k : 'I_ne) (g : Q -> Q) (z : 'cV[Q]_ne) : smat Q := fun r c => if c == k then Some (g (z k 0)) else None.
Definition one_d2 (k : 'I_ne) (g : Q -> Q) (z : 'cV[Q]_ne) : smat Q :=
  fun a b => if (a == k :> nat) && (b == k :> nat) then Some (g (z k 0)) else None.
Definition one_ocp (k : 'I_ne) (g g1 g2 : Q -> Q) : ocp Q 1 1 1 1 1 :=
  @Ocp Q 1 1 1 1 1 (fun z => g (z k 0)) (one_d k g1) (one_d2 k g2) ex_fv ex_df ex_d2f ex_fv ex_df ex_d2f ex_fv ex_df ex_d2f
      (fun=> Fin (-1)) (fun=> Fin 1) (fun z _ => exo_e z) exo_de exo_d2e (fun=> Fin 0) (fun=> PosInf).
Lemma one_derivs k g g1 g2 : (forall x, deriv g x (g1 x)) -> (forall x, deriv g1 x (g2 x)) -> ocp_derivs (one_ocp k g g1 g2).
Proof.
move=> h1 h2; have d := ex_derivs; have e := exo_derivs; split=> //=.
by apply: (single_derivs h1 h2) => [z a|z a b _]; rewrite /val /one_d /one_d2; case: ifP.
Qed.
Let o k : 'I_ne := inord k.
Definition p_q := one_ocp (o 3) id (fun=> 1) (fun=> 0).
Definition p_q2 := one_ocp (o 3) (fun s => s * s) (fun s => 2%:R * s) (fun=> 2%:R).
Definition p_xf2 := one_ocp (o 2) (fun s => s * s) (fun s => 2%:R * s) (fun=> 2%:R).
Lemma p_q_derivs : ocp_derivs p_q. Proof. by apply: one_derivs => x; [exact: deriv_id|exact: deriv_const]. Qed.
Lemma p_q2_derivs : ocp_derivs p_q2. Proof. by apply: one_derivs => x; [exact: deriv_sq|exact: deriv_2]. Qed.
Lemma p_xf2_derivs : ocp_derivs p_xf2. Proof. by apply: one_derivs => x; [exact: deriv_sq|exact: deriv_2]. Qed.
Lemma o3 (l : 'I_ne) : l = (1 + 2 * 1)%N :> nat -> l = o 3. Proof. by move=> e; apply: ord_inj; rewrite inordK. Qed.
Lemma p_q_lin : linear_in_integral p_q 1.
Proof. by move=> x l q /o3 -> /=; rewrite mxE eqxx mul1r addrC subrK. Qed.
Lemma p_xf2_lin : linear_in_integral p_xf2 0.
Proof. by move=> x l q /o3 -> /=; rewrite mxE mul0r addr0 -val_eqE /= !inordK. Qed.
Local Notation upd p tf xl dxl ul := (@oqp_update Q 1 1 1 1 p 1 1 ex_lgr m tf xl dxl ul).
Local Notation hist := (@history Q 1 1 1 1 1 1 ex_lgr m).
Local Notation obj p tf xl ul := (@objective Q 1 1 1 1 1 1 ex_lgr m p tf xl ul).
Lemma ex_w : all_weights 1 1 ex_lgr m = [:: 1 / 4%:Q; 1 / 4%:Q; 1 / 2%:Q; 0]. Proof. by []. Qed.
Lemma ex_nodes : all_nodes 1 1 ex_lgr m = [:: 0; 1 / 4%:Q; 1 / 2%:Q; 1]. Proof. by []. Qed.
Lemma nvE : (1 * (N_colloc m + 1) + 1 * N_colloc m)%N = 7%N. Proof. by rewrite ex_N. Qed.
Lemma alloc_A (p : ocp Q 1 1 1 1 1) s : oA (oqp_allocate p 1 1 ex_lgr m s) = @empty Q. Proof. by []. Qed.
Local Opaque mesh_integrate mesh_eval oqp_update oqp_allocate N_colloc all_nodes all_weights.
(** theta = xf^2 has the second derivative 2; the matrix P contains 1. *)
Theorem C41_hessian_refuted : exists (p : ocp Q 1 1 1 1 1) k (c : nat), [/\ ocp_derivs p, linear_in_integral p k, (c < 7)%N &
  forall P s tf xl dxl ul, hist P s -> ~ hessn (obj p tf xl ul) (fun=> 0) c c (val (oP (upd p tf xl dxl ul s)) c c)].
Proof.
exists p_xf2, 0, 3%N; split=> //; [exact: p_xf2_derivs|exact: p_xf2_lin|] => P s tf xl dxl ul hs.
have h3 : (3 < 1 * (N_colloc m + 1) + 1 * N_colloc m)%N by rewrite nvE.
rewrite cost_P // leqnn => H.
have /(hessn_uniq H) : hessn (obj p_xf2 tf xl ul) (fun=> 0) 3 3 2%:R.
  have E z : obj p_xf2 tf xl ul z = (vget (xl tf) 0 + z 3%N) * (vget (xl tf) 0 + z 3%N).
    by rewrite /objective /= !mxE !inordK //= /dx_of ex_N.
  have dd (w : nat -> Q) : deriv (fun s => vget (xl tf) 0 + setn w 3 s 3) (w 3%N) 1.
    by apply: (deriv_ext (f := fun s => vget (xl tf) 0 + 1 * s)); [move=> r; rewrite mul1r|exact: deriv_line].
  apply: (hessn_ext (P := fun z => (vget (xl tf) 0 + z 3%N) * (vget (xl tf) 0 + z 3%N))); first by move=> z; rewrite E.
  exists (fun z => 2%:R * (vget (xl tf) 0 + z 3%N)) => [w|].
    apply: deriv_eq (deriv_mul (dd w) (dd w)); rewrite /setn eqxx mul1r mulr1; ring.
  by apply: deriv_eq (deriv_scale 2%:R (dd (fun=> 0))); rewrite mulr1.
have -> : val (dtheta p_xf2 (qend tf xl)) 0 (1 + 2 * 1) = 0 by rewrite /val /= /one_d inordK.
have -> : val (d2theta p_xf2 (qend tf xl)) (1 + 1 + (3 - 1 * N_colloc m)) (1 + 1 + (3 - 1 * N_colloc m)) = 2%:R.
  by rewrite ex_N /val /= /one_d2 inordK.
rewrite mul0r add0r /inN /in0 /inr ex_N.
by move/eqP.
Qed.
Lemma fnode tf xl ul z i : ex_fv (node_z 1 1 ex_lgr m tf xl ul z i) 0 =
  @pt_u Q 1 1 1 1 ex_lgr m tf ul z i 0 * pt_x 1 1 ex_lgr m tf xl z i 0.
Proof. by rewrite /ex_fv !mxE !inordK. Qed.
Lemma vconst n (a : Q) k : (k < n)%N -> vget (const_mx a : 'cV[Q]_n) k = a.
Proof. by move=> h; rewrite (vgetE _ h) mxE. Qed.
(** theta = q^2, reference x = 1, u = 0: the integral is zero and so is the gradient of its square; the entry for u_0 is not. *)
Theorem C41_gradient_refuted : exists (p : ocp Q 1 1 1 1 1) (c : nat) tf xl dxl ul, [/\ ocp_derivs p, (c < 7)%N &
  forall s, ~ partialn (obj p tf xl ul) (fun=> 0) c (oq (upd p tf xl dxl ul s) c)].
Proof.
exists p_q2, 4%N, 1, (fun=> const_mx 1), (fun _ _ => 0), (fun=> const_mx 0); split=> //; first exact: p_q2_derivs.
move=> s; have h4 : (4 < 1 * (N_colloc m + 1) + 1 * N_colloc m)%N by rewrite nvE.
rewrite cost_q // /in0 /inN /inr ex_N /= !addr0.
set I := @integral Q 1 1 1 1 1 1 ex_lgr m p_q2 1 (fun=> const_mx 1) (fun=> const_mx 0).
have IE r : I (setn (fun=> 0) 4 r) = 1 / 4%:Q * r.
  rewrite /I /integral ex_N ex_w !big_ord_recl big_ord0 -[intv p_q2]/ex_fv !fnode /pt_u /pt_x !vconst //.
  rewrite /dx_of /du_of ex_N /setn [nth]lock /= -lock !addr0 !add0r; by rewrite mul1r mulr1.
have dI : deriv (fun r => I (setn (fun=> 0) 4 r)) 0 (1 / 4%:Q).
  apply: (deriv_ext (f := fun r => 1 / 4%:Q * r)); first by move=> r; rewrite IE.
  by rewrite -[X in deriv _ _ X]mulr1; apply: deriv_scale; exact: deriv_id.
rewrite -(deriv_uniq dI (@integral_grad Q 1 1 1 1 1 1 ex_lgr ex_kinc m isT isT ex_reach ex_hN p_q2 1 (fun=> const_mx 1) (fun=> const_mx 0) s 4 p_q2_derivs)).
have dO : partialn (obj p_q2 1 (fun=> const_mx 1) (fun=> const_mx 0)) (fun=> 0) 4 0.
  apply: (deriv_ext (f := fun r => I (setn (fun=> 0) 4 r) * I (setn (fun=> 0) 4 r))).
    by move=> r; rewrite /objective /= !mxE !inordK.
  by apply: deriv_eq (deriv_mul dI dI); rewrite IE !(mulr0, mul0r) addr0.
move=> /(deriv_uniq dO); rewrite /one_d /val /= !mxE !inordK //=.
Qed.
(** ce = x0 q >= 0, reference x = 1, u = -1, with integral -1: the linearized constraint, at deviation zero, is violated;
    the row of the quadratic program holds. *)
Theorem C42_end_refuted : exists (p : ocp Q 1 1 1 1 1) tf xl dxl ul z, [/\ ocp_derivs p,
  (forall r, (6 <= r < 7)%N -> row_holds 1 1 m (ocp_to_qp p 1 1 ex_lgr m tf xl dxl ul) z r) &
  ~ end_rows_hold m p tf xl (integral 1 1 ex_lgr m p tf xl ul (fun=> 0)) z].
Proof.
exists ex_ocp, 1, (fun=> const_mx 1), (fun _ _ => 0), (fun=> const_mx (-1)), (fun=> 0); split; first exact: ex_ocp_derivs.
  have cov := @covered_new Q 1 1 1 1 1 1 ex_lgr m ex_ocp 1 (fun=> const_mx 1) (Qpst (@empty Q) (fun=> 0) (@empty Q) (fun=> Fin 0) (fun=> Fin 0) (MVal false (fun=> 0) (@empty Q) (@empty Q) (fun=> 0)) (MVal false (fun=> 0) (@empty Q) (@empty Q) (fun=> 0))).
  have [_] := @end_rows Q 1 1 1 1 1 1 ex_lgr ex_kinc m isT isT ex_reach ex_hN ex_ocp 1 (fun=> const_mx 1) (fun _ _ => 0) (fun=> const_mx (-1)) _ (fun=> 0) cov.
  rewrite ex_N; apply=> j hj /=; rewrite !big_ord1 /dx_of !mulr0 !addr0 /= /exo_e !mxE !inordK //= !vconst //.
have -> : integral 1 1 ex_lgr m ex_ocp 1 (fun=> const_mx 1) (fun=> const_mx (-1)) (fun=> 0) = -1.
  rewrite /integral ex_N ex_w !big_ord_recl big_ord0 -[intv ex_ocp]/ex_fv !fnode /pt_u /pt_x !vconst // /dx_of /du_of !addr0.
move=> /(_ 0%N isT) /=; rewrite !big_ord1 /dx_of !mulr0 !addr0 /= /exo_e !mxE !inordK //= !vconst //.
Qed.
(** ce = x0^2, with a Jacobian that stores its entry only where it is not zero: after a reference with x0 = 1 the entry
    2 remains in the program for a reference with x0 = 0. *)
Definition pr_d (z : 'cV[Q]_ne) : smat Q :=
  fun r c => if (c == 1%N) && (z (o 1) 0 != 0) then Some (2%:R * z (o 1) 0) else None.
Definition p_pr : ocp Q 1 1 1 1 1 :=
  @Ocp Q 1 1 1 1 1 exo_e exo_de exo_d2e ex_fv ex_df ex_d2f ex_fv ex_df ex_d2f ex_fv ex_df ex_d2f
      (fun=> Fin (-1)) (fun=> Fin 1) (fun z _ => z (o 1) 0 * z (o 1) 0) pr_d (one_d2 (o 1) (fun=> 2%:R)) (fun=> Fin 0) (fun=> PosInf).
Lemma p_pr_derivs : ocp_derivs p_pr.
Proof.
have d := ex_derivs; have e := exo_derivs; split=> //=.
apply: (@single_derivs (o 1) (fun s => s * s) _ _ _ _ deriv_sq deriv_2) => [z a|z a b _]; rewrite /val /pr_d /one_d2 ?inordK //.
  by case: eqP => //= _; case: eqP => //= ->; rewrite mulr0.
by case: ifP.
Qed.
Theorem C43_update_refuted : exists (p : ocp Q 1 1 1 1 1) tf xl dxl ul (s : qpst Q), [/\ ocp_derivs p, hist (fun=> True) s &
  val (oA (upd p tf xl dxl ul s)) 6 0 <> val (oA (ocp_to_qp p 1 1 ex_lgr m tf xl dxl ul)) 6 0].
Proof.
pose w0 := MVal false (fun=> 0) (@empty Q) (@empty Q) (fun=> 0).
pose s0 := Qpst (@empty Q) (fun=> 0) (@empty Q) (fun=> Fin 0) (fun=> Fin 0) w0 w0.
pose s1 := upd p_pr 1 (fun=> const_mx 1) (fun _ _ => 0) (fun=> const_mx 0) (oqp_allocate p_pr 1 1 ex_lgr m s0).
exists p_pr, 1, (fun=> const_mx 0), (fun _ _ => 0), (fun=> const_mx 0), s1; split; first exact: p_pr_derivs.
  by apply: HUpd => //; exact: HAlloc.
have R xl s : oA (upd p_pr 1 xl (fun _ _ => 0) (fun=> const_mx 0) s) 6%N 0%N =
   if pr_d (qend 1 xl) 0%N 1%N is Some x then Some x else oA s 6%N 0%N.
  have [+ _ _] := @ce_row Q 1 1 1 1 1 1 ex_lgr m isT isT ex_hN p_pr 1 xl (fun _ _ => 0) (fun=> const_mx 0) s 0%N 0%N isT isT.
  by rewrite /inr ex_N.
have E a : pr_d (qend 1 (fun=> const_mx a)) 0%N 1%N = if a != 0 then Some (2%:R * a) else None.
  by rewrite /pr_d /= !mxE !inordK //= vconst.
have E0 : pr_d (qend 1 (fun=> const_mx 0)) 0%N 1%N = None by rewrite E eqxx.
have E1 : pr_d (qend 1 (fun=> const_mx 1)) 0%N 1%N = Some 2%:R by rewrite E oner_eq0 mulr1.
have V A B x y : A = x -> B = y -> (if x is Some a then a else 0) <> (if y is Some a then a else 0) :> Q -> (if A is Some a then a else 0) <> (if B is Some a then a else 0) by move=> -> ->.
have F1 : oA (upd p_pr 1 (fun=> const_mx 0) (fun _ _ => 0) (fun=> const_mx 0) (oqp_allocate p_pr 1 1 ex_lgr m s0)) 6%N 0%N = None.
  by apply: (etrans (R _ _)); rewrite E0; exact: (congr1 (fun f => f 6%N 0%N) (alloc_A p_pr s0)).
have F3 : oA s1 6%N 0%N = Some 2%:R by apply: (etrans (R _ _)); rewrite E1.
have F2 : oA (upd p_pr 1 (fun=> const_mx 0) (fun _ _ => 0) (fun=> const_mx 0) s1) 6%N 0%N = Some 2%:R.
  by apply: (etrans (R _ _)); rewrite E0.
apply: (V _ _ _ _ F2 F1).
by move/eqP.
Qed.

(** * Concrete cases *)
(** Dynamics u x around x = 1, u = 0: the deviation dx = t, du = 1 satisfies the dynamics rows. *)
Definition ez (c : nat) : Q := if (c < 4)%N then nth 0 [:: 0; 1 / 4%:Q; 1 / 2%:Q; 1] c else 1.
Example C40_case s r : (r < 3)%N -> row_holds 1 1 m (upd p_q 1 (fun=> const_mx 1) (fun _ _ => 0) (fun=> const_mx 0) s) ez r.
Proof.
have [_ H] := @C40_update Q 1 1 1 1 p_q 1 1 ex_lgr ex_kinc m isT isT ex_lgr_contract ex_reach ex_hN 1 (fun=> const_mx 1) (fun _ _ => 0) (fun=> const_mx 0) s ez.
move=> hr; apply: H; last by rewrite ex_N.
move=> I j k hI hj; case: k => // _; rewrite /lin_colloc /lin_dyn !big_ord1.
have [_ /(_ 'X)] := @C22_diffmat_intmat Q 1 1 ex_lgr ex_kinc ex_lgr_contract m I isT isT ex_reach hI.
case; first by rewrite size_polyX; move: hI; clear; case: I => [|[|[|]]].
rewrite derivX => + _; move=> /matrix.rowP /(_ (Ordinal hj)); rewrite mxE [X in _ = X -> _]mxE hornerC => E.
rewrite subr0 -[dynv p_q]/ex_fv -[ddyn p_q]/ex_df.
have -> : ex_fv (txu (time 1 1 ex_lgr m 1 (N_before m I + j)) (const_mx 1) (const_mx 0)) 0 = 0.
  by rewrite /ex_fv !mxE !inordK //= !vconst // mul0r.
have -> : val (ex_df (txu (time 1 1 ex_lgr m 1 (N_before m I + j)) (const_mx 1) (const_mx 0))) 0 (1 + 0) = 0.
  by rewrite /ex_df /val /= !mxE !inordK //= !vconst.
have -> : val (ex_df (txu (time 1 1 ex_lgr m 1 (N_before m I + j)) (const_mx 1) (const_mx 0))) 0 (1 + 1 + 0) = 1.
  by rewrite /ex_df /val /= !mxE !inordK //= !vconst.
have -> : du_of 1 1 m ez (N_before m I + j) 0 = 1 by rewrite /du_of ex_N /ez.
rewrite mul0r !add0r !mul1r subr0 -[RHS]E; apply: eq_bigr => a _; congr (_ * _); last first.
  rewrite /mget; case: insubP => [a' _ e|]; last by rewrite ltn_ord.
  case: insubP => [j' _ e'|]; last by rewrite hj.
  by congr (_ _ _); apply: ord_inj.
rewrite mxE hornerX /dx_of mul1n addn0 /ez.
by case: a => a /=; move: hI; clear; case: I => [|[|[|]]] // _; case: a => [|[|]].
Qed.
Let hc c : (c < 7)%N -> (c < 1 * (N_colloc m + 1) + 1 * N_colloc m)%N. Proof. by rewrite nvE. Qed.
(** theta = q with integrand u x: gradient and mixed second derivative for x_0 and u_0. *)
Example C41_case tf xl dxl ul s :
  partialn (obj p_q tf xl ul) (fun=> 0) 4 (oq (upd p_q tf xl dxl ul s) 4).
Proof.
exact: (@C41_gradient Q 1 1 1 1 1 1 ex_lgr ex_kinc m isT isT ex_reach ex_hN p_q tf xl dxl ul 1 s 4%N p_q_derivs p_q_lin (@hc 4 isT)).
Qed.
Example C41_case2 P tf xl dxl ul s : hist P s ->
  hessn (obj p_q tf xl ul) (fun=> 0) 0 4 (val (oP (upd p_q tf xl dxl ul s)) 0 4).
Proof.
move=> hs; have h2 i j : (0 < i < 1 + 2 * 1)%N -> (0 < j < 1 + 2 * 1)%N -> val (d2theta p_q (qend tf xl)) i j = 0.
  by rewrite /val /= /one_d2 inordK // => h _; case: eqP h => // ->.
have [H _] := @C41_hessian_partial Q 1 1 1 1 1 1 ex_lgr ex_kinc m isT isT ex_reach ex_hN p_q tf xl dxl ul P s 1 0%N 4%N hs p_q_derivs p_q_lin h2 (@hc 0 isT) (@hc 4 isT).
exact: H.
Qed.
(** Running constraint -1 <= u x <= 1 around x = 1, u = 0: du <= 1 satisfies the rows, du = 2 does not. *)
Example C42_case P s a : hist P s ->
  (forall r, (3 <= r < 6)%N -> row_holds 1 1 m (upd p_q 1 (fun=> const_mx 1) (fun _ _ => 0) (fun=> const_mx 0) s) (fun=> a) r) <-> -1 <= a <= 1.
Proof.
move=> hs.
have E := @C42_running Q 1 1 1 1 1 1 ex_lgr m isT isT ex_hN P p_q 1 (fun=> const_mx 1) (fun _ _ => 0) (fun=> const_mx 0) s (fun=> a) hs.
rewrite ex_N in E; apply: (iff_trans E).
have R i : let y := txu (time 1 1 ex_lgr m 1 i) (const_mx 1) (const_mx 0) in
  crv p_q y 0 + \sum_(b < 1) val (dcr p_q y) 0 (1 + b) * dx_of 1 (fun=> a) i b + \sum_(b < 1) val (dcr p_q y) 0 (1 + 1 + b) * du_of 1 1 m (fun=> a) i b = a.
  move=> y; rewrite !big_ord1 -[crv p_q]/ex_fv -[dcr p_q]/ex_df.
  by rewrite /ex_fv /ex_df /val /= !mxE !inordK //= !vconst // !mul0r !add0r mul1r.
split=> [/(_ 0%N 0%N isT isT) /=|h i k hi]; first by rewrite R.
by case: k => // _ /=; rewrite R.
Qed.
(** An end constraint x0^2 >= 0 around x = 1: 1 + 2 dx_0 >= 0. *)
Definition p_x0 : ocp Q 1 1 1 1 1 :=
  @Ocp Q 1 1 1 1 1 exo_e exo_de exo_d2e ex_fv ex_df ex_d2f ex_fv ex_df ex_d2f ex_fv ex_df ex_d2f
      (fun=> Fin (-1)) (fun=> Fin 1) (fun z _ => z (o 1) 0 * z (o 1) 0) (one_d (o 1) (fun s => 2%:R * s)) (one_d2 (o 1) (fun=> 2%:R)) (fun=> Fin 0) (fun=> PosInf).
Lemma p_x0_pat : ce_pattern (fun _ c => c == 1%N) p_x0.
Proof. by move=> z j c _ /=; rewrite /one_d inordK //; case: eqP. Qed.
Example C42_case2 s a : hist (ce_pattern (fun _ c => c == 1%N)) s ->
  row_holds 1 1 m (upd p_x0 1 (fun=> const_mx 1) (fun _ _ => 0) (fun=> const_mx 0) s) (fun=> a) 6 <-> 0 <= 1 + 2%:R * a.
Proof.
move=> hs; have nq : ce_no_q p_x0 by move=> tf xl q q' j _ /=; rewrite /val /one_d /= !mxE !inordK.
have E := @C42_end_partial Q 1 1 1 1 1 1 ex_lgr ex_kinc m isT isT ex_reach ex_hN _ p_x0 1 (fun=> const_mx 1) (fun _ _ => 0) (fun=> const_mx 0) s (fun=> a) 0 hs p_x0_pat nq.
rewrite ex_N in E.
have R : let e := end_ref 1 (fun=> const_mx 1 : 'cV[Q]_1) 0 in
  cev p_x0 e 0 + \sum_(b < 1) val (dce p_x0 e) 0 (1 + b) * dx_of 1 (fun=> a) 0 b + \sum_(b < 1) val (dce p_x0 e) 0 (1 + 1 + b) * dx_of 1 (fun=> a) (N_colloc m) b = 1 + 2%:R * a.
  move=> e; rewrite !big_ord1 -[cev p_x0]/(fun (z : 'cV[Q]_ne) (_ : nat) => z (o 1) 0 * z (o 1) 0) -[dce p_x0]/(one_d (o 1) (fun s => 2%:R * s)).
  by rewrite /one_d /val /= !mxE !inordK //= !vconst // mul0r addr0 mulr1 mulr1.
have [E1 E2] := E; split=> h.
  have H1 r : (1 * 3 + 1 * 3 <= r < 1 * 3 + 1 * 3 + 1)%N -> row_holds 1 1 m (upd p_x0 1 (fun=> const_mx 1) (fun _ _ => 0) (fun=> const_mx 0) s) (fun=> a) r.
    by move=> hr; have -> : r = 6%N by move: hr; clear; lia.
  by have := E1 H1 0%N isT; rewrite /= R /between andbT.
by apply: E2 => // j; case: j => // _; rewrite /= R /between andbT.
Qed.
Example C43_case s : hist (ce_pattern (fun _ c => c == 1%N)) s ->
  same_qp 1 1 1 1 m (upd p_x0 1 (fun=> const_mx 1) (fun _ _ => 0) (fun=> const_mx 0) s)
    (ocp_to_qp p_x0 1 1 ex_lgr m 1 (fun=> const_mx 1) (fun _ _ => 0) (fun=> const_mx 0)).
Proof. by move=> hs; exact: (@C43_update_partial Q 1 1 1 1 1 1 ex_lgr ex_kinc m isT isT ex_reach ex_hN _ p_x0 1 _ _ _ s hs p_x0_pat). Qed.
(** A reference that doubles: the state at the third node. *)
Example C44_case (xl : Q -> 'cV[Q]_1) : sol_x 1 1 ex_lgr m (fun x d => x + d) ex_bis xl 2%:R ez 1 = xl 1 + \col_k (1 / 2%:Q).
Proof.
have t : time 1 1 ex_lgr m 2%:R 2 = 1 by apply/eqP.
have := @C44_nodes Q 1 1 1 1 ex_lgr ex_kinc m ex_bis isT isT ex_lgr_contract ex_bis_contract ex_reach ex_hN _ _ (fun x d => x + d) (fun x d => x + d) xl (fun=> 0) 2%:R ez 2 isT.
rewrite t => -[H _]; have h2 : (2 <= N_colloc m)%N by rewrite ex_N.
apply: (etrans (H h2)); congr (_ + _); apply/matrixP => k b; rewrite !mxE (ord1 k).
by apply/eqP.
Qed.
End Cases.

Print Assumptions C40_rows.
Print Assumptions C40_update.
Print Assumptions C40_affine.
Print Assumptions C41_gradient_general.
Print Assumptions C41_hessian_general.
Print Assumptions C41_gradient.
Print Assumptions C41_hessian_partial.
Print Assumptions C41_hessian_refuted.
Print Assumptions C41_gradient_refuted.
Print Assumptions C42_running.
Print Assumptions C42_end_partial.
Print Assumptions C42_end_fresh_partial.
Print Assumptions C42_end_refuted.
Print Assumptions C43_update_partial.
Print Assumptions C43_update_refuted.
Print Assumptions C44_nodes.
