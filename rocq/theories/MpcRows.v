(** Properties C48 and C74, and the cost part of C46 and C47: the quadratic program that a call of an MPC object solves,
    after any history of calls. *)
From mathcomp Require Import all_ssreflect all_algebra zify.
From mathcomp.algebra_tactics Require Import ring.
From Verif Require Import Calc QpModel QpSpec MeshModel MeshSpec PolyFacts MeshFacts MeshQuad MeshEval MeshProps.
From Verif Require Import SparseModel SparseFacts MeshFunModel MeshFunFacts MeshFunLoops MeshFunDyn MeshFunProps MeshFunTraj NlpModel NlpFacts NlpProps NlpSol.
From Verif Require Import OqpModel OqpFacts OqpProps OqpCost MpcModel MpcHist MpcCost.
Set Implicit Arguments.
Unset Strict Implicit.
Unset Printing Implicit Defensive.
Import Order.TTheory GRing.Theory Num.Theory.
Local Open Scope ring_scope.
Local Arguments muln : simpl never.

(** * The stages of an update *)
Section Stages.
Variable F : realFieldType.
Variables Nx Nu Ncr Nce : nat.
Variables (Kmin Kmax : nat) (lgr : nat -> seq F * seq F) (m : mesh F).
Variables (p : ocp F Nx Nu 1 Ncr Nce) (tf : F) (xl : F -> 'cV[F]_Nx) (dxl : F -> nat -> F) (ul : F -> 'cV[F]_Nu).
Local Notation N := (N_colloc m).
Local Notation dyn s := (oqp_dyn Nx Nu Kmin Kmax lgr m true (fun _ _ _ => 0)
  (fun t x u => dynv p (txu t x u)) (fun t x u => ddyn p (txu t x u)) xl dxl ul tf s).
Local Notation upd s := (oqp_update p Kmin Kmax lgr m tf xl dxl ul s).
(** Replace the parts that belong to the cost. *)
Definition setpq (s0 s : qpst F) : qpst F := Qpst (oP s0) (oq s0) (oA s) (ol s) (ou s) (w_cr s) (w_int s0).
Lemma foldl_morph (A B : Type) (h : A -> A) (g : A -> B -> A) (l : seq B) a :
  (forall a b, h (g a b) = g (h a) b) -> h (foldl g a l) = foldl g (h a) l.
Proof. by move=> H; elim: l a => [//|b l IH] a /=; rewrite IH H. Qed.
Lemma dyn_setpq s0 s : dyn (setpq s0 s) = setpq s0 (dyn s).
Proof. by rewrite !dyn_points (foldl_morph (h := setpq s0)). Qed.
Lemma cost_setpq s : setpq s (oqp_cost p Kmin Kmax lgr m tf xl ul s) = s. Proof. by case: s. Qed.
(** operator() with a constraint that depends on time. *)
Lemma call_upd s : oqp_ce p m tf xl (oqp_cr p Kmin Kmax lgr m tf xl ul (dyn s)) = setpq s (upd s).
Proof. by rewrite -{1}(cost_setpq s) dyn_setpq. Qed.
(** operator() with a constraint that does not. *)
Lemma ce_cong S S' r c : oA S r c = oA S' r c -> ol S r = ol S' r -> ou S r = ou S' r ->
  [/\ oA (oqp_ce p m tf xl S) r c = oA (oqp_ce p m tf xl S') r c, ol (oqp_ce p m tf xl S) r = ol (oqp_ce p m tf xl S') r &
      ou (oqp_ce p m tf xl S) r = ou (oqp_ce p m tf xl S') r].
Proof.
move=> e1 e2 e3; rewrite /oqp_ce; cbn [oA ol ou]; rewrite /eseg e2 e3; split=> //.
by rewrite /block_write !block_opE e1.
Qed.
Lemma call_other s r c : ~~ inr (Nx * N) (Ncr * N) r ->
  [/\ oA (oqp_ce p m tf xl (dyn s)) r c = oA (upd s) r c, ol (oqp_ce p m tf xl (dyn s)) r = ol (upd s) r &
      ou (oqp_ce p m tf xl (dyn s)) r = ou (upd s) r].
Proof.
move=> h; have [e1 e2 e3] := cr_keep p Kmin Kmax lgr tf xl dxl ul s c h; rewrite upd_stages.
have e : dyn s = setpq s (s_dyn p Kmin Kmax lgr m tf xl dxl ul s) by rewrite -{1}(cost_setpq s) dyn_setpq.
by apply: ce_cong; rewrite e /= ?e1 ?e2 ?e3.
Qed.
Lemma call_cr s r c : (\sum_(i < size m) N_colloc_ival m i < uint_mod)%N -> inr (Nx * N) (Ncr * N) r ->
  [/\ oA (oqp_ce p m tf xl (dyn s)) r c = oA s r c, ol (oqp_ce p m tf xl (dyn s)) r = ol s r &
      ou (oqp_ce p m tf xl (dyn s)) r = ou s r].
Proof.
move=> hN h; have EN : N = nb (N_colloc_ival m) (size m) by have [_ e _] := C26_N_colloc_partial m; rewrite e.
have hr : (Nx * N <= r)%N by case/andP: h.
have [<- <- <-] := dyn_keep Nu Kmin Kmax lgr EN true (fun _ _ _ => 0) (fun t x u => dynv p (txu t x u)) (fun t x u => ddyn p (txu t x u)) xl dxl ul tf s c hr.
have h' : ~~ inr (Nx * N + Ncr * N) Nce r by rewrite /inr negb_and -ltnNge; case/andP: h => _ ->.
rewrite /oqp_ce; cbn [oA ol ou]; rewrite !block_write_keep // /eseg -inrE /qcecon_B /qcrcon_B /qdcon_L /qcrcon_L /qcecon_L.
by rewrite (negbTE h').
Qed.
End Stages.

Section Rows.
Variable F : realFieldType.
Variables Nx Nu Ncr : nat.
Local Notation X := 'cV[F]_Nx.
Local Notation U := 'cV[F]_Nu.
Variables (Tm : Type) (tplus : Tm -> F -> Tm) (tminus : Tm -> Tm -> F) (tzero : Tm).
Variables (Kmesh : nat) (lgr : nat -> seq F * seq F).
Variables (f : Tm -> X -> U -> nat -> F) (df : Tm -> X -> U -> nat -> nat -> F).
Variables (cr_time : bool) (cr : Tm -> X -> U -> nat -> F) (dcr : Tm -> X -> U -> nat -> nat -> F).
Variables (crl cru : nat -> F).
Variables (S : Type) (analyze : qpst F -> S) (solve : S -> qpst F -> option (msol F) -> S * msol F).
Local Notation mobj := (mobj F Nx Nu Tm S).
Local Notation cell := (cell F Nx Nu Tm).
Local Notation mout := (mout F Nx Nu).
Local Notation mop := (mop F Nx Nu Tm).
Local Notation mocp := (mpc_ocp Ncr tplus tzero f df cr_time cr dcr crl cru).
Local Notation new := (mpc_new Ncr tplus tzero Kmesh lgr f df cr_time cr dcr crl cru analyze).
Local Notation call := (mpc_call Ncr tplus tzero Kmesh lgr f df cr_time cr dcr crl cru solve).
Local Notation step := (mpc_step Ncr tplus tminus tzero Kmesh lgr f df cr_time cr dcr crl cru solve).
Local Notation run := (mpc_run Ncr tplus tminus tzero Kmesh lgr f df cr_time cr dcr crl cru solve).
Implicit Types (co : cell * mobj) (ops : seq mop).
Hypothesis K0 : (0 < Kmesh)%N.
Variables (q : params F) (co : cell * mobj).
Hypothesis co_new : new q = Some co.
Local Notation m := (msh co.2).
Local Notation N := (N_colloc m).
Local Notation nv := (Nx * (N + 1) + Nu * N)%N.
Hypothesis hN : (\sum_(i < size m) N_colloc_ival m i < uint_mod)%N.
Local Notation tf := (ptf q).
Let rm : reachable Kmesh Kmesh (fun _ _ _ => 0%N) m := new_reach _ co_new.
Local Notation S_ce := (fun j c => c == 1 + j)%N.
Lemma ce_pat w gh t0f t0c x0f : ce_pattern S_ce (mocp w gh t0f t0c x0f).
Proof. by move=> z j c hj /=; case: ifP. Qed.

(** What all states of the object have in common. *)
Definition inv (o : mobj) : Prop :=
  [/\ msh o = m, prm o = q, inv_cr Nx Nu Ncr m (mqp o), inv_ce Nx Ncr Nx m S_ce (mqp o) &
      (oP (mqp o) = oP (mqp co.2) /\ oq (mqp o) = oq (mqp co.2)) /\
      (~~ cr_time -> forall r c, inr (Nx * N) (Ncr * N) r -> [/\ oA (mqp o) r c = oA (mqp co.2) r c, ol (mqp o) r = ol (mqp co.2) r & ou (mqp o) r = ou (mqp co.2) r])].
Local Notation mempty := (MVal false (fun=> 0) empty empty (fun=> 0)).
Local Notation s_alloc gh := (oqp_allocate (mocp weights_default gh tzero tzero 0) Kmesh Kmesh lgr m
  (Qpst empty (fun=> 0) empty (fun=> Fin 0) (fun=> Fin 0) mempty mempty)).
Lemma new_qp : exists gh, [/\ int_hess (wQ (@weights_default F Nx Nu)) (wR (@weights_default F Nx Nu)) empty = Some gh,
  mqp co.2 = oqp_update (mocp weights_default gh tzero tzero 0) Kmesh Kmesh lgr m tf (fun=> 0) (fun _ => vget (0 : X)) (fun=> 0) (s_alloc gh) &
  prm co.2 = q].
Proof.
move: co_new; rewrite /mpc_new; case em : mesh_new => [m'|//]; case eh : int_hess => [gh|//] [<-].
by exists gh.
Qed.
Lemma inv_new : inv co.2.
Proof.
have [gh [e1 e2 e3]] := new_qp; have hist : @history F Nx Nu Ncr Nx Kmesh Kmesh lgr m (@ce_pattern F Nx Nu Ncr Nx S_ce) (mqp co.2).
  by rewrite e2; apply: HUpd; [exact: ce_pat|apply: HAlloc; exact: ce_pat].
split=> //; [exact: (inv_hist K0 (leqnn _) hN hist)|exact: (ce_inv K0 (leqnn _) rm hN hist)].
Qed.
(** One call. *)
Local Notation xr c := (xdes_rel tplus c).
Local Notation dxr c := (dxdes_rel tplus c).
Local Notation ur c := (udes_rel tplus c).
Local Notation at_time t c := (Cell t (xdes c) (dxdes c) t (udes c)).
Local Notation cupd t x c o := (oqp_update (mocp (wts o) empty t t x) Kmesh Kmesh lgr m tf (xr (at_time t c)) (dxr (at_time t c)) (ur (at_time t c)) (mqp o)).
Lemma call_qp t x c o : inv o -> let s := o_qp (call t x (c, o)).2 in
  [/\ oP s = oP (mqp co.2), oq s = oq (mqp co.2), w_int s = w_int (mqp o),
      forall r k, cr_time || ~~ inr (Nx * N) (Ncr * N) r -> [/\ oA s r k = oA (cupd t x c o) r k, ol s r = ol (cupd t x c o) r & ou s r = ou (cupd t x c o) r] &
      (~~ cr_time -> forall r k, inr (Nx * N) (Ncr * N) r -> [/\ oA s r k = oA (mqp co.2) r k, ol s r = ol (mqp co.2) r & ou s r = ou (mqp co.2) r]) /\
      w_cr s = if cr_time then w_cr (cupd t x c o) else w_cr (mqp o)].
Proof.
move=> [e1 e2 _ _ [[e3 e4] h]]; rewrite /mpc_call; cbn [fst snd o_qp]; rewrite e1 e2 -e3 -e4; move: h; case: cr_time => h.
  by rewrite call_upd.
set pf := mpc_ocp _ _ _ _ _ _ _ _ _ _ _ _ _ _ _.
have [d1 d2 d3 d4] := dyn_other Nx Nu Kmesh Kmesh lgr m true (fun _ _ _ => 0) (fun s y u => dynv pf (txu s y u)) (fun s y u => ddyn pf (txu s y u))
  (xr (at_time t c)) (dxr (at_time t c)) (ur (at_time t c)) tf (mqp o).
split; rewrite ?d1 ?d2 ?d3 ?d4 //; first by move=> r k hr; apply: call_other.
split=> [_ r k hr|]; last by [].
by have [-> -> ->] := @call_cr F Nx Nu Ncr Nx Kmesh Kmesh lgr m pf tf (xr (at_time t c)) (dxr (at_time t c)) (ur (at_time t c)) (mqp o) r k hN hr; apply: h.
Qed.
Lemma inv_call t x c o : inv o -> inv (call t x (c, o)).1.2.
Proof.
move=> io; have [e1 e2 [i1 i2 i3] i4 [_ h]] := io.
have [q1 q2 q3 q4 [q5 q6]] := call_qp t x c io.
have [U1 _ U3] := inv_upd lgr K0 (leqnn _) hN (mocp (wts o) empty t t x) tf (xr (at_time t c)) (dxr (at_time t c)) (ur (at_time t c)) (And3 i1 i2 i3).
rewrite /inv -[mqp _]/(o_qp (call t x (c, o)).2) q1 q2; split=> //.
- split; rewrite ?q3 ?q6 //; first by case: ifP.
  move=> r k hr hk; have hir : inr (Nx * N) (Ncr * N) (Nx * N + r) by rewrite /inr leq_addr ltn_add2l.
  have [hc|hc] : cr_time \/ ~~ cr_time by case: cr_time; [left|right].
    by have [-> _ _] := q4 (Nx * N + r)%N k (introT orP (or_introl hc)); rewrite (ifT _ _ hc); apply: U3.
  by have [-> _ _] := q5 hc _ k hir; have [<- _ _] := h hc _ k hir; rewrite (ifN _ _ hc); apply: i3.
- move=> j k hj; have hr : cr_time || ~~ inr (Nx * N) (Ncr * N) (Nx * N + Ncr * N + j) by rewrite /inr ltnNge leq_addr andbF orbT.
  have [-> _ _] := q4 _ k hr; exact: (ce_inv_step K0 (leqnn _) rm hN (@ce_pat _ _ _ _ _) i4).
Qed.
Lemma inv_run ops : inv (run ops co).1.2.
Proof.
have G co' : inv co'.2 -> inv (run ops co').1.2; last exact: G inv_new.
elim: ops co' => [//|op ops IH] [c o] io; rewrite run_cons; apply: IH.
by case: op => // t x; exact: inv_call.
Qed.
Local Notation out ops t x := (call t x (run ops co).1).2.
Lemma out_qp ops t x : let s := o_qp (out ops t x) in let o := (run ops co).1.2 in
  [/\ oP s = oP (mqp co.2), oq s = oq (mqp co.2),
      forall r k, cr_time || ~~ inr (Nx * N) (Ncr * N) r -> [/\ oA s r k = oA (cupd t x (run ops co).1.1 o) r k, ol s r = ol (cupd t x (run ops co).1.1 o) r & ou s r = ou (cupd t x (run ops co).1.1 o) r] &
      ~~ cr_time -> forall r k, inr (Nx * N) (Ncr * N) r -> [/\ oA s r k = oA (mqp co.2) r k, ol s r = ol (mqp co.2) r & ou s r = ou (mqp co.2) r]].
Proof. by have := inv_run ops; case: (run ops co).1 => c o /(call_qp t x c) [? ? _ ? []]. Qed.
(** * C46 and C47: the cost *)
Lemma masked1 : (Nu <= Nx)%N -> masked (1%:M : 'M[F]_Nx) (1%:M : 'M[F]_Nu) = 1%:M.
Proof.
move=> h; apply/matrixP => i j; rewrite !mxE /mget (insubT (fun k => k < Nx)%N (leq_trans (ltn_ord i) h)) /= (insubT (fun k => k < Nx)%N (leq_trans (ltn_ord j) h)) /=.
by rewrite !mxE -!val_eqE /=; case: eqP; rewrite ?oner_eq0 ?eqxx.
Qed.
(** Full statement: the cost is [mpc_cost] for the weights of the object, up to a constant.  Missing: weights other
    than the identity (C45), and the final weight (C47). *)
Theorem C46_cost_partial ops t x z : qp_cost nv (o_qp (out ops t x)) z =
  running_cost m (all_weights Kmesh Kmesh lgr m) (1%:M : 'M[F]_Nx) (1%:M : 'M[F]_Nu) tf z + 4%:R^-1 * quad (1%:M : 'M[F]_Nx) (dx_of Nx z 0).
Proof.
have [e1 e2 _ _] := out_qp ops t x; have [gh [g1 g2 _]] := new_qp.
have -> : qp_cost nv (o_qp (out ops t x)) z = qp_cost nv (mqp co.2) z by rewrite /qp_cost e1 e2.
have hu : (Nu <= Nx)%N by move: g1; rewrite /int_hess; case: ifP.
rewrite g2 cost_general ?masked1 ?trmx1 //.
exact: ref_intlam.
Qed.
(** The final deviation does not enter the cost. *)
Theorem C47_final_free ops t x z z' : (forall c, (c < nv)%N -> ~~ inr (Nx * N) Nx c -> z c = z' c) ->
  qp_cost nv (o_qp (out ops t x)) z = qp_cost nv (o_qp (out ops t x)) z'.
Proof.
move=> e; rewrite !C46_cost_partial.
have N0 : (0 < N)%N := N0 K0 (leqnn _) rm hN.
have ed i k : (i < N)%N -> (k < Nx)%N -> dx_of Nx z i k = dx_of Nx z' i k.
  move=> hi hk; have h := blk_lt hi hk; rewrite /dx_of e //; last by rewrite /inr leqNgt h.
  by apply: (leq_trans h); apply: (leq_trans _ (leq_addr _ _)); rewrite leq_mul2l leq_addr orbT.
have eu i k : (i < N)%N -> (k < Nu)%N -> du_of Nx Nu m z i k = du_of Nx Nu m z' i k.
  move=> hi hk; have h := blk_lt hi hk; rewrite /du_of e -?addnA ?ltn_add2l //.
  by rewrite /inr negb_and -leqNgt orbC mulnDr muln1 leq_addr.
have eq n (M : 'M[F]_n) v v' : (forall k, (k < n)%N -> v k = v' k) -> quad M v = quad M v'.
  by move=> h; apply: eq_bigr => i _; apply: eq_bigr => j _; rewrite !h.
congr (_ + _ * _); last by apply: eq => k hk; apply: ed.
rewrite /running_cost; congr (_ * _); apply: eq_bigr => i _; congr (_ * (_ * (_ + _))); apply: eq => k hk; [exact: ed|exact: eu].
Qed.

(** * C48 and C74: the constraints *)
Lemma rows_eq s s' z r : (forall k, [/\ oA s r k = oA s' r k, ol s r = ol s' r & ou s r = ou s' r]) ->
  row_holds Nx Nu m s z r = row_holds Nx Nu m s' z r.
Proof.
move=> h; have [_ e1 e2] := h 0%N; rewrite /row_holds e1 e2; congr between; apply: eq_bigr => c _.
by rewrite /val; have [-> _ _] := h c.
Qed.
Lemma txu_t t0 (x0 : X) (u0 : U) : vget (txu t0 x0 u0) 0 = t0.
Proof. by rewrite (vgetE _ (isT : (0 < 1 + Nx + Nu)%N)) mxE. Qed.
Lemma txu_zx t0 (x0 : X) (u0 : U) : zx Nx (txu t0 x0 u0) = x0.
Proof.
apply/matrixP => k j; rewrite (ord1 j) mxE; have hk : (1 + k < 1 + Nx + Nu)%N by rewrite -addnA ltn_add2l ltn_addr.
by rewrite (vgetE _ hk) mxE /= ltn_add2l ltn_ord addKn (vgetE _ (ltn_ord k)); congr (x0 _ 0); apply: ord_inj.
Qed.
Lemma txu_zu t0 (x0 : X) (u0 : U) : zu Nx Nu (txu t0 x0 u0) = u0.
Proof.
apply/matrixP => k j; rewrite (ord1 j) mxE; have hk : (1 + Nx + k < 1 + Nx + Nu)%N by rewrite ltn_add2l ltn_ord.
by rewrite (vgetE _ hk) mxE /= ltnNge leq_addr /= addKn (vgetE _ (ltn_ord k)); congr (u0 _ 0); apply: ord_inj.
Qed.
Local Notation tm i := (time Kmesh Kmesh lgr m tf i).
Local Notation xd ops := (cur_xdes tminus ops).
Local Notation dxd ops := (cur_dxdes tminus ops).
Local Notation ud ops := (cur_udes tminus ops).
Local Notation row ops t x z r := (row_holds Nx Nu m (o_qp (out ops t x)) z r).
Lemma refs ops t : let c := (run ops co).1.1 in
  [/\ xr (at_time t c) = (fun s => xd ops (tplus t s)), ur (at_time t c) = (fun s => ud ops (tplus t s)) &
      dxr (at_time t c) = (fun s => vget (dxd ops (tplus t s)))].
Proof. by have [e1 e2 e3] := run_cell tminus solve ops co_new; rewrite /= -e1 -e2 -e3. Qed.

(** The initial state of every feasible point is the state that was passed. *)
Theorem C74_initial ops t x z :
  (forall r, (Nx * N + Ncr * N <= r < Nx * N + Ncr * N + Nx)%N -> row ops t x z r) <->
  (forall k, (k < Nx)%N -> vget (xd ops (tplus t 0)) k + dx_of Nx z 0 k = vget x k).
Proof.
set c := (run ops co).1.1; set o := (run ops co).1.2.
have [_ _ _ ie _] := inv_run ops.
have cov : covered m (mocp (wts o) empty t t x) tf (xr (at_time t c)) (mqp o).
  move=> j k hj h; have := ie j k hj h; rewrite /= ; case: ifP => _ /=; first by case: ifP.
  by case: (k < Nx)%N => //=; case: ifP.
have E := end_rows lgr K0 (leqnn _) rm hN (dxr (at_time t c)) (ur (at_time t c)) z cov.
have [_ _ R _] := out_qp ops t x; have [rx _ _] := refs ops t.
have RR r : (Nx * N + Ncr * N <= r)%N -> row ops t x z r = row_holds Nx Nu m (cupd t x c o) z r.
  move=> hr; apply: rows_eq => k; apply: R; rewrite /inr orbC negb_and -!leqNgt hr orbT //.
transitivity (end_rows_hold m (mocp (wts o) empty t t x) tf (xr (at_time t c)) 1 z).
  by rewrite -E; split=> h r hr; have := h r hr; rewrite RR //; case/andP: hr.
have P k : (k < Nx)%N -> let e := end_ref tf (xr (at_time t c)) 1 in
  cev (mocp (wts o) empty t t x) e k + \sum_(b < Nx) val (dce (mocp (wts o) empty t t x) e) k (1 + b) * dx_of Nx z 0 b +
    \sum_(b < Nx) val (dce (mocp (wts o) empty t t x) e) k (1 + Nx + b) * dx_of Nx z N b = vget (xd ops (tplus t 0)) k + dx_of Nx z 0 k - vget x k.
  move=> hk e; rewrite [X in _ + X]big1 ?addr0 => [|b _]; last first.
    by rewrite /val /= (_ : (1 + Nx + b == 1 + k)%N = false) ?mul0r // -addnA eqn_add2l; apply/negbTE; rewrite neq_ltn orbC ltn_addr.
  rewrite (bigD1 (Ordinal hk)) //= big1 ?addr0 => [|b bk]; last first.
    by rewrite /val /= eqn_add2l (_ : (b == k :> nat) = false) ?mul0r //; apply/negbTE.
  rewrite /val /= eqxx mul1r.
  have hk1 : (1 + k < 1 + 2 * Nx + 1)%N by clear -hk; lia.
  rewrite (vgetE _ hk1) mxE /= ltn_add2l hk addKn; have [_ e2 _] := run_cell tminus solve ops co_new; rewrite /xdes_rel /= /c e2; ring.
rewrite /end_rows_hold; split=> h k hk.
  by have := h k hk; rewrite P // /between /lo_ok /hi_ok /= -eq_le eq_sym subr_eq0 => /eqP.
by rewrite /= P // h // subrr /between /lo_ok /hi_ok /= lexx.
Qed.
(** The dynamics rows: the collocation equations, on every interval, of the dynamics linearized around the trajectories
    that are set when the call is made. *)
Theorem C74_dynamics ops t x z : (forall K, (Kmesh <= K <= Kmesh.+1)%N -> lgr_contract K (lgr K)) ->
  (forall r, (r < Nx * N)%N -> row ops t x z r) <->
  (forall I j k, (I < size m)%N -> (j < N_colloc_ival m I)%N -> (k < Nx)%N ->
     let n := (N_before m I + j)%N in let T := tplus t (tm n) in
     \sum_(a < (N_colloc_ival m I).+1) dx_of Nx z (N_before m I + a) k * mget (interval_diffmat lgr m I) a j =
     tf * (f T (xd ops T) (ud ops T) k - vget (dxd ops T) k + \sum_(b < Nx) df T (xd ops T) (ud ops T) k b * dx_of Nx z n b +
           \sum_(b < Nu) df T (xd ops T) (ud ops T) k (Nx + b)%N * du_of Nx Nu m z n b)).
Proof.
move=> Hl; set c := (run ops co).1.1; set o := (run ops co).1.2.
have E := C40_update (mocp (wts o) empty t t x) K0 (leqnn _) Hl rm hN tf (xr (at_time t c)) (dxr (at_time t c)) (ur (at_time t c)) (mqp o) z.
have [_ _ R _] := out_qp ops t x; have [e1 e2 e3] := run_cell tminus solve ops co_new.
have RR r : (r < Nx * N)%N -> row ops t x z r = row_holds Nx Nu m (cupd t x c o) z r.
  by move=> hr; apply: rows_eq => k; apply: R; rewrite /inr orbC negb_and -!leqNgt -ltnNge hr.
have RQ : (forall r, (r < Nx * N)%N -> row ops t x z r) <-> (forall r, (r < Nx * N)%N -> row_holds Nx Nu m (cupd t x c o) z r).
  by split=> h r hr; have := h r hr; rewrite RR.
rewrite RQ E; split=> h I j k hI hj hk; have := h I j k hI hj hk; rewrite /lin_colloc /lin_dyn /= subr0 txu_t txu_zx txu_zu -e1 -e2 -e3.
  exact.
exact.
Qed.

(** * C48 *)
Definition cr_rows_hold (cr_at : nat -> Tm) (xat : nat -> X) (uat : nat -> U) (z : nat -> F) : Prop :=
  forall i k, (i < N)%N -> (k < Ncr)%N ->
    crl k <= cr (cr_at i) (xat i) (uat i) k + \sum_(b < Nx) dcr (cr_at i) (xat i) (uat i) k b * dx_of Nx z i b +
             \sum_(b < Nu) dcr (cr_at i) (xat i) (uat i) k (Nx + b)%N * du_of Nx Nu m z i b <= cru k.
(** A constraint that depends on time is linearized in every call. *)
Theorem C48_rows_time ops t x z : cr_time ->
  (forall r, (Nx * N <= r < Nx * N + Ncr * N)%N -> row ops t x z r) <->
  cr_rows_hold (fun i => tplus t (tm i)) (fun i => xd ops (tplus t (tm i))) (fun i => ud ops (tplus t (tm i))) z.
Proof.
move=> ct; set c := (run ops co).1.1; set o := (run ops co).1.2.
have [_ _ ic _ _] := inv_run ops.
have E := running_inv lgr K0 (leqnn _) hN (mocp (wts o) empty t t x) tf (xr (at_time t c)) (dxr (at_time t c)) (ur (at_time t c)) z ic.
have [_ _ R _] := out_qp ops t x; have [e1 e2 e3] := run_cell tminus solve ops co_new.
have RR r : row ops t x z r = row_holds Nx Nu m (cupd t x c o) z r.
  by apply: rows_eq => k; apply: R; rewrite ct.
have RQ : (forall r, (Nx * N <= r < Nx * N + Ncr * N)%N -> row ops t x z r) <->
  (forall r, (Nx * N <= r < Nx * N + Ncr * N)%N -> row_holds Nx Nu m (cupd t x c o) z r).
  by split=> h r hr; have := h r hr; rewrite RR.
rewrite RQ E; split=> h i k hi hk; have := h i k hi hk; rewrite /between /lo_ok /hi_ok /= txu_t txu_zx txu_zu (ifT _ _ ct) -e1 -e2; exact.
Qed.
(** A constraint that does not is linearized only in the constructor, around x = 0 and u = 0. *)
Theorem C48_rows_constant ops t x z : ~~ cr_time ->
  (forall r, (Nx * N <= r < Nx * N + Ncr * N)%N -> row ops t x z r) <-> cr_rows_hold (fun=> tzero) (fun=> 0) (fun=> 0) z.
Proof.
move=> ct; have [gh [g1 g2 _]] := new_qp.
have ic : inv_cr Nx Nu Ncr m (s_alloc gh) by split=> //; [exact: ref_alloc|exact: ref_intlam].
have E := running_inv lgr K0 (leqnn _) hN (mocp weights_default gh tzero tzero 0) tf (fun=> 0) (fun _ => vget (0 : X)) (fun=> 0) z ic.
have [_ _ _ R] := out_qp ops t x.
have RQ : (forall r, (Nx * N <= r < Nx * N + Ncr * N)%N -> row ops t x z r) <->
  (forall r, (Nx * N <= r < Nx * N + Ncr * N)%N -> row_holds Nx Nu m (mqp co.2) z r).
  have RR r : (Nx * N <= r < Nx * N + Ncr * N)%N -> row ops t x z r = row_holds Nx Nu m (mqp co.2) z r.
    by move=> hr; apply: rows_eq => k; apply: R.
  by split=> h r hr; have := h r hr; rewrite RR.
rewrite RQ g2 E; split=> h i k hi hk; have := h i k hi hk; rewrite /between /lo_ok /hi_ok /= txu_zx txu_zu (ifN _ _ ct); exact.
Qed.
Hypothesis Hl : forall K, (Kmesh <= K <= Kmesh.+1)%N -> lgr_contract K (lgr K).
Lemma out_x ops t x i k : (i < N)%N -> (k < Nx)%N ->
  vget (nth 0 (o_xs (out ops t x)) i) k = vget (xd ops (tplus t (tm i))) k + dx_of Nx (mprimal (o_sol (out ops t x))) i k.
Proof.
move=> hi hk; have em : msh (run ops co).1.2 = m by rewrite run_msh.
have EN : N = (\sum_(i < size m) N_colloc_ival m i)%N by have [_ h _] := C26_N_colloc_partial m; rewrite h.
have := C50_trajectories (solve := solve) (tminus := tminus) (ops := ops) K0 Hl t x co_new; rewrite em => /(_ hN) [_ _ _ _ [_ h]].
by rewrite !(vgetE _ hk) h // -EN ltnW.
Qed.
Lemma out_u ops t x i k : (i < N)%N -> (k < Nu)%N ->
  vget (nth 0 (o_us (out ops t x)) i) k = vget (ud ops (tplus t (tm i))) k + du_of Nx Nu m (mprimal (o_sol (out ops t x))) i k.
Proof.
move=> hi hk; have em : msh (run ops co).1.2 = m by rewrite run_msh.
have EN : N = (\sum_(i < size m) N_colloc_ival m i)%N by have [_ h _] := C26_N_colloc_partial m; rewrite h.
have := C50_trajectories (solve := solve) (tminus := tminus) (ops := ops) K0 Hl t x co_new; rewrite em => /(_ hN) [_ _ _ _ [h _]].
by rewrite !(vgetE _ hk) h -?EN // /du_of addn1.
Qed.
Lemma out_u0 ops t x : nth 0 (o_us (out ops t x)) 0 = o_u (out ops t x).
Proof.
have em : msh (run ops co).1.2 = m by rewrite run_msh.
by have := C50_trajectories (solve := solve) (tminus := tminus) (ops := ops) K0 Hl t x co_new; rewrite em => /(_ hN) [].
Qed.
(** Constraints that are affine in the state and the input, with exact Jacobian. *)
Definition cr_affine : Prop := exists (a : Tm -> nat -> F) (A B : Tm -> nat -> nat -> F),
  (forall t x u k, (k < Ncr)%N -> cr t x u k = a t k + \sum_(b < Nx) A t k b * vget x b + \sum_(b < Nu) B t k b * vget u b) /\
  (forall t x u k b, (k < Ncr)%N -> ((b < Nx)%N -> dcr t x u k b = A t k b) /\ ((b < Nu)%N -> dcr t x u k (Nx + b)%N = B t k b)).
Definition cr_feasible ops t x : Prop :=
  forall r, (Nx * N <= r < Nx * N + Ncr * N)%N -> row ops t x (mprimal (o_sol (out ops t x))) r.
(** Full statement: for every running constraint.  Missing: constraints without set_time (refuted), and constraints that
    are not affine, which the program only contains in linearized form. *)
Theorem C48_affine_partial ops t x i k : cr_time -> cr_affine -> cr_feasible ops t x -> (i < N)%N -> (k < Ncr)%N ->
  crl k <= cr (tplus t (tm i)) (nth 0 (o_xs (out ops t x)) i) (nth 0 (o_us (out ops t x)) i) k <= cru k.
Proof.
move=> ct [a [A [B [H1 H2]]]] /(C48_rows_time _ _ _ _ ct) h hi hk; have := h i k hi hk.
set v := cr _ _ _ _ + _ + _; set v' := cr _ _ _ _; suff -> : v' = v by [].
rewrite /v /v' !H1 //.
rewrite [X in _ = _ + X + _](eq_bigr (fun b : 'I_Nx => A (tplus t (tm i)) k b * dx_of Nx (mprimal (o_sol (out ops t x))) i b)) => [|b _]; last first.
  by have [-> //] := H2 (tplus t (tm i)) (xd ops (tplus t (tm i))) (ud ops (tplus t (tm i))) k b hk.
rewrite [X in _ = _ + X](eq_bigr (fun b : 'I_Nu => B (tplus t (tm i)) k b * du_of Nx Nu m (mprimal (o_sol (out ops t x))) i b)) => [|b _]; last first.
  by have [_ -> //] := H2 (tplus t (tm i)) (xd ops (tplus t (tm i))) (ud ops (tplus t (tm i))) k b hk.
rewrite [X in _ + X + _ = _](eq_bigr (fun b : 'I_Nx => A (tplus t (tm i)) k b * vget (xd ops (tplus t (tm i))) b + A (tplus t (tm i)) k b * dx_of Nx (mprimal (o_sol (out ops t x))) i b)) => [|b _]; last first.
  by rewrite (out_x _ _ _ hi (ltn_ord b)) mulrDr.
rewrite [X in _ + X = _](eq_bigr (fun b : 'I_Nu => B (tplus t (tm i)) k b * vget (ud ops (tplus t (tm i))) b + B (tplus t (tm i)) k b * du_of Nx Nu m (mprimal (o_sol (out ops t x))) i b)) => [|b _]; last first.
  by rewrite (out_u _ _ _ hi (ltn_ord b)) mulrDr.
rewrite !big_split /=; move: (a _ _) (\sum_(b < Nx) _) (\sum_(b < Nx) _) (\sum_(b < Nu) _) (\sum_(b < Nu) _) => *; ring.
Qed.
(** The constraint cr(x, u) = u. *)
Definition cr_input : Prop := Ncr = Nu /\ (forall t x u k, (k < Nu)%N -> cr t x u k = vget u k) /\
  forall t x u k b, (k < Nu)%N -> ((b < Nx)%N -> dcr t x u k b = 0) /\ ((b < Nu)%N -> dcr t x u k (Nx + b)%N = (b == k)%:R).
Lemma pick_u k (v : nat -> F) : (k < Nu)%N -> \sum_(b < Nu) (b == k :> nat)%:R * v b = v k.
Proof.
move=> hk; rewrite (bigD1 (Ordinal hk)) //= eqxx mul1r big1 ?addr0 // => b bk.
by rewrite (_ : (b == k :> nat) = false) ?mul0r //; apply/negbTE.
Qed.
Lemma input_affine : cr_input -> cr_affine.
Proof.
move=> [en [h1 h2]]; exists (fun _ _ => 0), (fun _ _ _ => 0), (fun _ k b => (b == k)%:R); split=> [t x u k hk|t x u k b hk].
  have hk' : (k < Nu)%N by rewrite -en.
  rewrite h1 // pick_u // big1 ?add0r // => b _; by rewrite mul0r.
by apply: h2; rewrite -en.
Qed.
Theorem C48_input_partial ops t x k : cr_time -> cr_input -> cr_feasible ops t x -> (k < Nu)%N ->
  crl k <= vget (o_u (out ops t x)) k <= cru k.
Proof.
move=> ct ci hf hk; have N0 : (0 < N)%N := N0 K0 (leqnn _) rm hN; have [en [h1 _]] := ci.
have hk' : (k < Ncr)%N by rewrite en.
by have := C48_affine_partial ct (input_affine ci) hf N0 hk'; rewrite h1 // out_u0.
Qed.
(** Without set_time it is the deviation from the desired input that is constrained. *)
Theorem C48_input_constant ops t x k : ~~ cr_time -> cr_input -> cr_feasible ops t x -> (k < Nu)%N ->
  crl k <= vget (o_u (out ops t x)) k - vget (ud ops (tplus t 0)) k <= cru k.
Proof.
move=> ct [en [h1 h2]] /(C48_rows_constant _ _ _ _ ct) h hk; have N0 : (0 < N)%N := N0 K0 (leqnn _) rm hN.
have hk' : (k < Ncr)%N by rewrite en.
have := h 0%N k N0 hk'; rewrite h1 // [X in _ + X + _]big1 => [|b _]; last by have [-> //] := h2 tzero 0 0 k b hk; rewrite mul0r.
rewrite (eq_bigr (fun b : 'I_Nu => (b == k :> nat)%:R * du_of Nx Nu m (mprimal (o_sol (out ops t x))) 0 b)) => [|b _]; last first.
  by have [_ -> //] := h2 tzero 0 0 k b hk.
rewrite pick_u // addr0 (vgetE _ hk) mxE add0r -out_u0 out_u // /time.
have [[s1 _ s3 _] _] := C21_nodes_weights Hl K0 (leqnn _) rm.
have -> : nth 0 (all_nodes Kmesh Kmesh lgr m) 0 = 0 by rewrite nth0.
by rewrite mulr0 addrAC subrr add0r.
Qed.
(** The final weight has no influence on the minimizers: on the feasible set its term is a constant. *)
Theorem C47_no_effect ops t x z :
  (forall r, (Nx * N + Ncr * N <= r < Nx * N + Ncr * N + Nx)%N -> row ops t x z r) ->
  qp_cost nv (o_qp (out ops t x)) z =
  running_cost m (all_weights Kmesh Kmesh lgr m) (1%:M : 'M[F]_Nx) (1%:M : 'M[F]_Nu) tf z +
  4%:R^-1 * quad (1%:M : 'M[F]_Nx) (fun k => vget x k - vget (xd ops (tplus t 0)) k).
Proof.
move=> /C74_initial h; rewrite C46_cost_partial; congr (_ + _ * _); apply: eq_bigr => i _; apply: eq_bigr => j _.
by rewrite -!h // !(addrC (vget _ _)) !addrK.
Qed.
End Rows.
