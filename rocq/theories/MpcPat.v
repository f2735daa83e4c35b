(** The stored entries of the program that an MPC object solves are the same in all calls (C87). *)
From mathcomp Require Import all_ssreflect all_algebra zify.
From mathcomp.algebra_tactics Require Import ring.
From Verif Require Import LinAlg QpModel QpSpec QpFacts QpAdmm QpLoop QpProps MeshModel MeshSpec PolyFacts MeshFacts MeshQuad MeshEval MeshProps.
From Verif Require Import SparseModel SparseFacts MeshFunModel MeshFunFacts MeshFunLoops MeshFunDyn MeshFunProps MeshFunTraj NlpModel NlpFacts NlpProps NlpSol.
From Verif Require Import OqpModel OqpFacts OqpProps OqpCost MpcModel MpcHist MpcCost MpcRows EndQp EndAsif EndMpc.
Set Implicit Arguments.
Unset Strict Implicit.
Unset Printing Implicit Defensive.
Import Order.TTheory GRing.Theory Num.Theory.
Local Open Scope ring_scope.
Local Arguments muln : simpl never.
Local Arguments bexec : simpl never.
Local Arguments interval_diffmat_unscaled : simpl never.

Section Pat.
Variable F : realFieldType.
Implicit Types (d A : smat F).
(** The entry is stored. *)
Definition pat A (r c : nat) : bool := isSome (A r c).
Definition opW (o : bop F) (r c : nat) : bool :=
  inb (b_r o) (b_c o) (rows (b_s o)) (cols (b_s o)) (b_up o) r c && isSome (ent (b_s o) (r - b_r o) (c - b_c o)).
Lemma bexec_pat d l r c : pat (bexec d l) r c = pat d r c || has (fun o => opW o r c) l.
Proof.
rewrite /bexec; elim: l d => [|o l IH] d /=; first by rewrite orbF.
by rewrite IH /block_add {1}/pat isSome_block_op -orbA.
Qed.
Lemma fold_pat (T : eqType) (S : Type) (obs : S -> smat F) (step : S -> T -> S) (W : T -> bool) r c (l : seq T) s :
  (forall s x, x \in l -> pat (obs (step s x)) r c = pat (obs s) r c || W x) ->
  pat (obs (foldl step s l)) r c = pat (obs s) r c || has W l.
Proof.
elim: l s => [|x l IH] s h /=; first by rewrite orbF.
rewrite IH => [|s' y hy]; last by apply: h; rewrite in_cons hy orbT.
by rewrite h ?in_cons ?eqxx // orbA.
Qed.
Lemma identity_pat d r0 c0 n k r c : pat (block_add_identity d r0 c0 n k) r c = pat d r c || has (fun j => (r == r0 + j)%N && (c == c0 + j)%N) (iota 0 n).
Proof.
apply: (fold_pat (obs := id)) => s x _; rewrite /pat /upd; case: ifP => _; by rewrite ?orbT ?orbF.
Qed.
Lemma zero_pat d r c : pat (set_zero d) r c = pat d r c.
Proof. by rewrite /pat /set_zero; case: (d r c). Qed.
Lemma zero_rows_pat n d r c : pat (zero_rows n d) r c = pat d r c.
Proof. by rewrite /pat /zero_rows; case: ifP => // _; case: (d r c). Qed.
End Pat.

Section Stages.
Variable F : realFieldType.
Variables Nx Nu Ncr Nce : nat.
Variables (Kmin Kmax : nat) (lgr : nat -> seq F * seq F) (m : mesh F).
Local Notation N := (N_colloc m).
Local Notation nv := (Nx * (N + 1) + Nu * N)%N.

Section Dyn.
Variables (X U : Type) (ad : (nat -> F) -> nat -> nat -> F).
Variables (f : F -> X -> U -> nat -> F) (df : F -> X -> U -> smat F).
Variables (xl : F -> X) (dxl : F -> nat -> F) (ul : F -> U) (tf : F).
Variable D : nat -> nat -> bool.
Hypothesis dfD : forall t x u r c, pat (df t x u) r c = D r c.
(** The entries that a point writes. *)
Definition pointW (x : nat * nat) (r c : nat) : bool :=
  let r0 := ((nb (N_colloc_ival m) x.1 + x.2) * Nx)%N in let c0 := (qxvar_L Nx m + (nb (N_colloc_ival m) x.1 + x.2) * Nu)%N in
  [|| inb r0 r0 Nx Nx false r c && D (0 + (r - r0)) (1 + (c - r0)), inb r0 c0 Nx Nu false r c && D (0 + (r - r0)) (1 + Nx + (c - c0)) |
      has (fun j => has (fun k => (r == r0 + k)%N && (c == (nb (N_colloc_ival m) x.1 + j) * Nx + k)%N) (iota 0 Nx)) (iota 0 (N_colloc_ival m x.1 + 1))].
Definition dynW (r c : nat) : bool := has (fun x => pointW x r c) (points m).
Lemma dyn_pat s r c : pat (oA (oqp_dyn Nx Nu Kmin Kmax lgr m true ad f df xl dxl ul tf s)) r c = pat (oA s) r c || dynW r c.
Proof.
rewrite dyn_points; rewrite (fold_pat (obs := @oA F) (W := fun x => pointW x r c)) => [|s1 x _]; first by rewrite /= zero_rows_pat.
rewrite /dyn_point; cbn [oA].
rewrite (fold_pat (obs := id) (W := fun j => has (fun k => (r == (nb (N_colloc_ival m) x.1 + x.2) * Nx + k)%N && (c == (nb (N_colloc_ival m) x.1 + j) * Nx + k)%N) (iota 0 Nx))) => [|s2 j _]; last exact: identity_pat.
by rewrite bexec_pat /= /opW /= orbF /pointW -!/(pat (df _ _ _) _ _) !dfD -!orbA.
Qed.
End Dyn.

Section Eval.
Variables (nf : nat) (fv : 'cV[F]_(1 + Nx + Nu) -> nat -> F) (df d2f : 'cV[F]_(1 + Nx + Nu) -> smat F).
Variable D : nat -> nat -> bool.
Hypothesis dfD : forall z r c, pat (df z) r c = D r c.
Definition nodeW (i r c : nat) : bool := let r0 := (nf * i)%N in
  [|| inb r0 0 nf 1 false r c && D (0 + (r - r0)) (0 + (c - 0)), inb r0 1 nf 1 false r c && D (0 + (r - r0)) (0 + (c - 1)),
      inb r0 (2 + i * Nx) nf Nx false r c && D (0 + (r - r0)) (1 + (c - (2 + i * Nx))) |
      inb r0 (2 + Nx * (N + 1) + Nu * i) nf Nu false r c && D (0 + (r - r0)) (1 + Nx + (c - (2 + Nx * (N + 1) + Nu * i)))].
Definition evW (r c : nat) : bool := has (fun i => nodeW i r c) (iota 0 N).
Lemma eval_pat t0 tf xs us scale out r c :
  pat (mvdF (mesh_eval nf fv df d2f Kmin Kmax lgr m t0 tf xs us scale out)) r c = (mvalloc out && pat (mvdF out) r c) || evW r c.
Proof.
rewrite /mesh_eval /eval_loop (fold_pat (obs := @mvdF F) (W := fun i => nodeW i r c)) => [|s1 i _].
  by rewrite /= zero_pat; case: (mvalloc out).
by rewrite /eval_step; cbn [mvdF]; rewrite bexec_pat /= /opW /= orbF /nodeW -!/(pat (df _) _ _) !dfD.
Qed.
End Eval.
End Stages.

(** * MPC objects with any solver *)
Section Mpc.
Variable F : realFieldType.
Variables Nx Nu Ncr : nat.
Local Notation X := 'cV[F]_Nx.
Local Notation U := 'cV[F]_Nu.
Variables (Tm : Type) (tplus : Tm -> F -> Tm) (tminus : Tm -> Tm -> F) (tzero : Tm).
Variables (Kmesh : nat) (lgr : nat -> seq F * seq F).
Variables (f : Tm -> X -> U -> nat -> F) (df : Tm -> X -> U -> nat -> nat -> F).
Variables (cr_time : bool) (cr : Tm -> X -> U -> nat -> F) (dcr : Tm -> X -> U -> nat -> nat -> F).
Variables (crl cru : nat -> F).
Variables (S : Type) (analyze : qpst F -> S) (solve : S -> qpst F -> option (msol F) -> S * msol F).
Local Notation mobj := (mobj F Nx Nu Tm S).
Local Notation cell := (cell F Nx Nu Tm).
Local Notation mop := (mop F Nx Nu Tm).
Local Notation mocp := (mpc_ocp Ncr tplus tzero f df cr_time cr dcr crl cru).
Local Notation new := (mpc_new Ncr tplus tzero Kmesh lgr f df cr_time cr dcr crl cru analyze).
Local Notation call := (mpc_call Ncr tplus tzero Kmesh lgr f df cr_time cr dcr crl cru solve).
Local Notation run := (mpc_run Ncr tplus tminus tzero Kmesh lgr f df cr_time cr dcr crl cru solve).
Implicit Types (ops : seq mop).
Variables (q : params F) (co : cell * mobj).
Hypothesis co_new : new q = Some co.
Local Notation m := (msh co.2).
Local Notation N := (N_colloc m).
Local Notation nv := (Nx * (N + 1) + Nu * N)%N.
Local Notation out ops t x := (call t x (run ops co).1).2.

Local Notation Wd := (dynW Nx Nu m (fun _ _ => true)).
Local Notation We := (evW Nx Nu m Ncr (fun _ c => c != 0)%N).
Definition Wcr (r c : nat) : bool := inb (qcrcon_B Nx m) 0 (qcrcon_L Ncr m) (qxvar_L Nx m + quvar_L Nu m) false r c && We (r - qcrcon_B Nx m) (2 + (c - 0)).
Definition Wce (r c : nat) : bool := let D r c := (c == 1 + r)%N in let r0 := qcecon_B Nx Ncr m in let c1 := (0 + qxvar_L Nx m - Nx)%N in
  (inb r0 0 Nx Nx false r c && D (0 + (r - r0))%N (1 + (c - 0))%N) || (inb r0 c1 Nx Nx false r c && D (0 + (r - r0))%N (1 + Nx + (c - c1))%N).
Lemma ddyn_pat w gh t0f t0c x0 z r c : pat (ddyn (mocp w gh t0f t0c x0) z) r c = true. Proof. by []. Qed.
Lemma dcr_pat w gh t0f t0c x0 z r c : pat (NlpModel.dcr (mocp w gh t0f t0c x0) z) r c = (c != 0)%N. Proof. by case: c. Qed.
Lemma dce_pat w gh t0f t0c x0 z r c : pat (dce (mocp w gh t0f t0c x0) z) r c = (c == 1 + r)%N.
Proof. by rewrite /pat /=; case: ifP. Qed.
Lemma ce_pat_ w gh t0f t0c x0 tf xl s r c : pat (oA (oqp_ce (mocp w gh t0f t0c x0) m tf xl s)) r c = pat (oA s) r c || Wce r c.
Proof.
rewrite /oqp_ce; cbn [oA]; rewrite /block_write {1}/pat !isSome_block_op; cbn [ent rows cols block]; rewrite -!/(pat (dce (mocp w gh t0f t0c x0) _) _ _) !dce_pat.
by rewrite -orbA.
Qed.
Lemma cr_pat_ w gh t0f t0c x0 tf xl ul s r c : mvalloc (w_cr s) -> (forall r c, pat (mvdF (w_cr s)) r c = We r c) ->
  let s' := oqp_cr (mocp w gh t0f t0c x0) Kmesh Kmesh lgr m tf xl ul s in
  [/\ pat (oA s') r c = pat (oA s) r c || Wcr r c, mvalloc (w_cr s') & forall r c, pat (mvdF (w_cr s')) r c = We r c].
Proof.
move=> ha hp s'.
have E r1 c1 : pat (mvdF (w_cr s')) r1 c1 = We r1 c1.
  rewrite /s' /oqp_cr; cbn [w_cr]; rewrite (@eval_pat _ _ _ _ _ _ _ _ _ _ _ (fun _ c => c != 0)%N (dcr_pat _ _ _ _ _)) ha /= hp; exact: orbb.
split=> //; last exact: ref_alloc.
by rewrite /s' /oqp_cr; cbn [oA]; rewrite /block_write {1}/pat isSome_block_op; cbn [ent rows cols block]; rewrite /Wcr -E.
Qed.
Definition WA (r c : nat) : bool := [|| Wd r c, Wcr r c | Wce r c].
Definition invp (o : mobj) : Prop :=
  [/\ msh o = m, forall r c, pat (oA (mqp o)) r c = WA r c, mvalloc (w_cr (mqp o)) & forall r c, pat (mvdF (w_cr (mqp o))) r c = We r c].
Local Notation mempty := (MVal false (fun=> 0) empty empty (fun=> 0)).
Lemma invp_new : invp co.2.
Proof.
have [gh [_ e2 _]] := new_qp co_new.
rewrite /invp e2; set p := mocp _ _ _ _ _; set s := oqp_allocate _ _ _ _ _ _.
have a1 : mvalloc (w_cr s) by exact: ref_alloc.
have a2 r c : pat (mvdF (w_cr s)) r c = We r c.
  by rewrite /s /oqp_allocate; cbn [w_cr]; rewrite (@eval_pat _ _ _ _ _ _ _ _ _ _ _ (fun _ c => c != 0)%N (dcr_pat _ _ _ _ _)).
rewrite /oqp_update.
have [_ _ d3 _] := dyn_other Nx Nu Kmesh Kmesh lgr m true (fun _ _ _ => 0) (fun t x u => dynv p (txu t x u)) (fun t x u => ddyn p (txu t x u))
  (fun=> 0) (fun _ => vget (0 : X)) (fun=> 0) (ptf q) (oqp_cost p Kmesh Kmesh lgr m (ptf q) (fun=> 0) (fun=> 0) s).
set s1 := oqp_dyn _ _ _ _ _ _ _ _ _ _ _ _ _ _ _ in d3 *.
have p1 r c : pat (oA s1) r c = Wd r c by rewrite (@dyn_pat _ _ _ _ _ _ _ _ _ _ _ _ _ _ _ _ (fun _ _ => true)).
have b1 : mvalloc (w_cr s1) by rewrite d3.
have b2 r c : pat (mvdF (w_cr s1)) r c = We r c by rewrite d3.
have C r c := cr_pat_ weights_default gh tzero tzero 0 (ptf q) (fun=> 0) (fun=> 0) r c b1 b2.
split=> //; last by have [] := C 0%N 0%N.
  by move=> r c; rewrite ce_pat_; have [-> _ _] := C r c; rewrite p1 /WA orbA.
by have [] := C 0%N 0%N.
Qed.
Lemma invp_call t x c o : invp o -> invp (call t x (c, o)).1.2.
Proof.
move=> [e1 i1 i2 i3]; rewrite /mpc_call; cbn [fst snd]; rewrite e1; cbv zeta.
set p := mocp _ _ _ _ _; set xr := xdes_rel _ _; set ur := udes_rel _ _; set dxr := dxdes_rel _ _; set tf := ptf _.
have [_ _ d3 _] := dyn_other Nx Nu Kmesh Kmesh lgr m true (fun _ _ _ => 0) (fun t x u => dynv p (txu t x u)) (fun t x u => ddyn p (txu t x u))
  xr dxr ur tf (mqp o).
set s1 := oqp_dyn _ _ _ _ _ _ _ _ _ _ _ _ _ _ _ in d3 *.
have p1 r c' : pat (oA s1) r c' = WA r c' || Wd r c' by rewrite (@dyn_pat _ _ _ _ _ _ _ _ _ _ _ _ _ _ _ _ (fun _ _ => true)) // i1.
have b1 : mvalloc (w_cr s1) by rewrite d3.
have b2 r c' : pat (mvdF (w_cr s1)) r c' = We r c' by rewrite d3.
have C r c' := cr_pat_ (wts o) empty t t x tf xr ur r c' b1 b2.
rewrite /invp; cbn [msh mqp]; set s2 := if cr_time then _ else _.
have [p2 c1 c2] : [/\ forall r c', pat (oA s2) r c' = WA r c' || Wd r c' \/ pat (oA s2) r c' = [|| WA r c', Wd r c' | Wcr r c'], mvalloc (w_cr s2) & forall r c', pat (mvdF (w_cr s2)) r c' = We r c'].
  rewrite /s2; case: cr_time; last by split=> // r c'; left.
  split=> [r c'||]; last by have [] := C 0%N 0%N.
    by right; have [-> _ _] := C r c'; rewrite p1 -orbA.
  by have [] := C 0%N 0%N.
split=> // r c'; rewrite ce_pat_; have [->|->] := p2 r c'; rewrite /WA; by case: (Wd r c'); case: (Wcr r c'); case: (Wce r c').
Qed.
Lemma invp_run ops : invp (run ops co).1.2.
Proof.
have G co' : invp co'.2 -> invp (run ops co').1.2; last exact: G invp_new.
elim: ops co' => [//|op ops IH] [c o] io; rewrite run_cons; apply: IH.
by case: op => // t x; exact: invp_call.
Qed.
(** The stored entries of the constraint matrix of every call are those of the constructor. *)
Theorem C87_pattern ops t x r c : isSome (oA (o_qp (out ops t x)) r c) = isSome (oA (mqp co.2) r c).
Proof.
have [_ h _ _] := invp_new; have := invp_run ops; case: (run ops co).1 => c1 o1 /(invp_call t x c1) [_ h' _ _].
by have := h' r c; have := h r c; rewrite /pat => -> <-.
Qed.
End Mpc.

(** * With the QP solver *)
Section Fresh.
Variable F : realFieldType.
Variables Nx Nu Ncr : nat.
Local Notation X := 'cV[F]_Nx.
Local Notation U := 'cV[F]_Nu.
Variables (Tm : Type) (tplus : Tm -> F -> Tm) (tminus : Tm -> Tm -> F) (tzero : Tm).
Variables (Kmesh : nat) (lgr : nat -> seq F * seq F).
Variables (f : Tm -> X -> U -> nat -> F) (df : Tm -> X -> U -> nat -> nat -> F).
Variables (cr_time : bool) (cr : Tm -> X -> U -> nat -> F) (dcr : Tm -> X -> U -> nat -> nat -> F).
Variables (crl cru : nat -> F).
Variables (n mm : nat) (e : env F n mm) (qprm : QpModel.params F) (qfuel : nat).
Local Notation S := (obj F n mm).
Local Notation solve := (mpc_solve e qprm qfuel).
Local Notation mobj := (mobj F Nx Nu Tm S).
Local Notation cell := (cell F Nx Nu Tm).
Local Notation mop := (mop F Nx Nu Tm).
Local Notation new := (mpc_new Ncr tplus tzero Kmesh lgr f df cr_time cr dcr crl cru (@mpc_analyze F n mm)).
Local Notation call := (mpc_call Ncr tplus tzero Kmesh lgr f df cr_time cr dcr crl cru solve).
Local Notation run := (mpc_run Ncr tplus tminus tzero Kmesh lgr f df cr_time cr dcr crl cru solve).
Implicit Types (ops : seq mop).
Hypothesis K0 : (0 < Kmesh)%N.
Variables (q : params F) (co : cell * mobj).
Hypothesis co_new : new q = Some co.
Local Notation m := (msh co.2).
Hypothesis hN : (\sum_(i < size m) N_colloc_ival m i < uint_mod)%N.
Local Notation out ops t x := (call t x (run ops co).1).2.
Definition cP0 (i j : 'I_n) : bool := isSome (oP (mqp co.2) i j).
Definition cA0 (i : 'I_mm) (j : 'I_n) : bool := isSome (oA (mqp co.2) i j).
Lemma out_structure ops t x : structure (sqp_of n mm (o_qp (out ops t x))) cP0 cA0.
Proof.
split=> i j; last exact: C87_pattern co_new _ _ _ _ _.
by have [e1 _ _ _] := out_qp tminus solve K0 co_new hN ops t x; rewrite /cP0 /= e1.
Qed.
Lemma slv_same ops : reach_same e qprm cP0 cA0 (slv (run ops co).1.2).
Proof.
elim/last_ind: ops => [|ops op IH].
  have : slv co.2 = analyze (@obj_new F n mm).
    by move: co_new; rewrite /mpc_new; case: mesh_new => [m'|//]; case: int_hess => [gh|//] [<-].
  move=> /= ->; exact: rm_analyze (rm_new _ _ _ _).
rewrite -cats1 run_cat; cbn [fst snd]; move: IH; have st t x := out_structure ops t x.
case er : (run ops co).1 st => [c o] st IH; rewrite run_cons; cbn [mpc_run fst snd].
case: op => // t x; have := st t x; rewrite /mpc_step; cbn [fst snd]; set s := o_qp _ => hs.
have -> : slv (call t x (c, o)).1.2 = (solve (slv o) s (warm o)).1 by [].
rewrite /mpc_solve; case es : solve_sparse => [[r o']|] //; exact: rm_solve IH hs es.
Qed.
(** What a call returns is what a new solver object returns for the same program and guess. *)
Theorem C87_fresh ops t x :
  o_sol (out ops t x) = (mpc_solve e qprm qfuel (@obj_new F n mm) (o_qp (out ops t x)) (o_guess (out ops t x))).2.
Proof.
have E := C13_history_sparse_same_structure qfuel (omap (@guess_of F n mm) (o_guess (out ops t x))) (slv_same ops) (out_structure ops t x).
have -> : o_sol (out ops t x) = (mpc_solve e qprm qfuel (slv (run ops co).1.2) (o_qp (out ops t x)) (o_guess (out ops t x))).2 by [].
move: E; rewrite /mpc_solve; case: (solve_sparse e qprm qfuel (slv _) _ _) => [[r o']|]; case: (solve_sparse e qprm qfuel _ _ _) => [[r1 o1]|] //= => -[->] //.
Qed.
End Fresh.
