(** The MPC controller on its reference (C88). *)
From mathcomp Require Import all_ssreflect all_algebra zify.
From mathcomp.algebra_tactics Require Import ring.
From Verif Require Import LinAlg QpModel QpSpec QpFacts QpAdmm QpLoop QpProps MeshModel MeshSpec PolyFacts MeshFacts MeshQuad MeshEval MeshProps.
From Verif Require Import SparseModel SparseFacts MeshFunModel MeshFunFacts MeshFunLoops MeshFunDyn MeshFunProps MeshFunTraj NlpModel NlpFacts NlpProps NlpSol.
From Verif Require Import OqpModel OqpFacts OqpProps OqpCost MpcModel MpcHist MpcCost MpcRows EndQp EndAsif EndMpc MpcPat.
From Verif Require AsifThms.
Set Implicit Arguments.
Unset Strict Implicit.
Unset Printing Implicit Defensive.
Import Order.TTheory GRing.Theory Num.Theory.
Local Open Scope ring_scope.
Local Arguments muln : simpl never.

(** * A new solver object that is started at the origin *)
Section Origin.
Variables (F : realFieldType) (n m : nat) (e : env F n m) (prm : QpModel.params F).
Lemma sparse_new fuel (ps : sqp F n m) ws :
  omap fst (solve_sparse e prm fuel (@obj_new F n m) ps ws) = omap fst (solve_dense e prm fuel (@obj_new F n m) (dense_of ps) ws).
Proof.
rewrite /solve_sparse /solve_dense; case: (cur_scale _ _ _ _) => // s.
rewrite fill_sparse_dense; last exact: clean_new.
by case: (solve_core _ _ _ _ _ _ _).
Qed.
Definition zguess (w : option (msol F)) : Prop := forall s, w = Some s -> (forall i, mprimal s i = 0) /\ (forall i, mdual s i = 0).
Lemma origin fuel (s : qpst F) w : good_sqrt e -> 0 < rho_bar prm -> 0 < sigma prm ->
  0 <= eps_abs prm -> 0 <= eps_rel prm -> polish prm = false -> (1 < stop_check_iter prm)%N ->
  (forall N, max_iter prm = Some N -> (1 < N)%N) -> (forall M, ldlt_ok e M) -> (0 < n)%N -> (0 < m)%N ->
  convex (dense_of (sqp_of n m s)) -> kkt (dense_of (sqp_of n m s)) 0 0 -> (1 < fuel)%N -> zguess w ->
  let r := (mpc_solve e prm fuel (@obj_new F n m) s w).2 in
  [/\ mcode r = Optimal, forall i, mprimal r i = 0 & forall i, mdual r i = 0].
Proof.
move=> h1 h2 h3 h4 h5 h6 h7 h8 h9 n0 m0 cv kk hf zw.
pose q0 : qsol F n m := QSol Unknown 0 0 0 0.
have [r [o' [e1 e2 e3 e4]]] := C85_returns h1 h2 h3 h4 h5 h6 h7 h8 h9 n0 m0 (rd_new e prm) cv (kk : kkt _ (primal q0) (dual q0)) hf.
rewrite (solve_none e prm _ _ _ (w := q0)) // in e1.
have E : omap fst (solve_sparse e prm fuel (@obj_new F n m) (sqp_of n m s) (omap (@guess_of F n m) w)) = Some r.
  rewrite sparse_new; case: w zw => [w|_]; last by rewrite e1.
  move=> /(_ w erefl) [w1 w2] /=.
  rewrite (solve_none e prm _ _ _ (w := guess_of n m w)) ?e1 //; apply/matrixP => i j; rewrite !mxE ?w1 ?w2 //.
move: E; rewrite /mpc_solve; case: solve_sparse => [[r1 o1]|//] /= [->].
have v0 k i : vget (0 : 'cV[F]_k) i = 0 by rewrite /vget /mget; case: insubP => //= a _ _; case: insubP => //= b _ _; rewrite mxE.
by split=> // i; rewrite ?e3 ?e4 v0.
Qed.
End Origin.

Section Ref.
Variable F : realFieldType.
Variables Nx Nu Ncr : nat.
Local Notation X := 'cV[F]_Nx.
Local Notation U := 'cV[F]_Nu.
Variables (Tm : Type) (tplus : Tm -> F -> Tm) (tminus : Tm -> Tm -> F) (tzero : Tm).
Variables (Kmesh : nat) (lgr : nat -> seq F * seq F).
Variables (f : Tm -> X -> U -> nat -> F) (df : Tm -> X -> U -> nat -> nat -> F).
Variables (cr_time : bool) (cr : Tm -> X -> U -> nat -> F) (dcr : Tm -> X -> U -> nat -> nat -> F).
Variables (crl cru : nat -> F).
Variables (n mm : nat) (e : env F n mm) (qprm : QpModel.params F) (qfuel : nat).
Local Notation S := (obj F n mm).
Local Notation analyze := (@mpc_analyze F n mm).
Local Notation solve := (mpc_solve e qprm qfuel).
Local Notation mobj := (mobj F Nx Nu Tm S).
Local Notation cell := (cell F Nx Nu Tm).
Local Notation mop := (mop F Nx Nu Tm).
Local Notation mocp := (mpc_ocp Ncr tplus tzero f df cr_time cr dcr crl cru).
Local Notation new := (mpc_new Ncr tplus tzero Kmesh lgr f df cr_time cr dcr crl cru analyze).
Local Notation call := (mpc_call Ncr tplus tzero Kmesh lgr f df cr_time cr dcr crl cru solve).
Local Notation run := (mpc_run Ncr tplus tminus tzero Kmesh lgr f df cr_time cr dcr crl cru solve).
Implicit Types (ops : seq mop).
Hypothesis K0 : (0 < Kmesh)%N.
Variables (q : params F) (co : cell * mobj).
Hypothesis co_new : new q = Some co.
Local Notation m := (msh co.2).
Local Notation N := (N_colloc m).
Local Notation nv := (Nx * (N + 1) + Nu * N)%N.
Hypothesis hN : (\sum_(i < size m) N_colloc_ival m i < uint_mod)%N.
Hypothesis en : n = nv.
Hypothesis em : mm = (Nx * N + Ncr * N + Nx)%N.
Hypothesis Hl : forall K, (Kmesh <= K <= Kmesh.+1)%N -> lgr_contract K (lgr K).
Local Notation tf := (ptf q).
Let rm : reachable Kmesh Kmesh (fun _ _ _ => 0%N) m := new_reach _ co_new.
Local Notation out ops t x := (call t x (run ops co).1).2.
Local Notation tm i := (time Kmesh Kmesh lgr m tf i).
Local Notation xd ops := (cur_xdes tminus ops).
Local Notation dxd ops := (cur_dxdes tminus ops).
Local Notation ud ops := (cur_udes tminus ops).
Local Notation ws := (all_weights Kmesh Kmesh lgr m).
(** * The Hessian of an object is diagonal and not negative *)
Lemma mget1 k i j : mget (1%:M : 'M[F]_k) i j = ((i < k)%N && (i == j))%:R.
Proof using Type.
rewrite /mget; case: insubP => [a ha ea|/negbTE ->] //=; rewrite ha.
case: insubP => [b hb eb|hb] /=; first by rewrite mxE -val_eqE /= ea eb.
by case: eqP => // ij; rewrite -ij ha in hb.
Qed.
Lemma EN : N = sumn [seq x.1 | x <- m].
Proof using hN.
have [_ -> // _] := C26_N_colloc_partial m.
by rewrite sumnE big_map (big_nth (0%N, 0)) big_mkord.
Qed.
Lemma gh_diag gh r c : int_hess (1%:M : 'M[F]_Nx) (1%:M : 'M[F]_Nu) empty = Some gh -> r != c -> val gh r c = 0.
Proof using Type.
move=> g1 rc; rewrite (int_hess_val _ _ g1) !mget1.
case: ifP => [/andP[h1 h2]|_].
  have -> : ((r - (1 + Nx))%N == (c - (1 + Nx))%N) = false by apply/negbTE; move: h1 h2 rc; rewrite /inr; clear; lia.
  by rewrite !andbF eqxx.
case: ifP => [/andP[h1 h2]|//].
have -> : ((r - 1)%N == (c - 1)%N) = false by apply/negbTE; move: h1 h2 rc; rewrite /inr; clear; lia.
by rewrite andbF.
Qed.
Lemma gh_ge0 gh r : int_hess (1%:M : 'M[F]_Nx) (1%:M : 'M[F]_Nu) empty = Some gh -> 0 <= val gh r r.
Proof using Type. by move=> g1; rewrite (int_hess_val _ _ g1) !mget1; do 2! case: ifP => // _; rewrite ?ler0n //; case: ifP. Qed.
Local Notation arg i := (argn Nx Nu (2 + Nx * i) (2 + Nx * (N + 1) + Nu * i)).
Local Notation cof i := (cofn Nx Nu (2 + Nx * i) (2 + Nx * (N + 1) + Nu * i)).
Lemma arg_inj i (tau : F) a b : (i < N)%N -> a != b -> cof i tau (2 + a) * cof i tau (2 + b) != 0 -> arg i (2 + a) != arg i (2 + b).
Proof using Type.
move=> hi ab; have hU : (Nx * i + Nx <= Nx * (N + 1))%N by rewrite -mulnSr leq_mul2l -addn1 leq_add2r (ltnW hi) orbT.
have E c : [/\ (2 + c < 2)%N = false, (2 + c == 0)%N = false & (2 + c == 1)%N = false] by [].
rewrite /cofn /argn; have [-> -> ->] := E a; have [-> -> ->] := E b; case: ifP => ha; last by rewrite mul0r eqxx.
case: ifP => hb; last by rewrite mulr0 eqxx.
move=> _; move: ha hb ab hU; move: (Nx * i)%N (Nx * (N + 1))%N (Nu * i)%N => p1 p2 p3; clear; repeat case: ifP; lia.
Qed.
Lemma cost_diag a b : (a < nv)%N -> (b < nv)%N -> a != b -> val (oP (mqp co.2)) a b = 0.
Proof.
move=> ha hb ab; have [gh [g1 g2 _]] := new_qp co_new.
case: (ltnP b a) => ba; first by rewrite g2 cost_P // leqNgt ba.
set s := oqp_allocate _ _ _ _ _ _ in g2.
have := @entry _ _ _ Ncr Tm tplus tzero Kmesh lgr f df cr_time cr dcr crl cru m weights_default gh tzero tzero 0 g1 tf (fun=> 0) (fun=> vget (0 : X)) (fun=> 0) s a b.
rewrite ba -g2 => ->; rewrite ?trmx1 //; last exact: ref_intlam.
rewrite mget1 (negbTE ab) andbF if_same mulr0 addr0; apply: big1 => i _.
set ca := cof i _ _; set cb := cof i _ _; case: (eqVneq (ca * cb) 0) => [->|h]; first by rewrite mul0r mulr0.
by rewrite (gh_diag g1) ?mulr0 //; apply: arg_inj h.
Qed.
Lemma cost_ge0 a : 0 <= tf -> (a < nv)%N -> 0 <= val (oP (mqp co.2)) a a.
Proof.
move=> tf0 ha; have [gh [g1 g2 _]] := new_qp co_new.
set s := oqp_allocate _ _ _ _ _ _ in g2.
have := @entry _ _ _ Ncr Tm tplus tzero Kmesh lgr f df cr_time cr dcr crl cru m weights_default gh tzero tzero 0 g1 tf (fun=> 0) (fun=> vget (0 : X)) (fun=> 0) s a a.
rewrite leqnn -g2 => ->; rewrite ?trmx1 //; last exact: ref_intlam.
have [_ [_ wp _ _ _]] := C21_nodes_weights Hl K0 (leqnn _) rm.
apply: addr_ge0; last by rewrite mget1 eqxx andbT; case: ifP => _; rewrite ?mulr0 // mulr_ge0 ?invr_ge0 ?ler0n.
apply: sumr_ge0 => i _; apply: mulr_ge0; first by rewrite mulr_ge0 // ltW // wp // -EN.
by rewrite mulr_ge0 ?(gh_ge0 _ g1) // -expr2 sqr_ge0.
Qed.
Lemma out_convex ops t x : 0 <= tf -> convex (dense_of (sqp_of n mm (o_qp (out ops t x)))).
Proof.
move=> tf0; have [e1 _ _ _] := out_qp tminus solve K0 co_new hN ops t x.
have hn (i : 'I_n) : (i < nv)%N by rewrite -en.
have D (i j : 'I_n) : i != j -> qP (dense_of (sqp_of n mm (o_qp (out ops t x)))) i j = 0.
  by move=> ij; rewrite mxE /= e1; exact: cost_diag.
split; first by apply/matrixP => i j; rewrite mxE; case: (eqVneq i j) => [->//|ij]; rewrite !D // eq_sym.
move=> z; rewrite /qf mxE sumr_ge0 // => j _; rewrite mxE (bigD1 j) //= big1 ?addr0 => [|i ij]; last by rewrite D ?mulr0.
rewrite [z^T _ _]mxE mulrAC -expr2 mulr_ge0 ?sqr_ge0 // mxE /= e1; exact: cost_ge0.
Qed.
(** * On the reference *)
(** The state passed at time t is the desired state, the desired trajectories satisfy the dynamics at the nodes of the
    horizon, and the running constraints hold on them; constraints without set_time are those of the linearization
    around the origin (C48). *)
Definition on_ref ops t (x : X) : Prop :=
  [/\ x = xd ops (tplus t 0),
      forall i k, (i < N)%N -> (k < Nx)%N -> let T := tplus t (tm i) in f T (xd ops T) (ud ops T) k = vget (dxd ops T) k &
      forall i k, (i < N)%N -> (k < Ncr)%N -> let T := tplus t (tm i) in
        if cr_time then crl k <= cr T (xd ops T) (ud ops T) k <= cru k else crl k <= cr tzero 0 0 k <= cru k].
Lemma ref_rows ops t x r : on_ref ops t x -> (r < Nx * N + Ncr * N + Nx)%N -> row_holds Nx Nu m (o_qp (out ops t x)) (fun=> 0) r.
Proof.
move=> [h1 h2 h3] hr.
have z0 k (g : 'I_k -> F) : \sum_(b < k) g b * 0 = 0 by apply: big1 => b _; rewrite mulr0.
case: (ltnP r (Nx * N)) => r1.
  have [_ h] := C74_dynamics tminus solve K0 co_new hN ops t x (fun=> 0) Hl; apply: h r1 => I j k hI hj hk; cbv zeta.
  rewrite /dx_of /du_of !z0 !addr0 h2 //; last exact: (row_n K0 (leqnn _) rm hN hI hj).
  by rewrite subrr mulr0; apply: big1 => a _; rewrite mul0r.
case: (ltnP r (Nx * N + Ncr * N)) => r2; last first.
  have [_ h] := C74_initial tminus solve K0 co_new hN ops t x (fun=> 0).
  by apply: h; rewrite ?r2 // => k hk; rewrite /dx_of addr0 -h1.
have hh : (Nx * N <= r < Nx * N + Ncr * N)%N by rewrite r1.
have [ct|ct] : cr_time \/ ~~ cr_time by case: (cr_time); [left|right].
  have [_ h] := C48_rows_time tminus solve K0 co_new hN ops t x (fun=> 0) ct.
  apply: h hh => i k hi hk; rewrite /dx_of /du_of !z0 !addr0; have := h3 i k hi hk; cbv zeta; by rewrite (ifT _ _ ct).
have [_ h] := C48_rows_constant tminus solve K0 co_new hN ops t x (fun=> 0) ct.
apply: h hh => i k hi hk; rewrite /dx_of /du_of !z0 !addr0; have := h3 i k hi hk; cbv zeta; by rewrite (ifN _ _ ct).
Qed.
Lemma ref_kkt ops t x : on_ref ops t x -> kkt (dense_of (sqp_of n mm (o_qp (out ops t x)))) 0 0.
Proof.
move=> h; have [_ e2 _ _] := out_qp tminus solve K0 co_new hN ops t x.
have [gh [g1 g2 _]] := new_qp co_new.
split=> [i||i]; rewrite ?mulmx0 ?add0r ?addr0.
- have hi : (i < Nx * N + Ncr * N + Nx)%N by rewrite -em.
  have := ref_rows h hi; rewrite /row_holds big1 => [|c _]; last by rewrite mulr0.
  by rewrite mxE.
- apply/matrixP => i j; rewrite !mxE /= e2 g2 mpc_q ?trmx1 // -?en //; exact: ref_intlam.
- by rewrite [X in multiplier _ _ _ X]mxE; split; rewrite ltxx.
Qed.
Hypotheses (hs : good_sqrt e) (r0 : 0 < rho_bar qprm) (s0 : 0 < sigma qprm) (ea : 0 <= eps_abs qprm) (er : 0 <= eps_rel qprm).
Hypotheses (pf : polish qprm = false) (hc : (1 < stop_check_iter qprm)%N) (hm : forall k, max_iter qprm = Some k -> (1 < k)%N).
Hypotheses (lok : forall M, ldlt_ok e M) (tf0 : 0 <= tf) (Nx0 : (0 < Nx)%N) (hf : (1 < qfuel)%N).
(** The output of a call equals the desired trajectories. *)
Definition is_ref ops t x : Prop :=
  [/\ o_code (out ops t x) = Optimal, o_u (out ops t x) = ud ops (tplus t 0),
      forall i, (i < N)%N -> nth 0 (o_us (out ops t x)) i = ud ops (tplus t (tm i)) &
      forall i, (i <= N)%N -> nth 0 (o_xs (out ops t x)) i = xd ops (tplus t (tm i))].
Lemma ref_call ops t x : on_ref ops t x -> zguess (o_guess (out ops t x)) -> is_ref ops t x /\ zguess (Some (o_sol (out ops t x))).
Proof.
move=> h zg; have N0 : (0 < N)%N := N0 K0 (leqnn _) rm hN.
have n0 : (0 < n)%N by rewrite en addn1 mulnSr; move: Nx0; clear; lia.
have m0 : (0 < mm)%N by rewrite em; move: Nx0; clear; lia.
have [] := origin hs r0 s0 ea er pf hc hm lok n0 m0 (out_convex ops t x tf0) (ref_kkt h) hf zg.
rewrite -(C87_fresh tminus e qprm qfuel K0 co_new hN) => c1 c2 c3.
have vx i : (i <= N)%N -> nth 0 (o_xs (out ops t x)) i = xd ops (tplus t (tm i)).
  move=> hi; apply/matrixP => k j; rewrite (ord1 j).
  by have := xsol tminus e qprm qfuel K0 co_new hN Hl ops t x hi (ltn_ord k); rewrite /dx_of c2 addr0 !AsifThms.vgetO.
have vu i : (i < N)%N -> nth 0 (o_us (out ops t x)) i = ud ops (tplus t (tm i)).
  move=> hi; apply/matrixP => k j; rewrite (ord1 j).
  by have := out_u tminus solve K0 co_new hN Hl ops t x hi (ltn_ord k); rewrite /du_of c2 addr0 !AsifThms.vgetO.
have [[s1 _ s3 _] _] := C21_nodes_weights Hl K0 (leqnn _) rm.
have t00 : tm 0 = 0 by rewrite /time nth0 s3 mulr0.
split; last by move=> s [<-].
by split=> //; rewrite -(out_u0 tminus solve K0 co_new hN Hl) vu // t00.
Qed.
(** A call without a guess, after any history: in particular the first call, and the first one after reset_warmstart. *)
Theorem C88_cold ops t x : o_guess (out ops t x) = None -> on_ref ops t x -> is_ref ops t x.
Proof. by move=> g h; have [] := ref_call h (_ : zguess (o_guess (out ops t x))) => //; rewrite g. Qed.
Definition ref_history ops : Prop := forall ops1 t x ops2, ops = ops1 ++ Call Nu t x :: ops2 -> on_ref ops1 t x.
Lemma ref_warm ops : ref_history ops -> zguess (warm (run ops co).1.2).
Proof.
elim/last_ind: ops => [|ops op IH] h.
  have -> // : warm (run [::] co).1.2 = None.
  by move: co_new; rewrite /mpc_new; case: mesh_new => [m'|//]; case: int_hess => [gh|//] [<-].
have h' : ref_history ops by move=> o1 t x o2 E; apply: (h o1 t x (rcons o2 op)); rewrite E -!cats1 -catA.
have {IH}wm := IH h'; rewrite -cats1 run_cat; cbn [fst snd].
case eo : op => [u|g t0|xa dx|g d t0|w||t x]; try by move: wm; case: (run ops co).1.
have hr : on_ref ops t x by apply: (h ops t x [::]); rewrite -cats1 eo.
have [_ zs] := ref_call hr wm.
move: wm zs; case: (run ops co).1 => c o wm zs; rewrite run_cons; cbn [mpc_run fst snd].
have -> : warm (mpc_step Ncr tplus tminus tzero Kmesh lgr f df cr_time cr dcr crl cru solve (Call Nu t x) (c, o)).1.2 =
  if pwarm (prm o) && usable (mcode (o_sol (call t x (c, o)).2)) then Some (o_sol (call t x (c, o)).2) else warm o by [].
by case: ifP.
Qed.
(** As long as all calls are made on the reference, every call returns the reference. *)
Theorem C88_reference ops t x : ref_history ops -> on_ref ops t x -> is_ref ops t x.
Proof. by move=> h hr; have [] := ref_call hr (ref_warm h). Qed.
End Ref.
