(** Property C100: a solver object warm-started from its own last solution, solver.solve(pbm, solver.sol()).

    QPSolver::solve takes the guess by reference (qp_solver.hpp:344) and sol() returns a reference to the member sol_
    (qp_solver.hpp:292), into which solve writes before it has read the guess for the last time (qp_solver.hpp:438-440). *)
From Coq Require Import ZArith QArith.
From mathcomp Require Import all_ssreflect all_algebra.
From mathcomp.algebra_tactics Require Import ring.
From Verif Require Import QF LinAlg QpModel QpSpec QpFacts QpAdmm QpLoop QpProps QpConv QpCodes QpCex EndQp.
Set Implicit Arguments.
Unset Strict Implicit.
Unset Printing Implicit Defensive.
Import Order.TTheory GRing.Theory Num.Theory.
Local Open Scope ring_scope.

Section Own.
Variables (F : realFieldType) (n m : nat) (e : env F n m) (prm : params F).
Implicit Types (p : qp F n m) (s : scaling_t F n m) (o : obj F n m) (w : qsol F n m).

(** qp_solver.hpp:438-440 when the guess is sol_ itself: line 438 overwrites the primal part, which line 440 reads. *)
Definition start_own p s w : xyz F n m :=
  let x := cmul (cinv (s_x s)) (primal w) in
  XYZ x (s_c s *: cmul (cinv (s_y s)) (dual w)) (cmul (s_y s) (qA p *m x)).
(** solve(), as in QpModel.solve_core and QpModel.solve_dense, from given initial values. *)
Definition core_from fuel p s Hs (v0 : xyz F n m) : option (qsol F n m) :=
  omap (finish e prm p s) (main_loop e prm fuel 0 p s Hs v0 (ret0 e p Hs)).
(** A solver object together with the member sol_. *)
Record solver := Solver { so_obj : obj F n m; so_sol : qsol F n m }.
(** solver.solve(pbm, solver.sol()). *)
Definition solve_own fuel (S : solver) p : option solver :=
  if cur_scale e prm (so_obj S) p is Some s then
    if core_from fuel p s (symU (fill_dense prm p s)) (start_own p s (so_sol S)) is Some r then
      Some (Solver (Obj s (o_h (so_obj S)) (o_cmp (so_obj S)) (o_pat (so_obj S))) r) else None
  else None.
(** solver.solve(pbm, ws) with a guess stored elsewhere, or without guess. *)
Definition solve_other fuel (S : solver) p (ws : option (qsol F n m)) : option solver :=
  if solve_dense e prm fuel (so_obj S) p ws is Some (r, o') then Some (Solver o' r) else None.
(** Objects made by the constructor (sol_ is value-initialized and set to zero by analyze, qp_solver.hpp:301-303) and any
    sequence of calls. *)
Inductive reach_own : solver -> Prop :=
| ro_make c k t : reach_own (Solver (@obj_new F n m) (QSol c k 0 0 t))
| ro_analyze S : reach_own S -> reach_own (Solver (analyze (so_obj S)) (QSol (code (so_sol S)) (niter (so_sol S)) 0 0 (objective (so_sol S))))
| ro_other S fuel p ws S' : reach_own S -> solve_other fuel S p ws = Some S' -> reach_own S'
| ro_own S fuel p S' : reach_own S -> solve_own fuel S p = Some S' -> reach_own S'.

Lemma own_obj fuel S p S' : solve_own fuel S p = Some S' -> exists2 s, cur_scale e prm (so_obj S) p = Some s &
  o_s (so_obj S') = s /\ core_from fuel p s (symU (fill_dense prm p s)) (start_own p s (so_sol S)) = Some (so_sol S').
Proof. by rewrite /solve_own; case: cur_scale => // s; case E: core_from => [r|] // [<-]; exists s. Qed.
Lemma other_obj fuel S p ws S' : solve_other fuel S p ws = Some S' -> exists2 s, cur_scale e prm (so_obj S) p = Some s & o_s (so_obj S') = s.
Proof. by rewrite /solve_other; case E: solve_dense => [[r o']|] // [<-]; have [s cs [_ ->]] := solve_dense_obj E; exists s. Qed.
Lemma reach_own_good S : good_sqrt e -> reach_own S -> good_scaling (o_s (so_obj S)).
Proof.
move=> h; elim=> [c k t|T _ _|T fuel p ws T' _ g /other_obj[s cs ->]|T fuel p T' _ g /own_obj[s cs [-> _]]].
- exact: ones_good.
- exact: ones_good.
- exact: cur_scale_good cs.
- exact: cur_scale_good cs.
Qed.

Lemma core_own1 fuel p Hs w : core_from fuel p (Scaling 1 (ones F n) (ones F m)) Hs (start_own p (Scaling 1 (ones F n) (ones F m)) w) =
  solve_core e prm fuel p (Scaling 1 (ones F n) (ones F m)) Hs (Some w).
Proof.
rewrite /core_from /solve_core; congr omap; congr main_loop; rewrite /start_own /start /=.
by have -> : cmul (cinv (ones F n)) (primal w) = primal w by rewrite cinv1 cmul1.
Qed.
(** Without scaling, a solver that is given its own solution does what it does for a copy of it. *)
Theorem C100_unscaled S fuel p : scaling prm = false -> reach_own S ->
  solve_own fuel S p = solve_other fuel S p (Some (so_sol S)).
Proof.
move=> sc rS; have E : o_s (so_obj S) = Scaling 1 (ones F n) (ones F m).
  elim: rS => // [T fuel' p' ws T' _ IH /other_obj[s cs ->]|T fuel' p' T' _ IH /own_obj[s cs [-> _]]]; rewrite -IH;
  by move: cs; rewrite /cur_scale sc => -[].
rewrite /solve_own /solve_other /solve_dense /cur_scale sc E.
rewrite core_own1.
by case: solve_core.
Qed.

(** With scaling, what is reported as Optimal still satisfies the tolerances of C02. *)
Theorem C100_optimal S fuel p S' : good_sqrt e -> 0 < rho_bar prm -> polish prm = false -> reach_own S ->
  solve_own fuel S p = Some S' -> code (so_sol S') = Optimal ->
  let r := so_sol S' in
  exists z, approx_kkt p (primal r) (dual r) z (tol_primal prm p (primal r) z) (tol_dual prm p (primal r) (dual r)).
Proof.
move=> h r0 pf rS /own_obj[s cs [_ hs]]; have g := cur_scale_good h (reach_own_good h rS) cs.
move: (so_sol S') hs => r; rewrite /core_from; set v0 := start_own _ _ _.
case hl : main_loop => [[[k v] rc]|] //= [<-] /= hc.
have {hc} rcE : rc = Some Optimal by case: rc hc {hl} => [c|] //=; case: c.
rewrite rcE in hl *; move: hl; rewrite /ret0; case: ifP => lok; last by rewrite loop_done.
case: ifP => ti; first by rewrite loop_done.
set Hs := symU _; have {1}-> : v0 = traj prm p s Hs v0 0 by [].
move=> /loopP[_ -> _ _ [j -> [_ cj vj]]].
have ck : check_optimal prm p (unscale_x s (it_x (traj prm p s Hs v0 j.+1))) (unscale_y s (it_y (traj prm p s Hs v0 j.+1)))
    (unscale_z s (it_z (traj prm p s Hs v0 j.+1))).
  move: vj; rewrite /verdict /check_iter.
  case E : (check_stopping _ _ _ _ _ _ _) => [c|]; last by case: ifP.
  move=> [hc]; rewrite hc in E; move: E; rewrite /check_stopping.
  by case: ifP => //; case: ifP => //; case: ifP.
have [c sx sy] := g; set v' := traj _ _ _ _ _ _ in ck *.
have cn : cone (sl' p s) (su' p s) v' by apply: step_cone' => //; exact: not_trivial.
move: (v') ck cn => {}v' ck cn; rewrite /finish pf /=.
exists (unscale_z s (it_z v')); have [t1 t2] := approx_of_check ck; split=> // i.
- have [b _] := cn i; move: b; rewrite mxE [X in between _ _ (X * _)]mxE -[X in between (sl' _ _ _) _ X -> _](mulVKf (lt0r_neq0 (sy i))).
  by rewrite between_scale.
- have [_ hm] := cn i; rewrite !mxE /=.
  have := mult_scale (ql p i) (qu p i) ((s_y s i 0)^-1 * it_z v' i 0) ((s_c s)^-1 * (s_y s i 0 * it_y v' i 0))
    (sy i) (divr_gt0 c (sy i)).
  case=> H _; apply: H; rewrite mulVKf ?lt0r_neq0 //.
  by rewrite mulrA -mulrA mulrACA mulfV ?lt0r_neq0 // mul1r mulKf // lt0r_neq0.
Qed.

(** The iteration is the iteration on the scaled problem. *)
Notation spb s p := (scaled_problem (s_c s) (s_x s) (s_y s) p).
Notation s1 := (Scaling 1 (ones F n) (ones F m)).
Lemma traj_spb s p v k : good_scaling s -> traj prm p s (Hd prm p s) v k = traj prm (spb s p) s1 (Hd prm (spb s p) s1) v k.
Proof.
move=> [c sx sy]; have eH : Hd prm p s = Hd prm (spb s p) s1 by rewrite /Hd (C01_iterates prm p 0 (XYZ 0 0 0) c sx sy).2.
rewrite eH; elim: k => [|k IH] //; rewrite /traj !iterS -!/(traj _ _ _ _ _ k) IH.
exact: (C01_iterates prm p _ _ c sx sy).1.
Qed.
Lemma traj_ext s p p' v k : qP p = qP p' -> qq p = qq p' -> qA p = qA p' -> ql p =1 ql p' -> qu p =1 qu p' ->
  traj prm p s (Hd prm p s) v k = traj prm p' s (Hd prm p' s) v k.
Proof.
move=> eP eq eA el eu; have er : rho_vec prm p s = rho_vec prm p' s by apply: vecP => i; rewrite !mxE el eu.
have eH : Hd prm p s = Hd prm p' s by rewrite /Hd /fill_dense er /scaledP /scaledA eP eA.
rewrite eH; elim: k => [|k IH] //; rewrite /traj !iterS -!/(traj _ _ _ _ _ k) IH !step_genE er /admm_rhs er eq.
by apply: step_gen_ext => w; apply: vecP => i; rewrite !mxE el eu.
Qed.
End Own.

(** * With scaling, the guess is spoiled *)
Section Refuted.
Variable F : realFieldType.
Notation f := (q2f F).
Notation s1 := (Scaling 1 (ones F 1) (ones F 1)).
(** min 0 subject to 16 x = 16. *)
Definition p100 : qp F 1 1 := p1 F (0#1) (0#1) (16#1) (Fi (16#1)) (Fi (16#1)).
Definition w100 : qsol F 1 1 := QSol Optimal 0 (cst F (1#1)) (cst F (0#1)) 0.
Definition s100 : scaling_t F 1 1 := Scaling 1 (cst F (1#4)) (cst F (1#4)).
Lemma scale100 (e : env F 1 1) : sqrt e 1 = 1 -> sqrt e (f (1#16)) = f (1#4) -> scale e p100 = Some s100.
Proof.
move=> sq sq16; rewrite /scale; have -> : (0 < 1)%N && (0 < 1)%N by [].
have bm (g : 'I_1 -> F) : \big[Num.max/0]_i `|g i| = `|g 0| by rewrite big_ord_recl big_ord0; apply: max_l.
have m1 k : Num.max 1 (em F k) = 1.
  by rewrite max_l // /em invf_le1 ?exprn_gt0 ?ltr0n // exprn_ege1 // ler1n.
have m16 k : Num.max (f (16#1)) (em F k) = f (16#1).
  rewrite max_l //; apply: (@le_trans _ _ 1); last by rewrite -(q2f1 F) q2f_le.
  by have := m1 k; rewrite maxC => /eqP; rewrite eq_maxr.
have c1 : cost_scale p100 = 1.
  rewrite /cost_scale /= cst_norm big_ord1 /cost_cols /unit0 !mxE bm !mxE q2f0 normr0 eqxx divr1.
  rewrite [Num.max 1 _]max_l; first by rewrite maxC m1 divr1.
  exact: ler01.
rewrite c1.
have xi a : ~~ Qle_bool (Qmult (Qmult a a) (16#1)) (0#1) -> x_inc p100 (Scaling 1 (cst F a) (cst F a)) = cst F (Qmult (Qmult a a) (16#1)).
  rewrite -(q2f_lt F) q2f0 => a0.
  apply/matrixP => i j; rewrite [j]ord1 [i]ord1 /x_inc /unit0 !mxE !bm !mxE /= ?mxE -!q2fM q2f0 mulr0 normr0 (gtr0_norm a0).
  by rewrite max_r ?ltW // (gt_eqF a0).
have yi a : ~~ Qle_bool (Qmult (Qmult a a) (16#1)) (0#1) -> y_inc p100 (Scaling 1 (cst F a) (cst F a)) = cst F (Qmult (Qmult a a) (16#1)).
  rewrite -(q2f_lt F) q2f0 => a0.
  by apply/matrixP => i j; rewrite [j]ord1 [i]ord1 /y_inc /unit0 !mxE !bm !mxE /= ?mxE -!q2fM (gtr0_norm a0) (gt_eqF a0).
have r1 : scale_round e p100 (Scaling 1 (cst F (1#1)) (cst F (1#1))) = s100.
  rewrite /scale_round -[s_x _]/(cst F (1#1)) -[s_y _]/(cst F (1#1)) -[s_c _]/(1 : F) xi // yi //.
  have -> : cst F (Qmult (Qmult (1#1) (1#1)) (16#1)) = cst F (16#1) by exact: cst_eq.
  have -> : apply_inc e (cst F (16#1)) (cst F (1#1)) = cst F (1#4) => //.
  by apply/matrixP => i j; rewrite !mxE m16 -q2fV -[Qinv _]/(1#16)%Q sq16 q2f1 mulr1.
have r2 : scale_round e p100 s100 = s100.
  rewrite /scale_round -[s_x _]/(cst F (1#4)) -[s_y _]/(cst F (1#4)) -[s_c _]/(1 : F) xi // yi //.
  have -> : cst F (Qmult (Qmult (1#4) (1#4)) (16#1)) = ones F 1 by rewrite -cst1; exact: cst_eq.
  have -> : apply_inc e (ones F 1) (cst F (1#4)) = cst F (1#4) => //.
  by apply/matrixP => i j; rewrite !mxE m1 invr1 sq mul1r.
have p1 : 1 / 10%:R < spread p100 (Scaling 1 (cst F (1#1)) (cst F (1#1))).
  rewrite /spread xi // yi // -cst1 cstN cstD cst_norm maxxx (q2f_nat F) -(q2f1 F) -q2f_div q2f_lt //.
have p2 : 1 / 10%:R < spread p100 s100 = false.
  rewrite /spread xi // yi //.
  have -> : cst F (Qmult (Qmult (1#4) (1#4)) (16#1)) = ones F 1 by rewrite -cst1; exact: cst_eq.
  by rewrite !subrr !norm0 maxxx ltNge divr_ge0 ?ler0n ?ler01.
have slE k s : scale_loop e k.+1 p100 s = if 1 / 10%:R < spread p100 s then scale_loop e k p100 (scale_round e p100 s) else scale_round e p100 s by [].
by rewrite -cst1 (slE 9%N) p1 r1 (slE 8%N) p2 r2.
Qed.
Notation prm := (dprm F true false).
Lemma good100 : good_scaling s100.
Proof. by split=> [|i|i]; rewrite ?ltr01 //= mxE -(q2f0 F) q2f_lt. Qed.
Definition p100s : qp F 1 1 := p1 F (0#1) (0#1) (1#1) (Fi (4#1)) (Fi (4#1)).
Lemma traj100 v k : traj prm p100 s100 (Hd prm p100 s100) v k = traj prm p100s s1 (Hd prm p100s s1) v k.
Proof.
rewrite traj_spb; last exact: good100.
have eb : forall i : 'I_1, ext_times (cst F (1#4) i 0) (Fin (f (16#1))) = Fin (f (4#1)).
  by move=> i; rewrite /= mxE -q2fM; congr Fin; exact: q2f_eq.
by apply: traj_ext => //=; rewrite ?scale1r ?mul_diagl ?mul_diagr; apply/matrixP => i j;
  rewrite !mxE -?q2fM; exact: q2f_eq.
Qed.
Lemma rho100 : rho_vec prm p100s s1 = cst F (100#1).
Proof.
apply: rho1; rewrite /= subrr normr0 mulr0 invr_gt0 exprn_gt0 ?ltr0n // (q2f_nat F) q2fX -q2fM.
exact: q2f_eq.
Qed.
Lemma start100 w : primal w = cst F (1#1) -> dual w = cst F (0#1) ->
  start_own p100 s100 w = stv F ((4#1), (0#1), (16#1))%Q.
Proof.
move=> h1 h2; rewrite /start_own h1 h2 -[s_x _]/(cst F (1#4)) -[s_y _]/(cst F (1#4)) -[s_c _]/(1 : F) -[qA _]/(cst F (16#1)).
by rewrite scale1r !cst_cinv !(cst_cmul, cstM); congr XYZ; exact: cst_eq.
Qed.
Definition stop100 (w w' : Q * Q * Q) : bool :=
  [|| optq (0#1) (0#1) (16#1) (1#1000) (1#1000) (Qmult (1#4) w'.1.1) (Qmult (1#4) w'.1.2) (Qmult (Qinv (1#4)) w'.2),
      pinfq (16#1) (Fi (16#1)) (Fi (16#1)) (1#10000) (Qmult (1#4) (Qplus w'.1.2 (Qopp w.1.2))) |
      dinfq (0#1) (0#1) (16#1) (Fi (16#1)) (Fi (16#1)) (1#10000) (Qmult (1#4) (Qplus w'.1.1 (Qopp w.1.1)))].
(** The first test, made in iteration 1, does not stop the iteration from the spoiled guess. *)
Lemma verdict100 (e : env F 1 1) :
  verdict e prm p100 s100 (Hd prm p100 s100) (stv F ((4#1), (0#1), (16#1))%Q) 1 = None.
Proof.
rewrite /verdict !traj100 !(trajq (rho := (100#1)) rho100) //.
set stp := stepq _ _ _ _ _ _ _ _; set v0 := (_, _, _).
have hb : stop100 (iter 1 stp v0) (iter 2 stp v0) = false by vm_compute.
move: (iter 1 stp v0) (iter 2 stp v0) hb => w w' hb.
rewrite /check_iter /unscale_x /unscale_y /unscale_z -[s_x _]/(cst F (1#4)) -[s_y _]/(cst F (1#4)) -[s_c _]/(1 : F) invr1.
rewrite !scale1r /stv /st /it_x /it_y /it_z cst_cinv !(cstN, cstD) !cst_cmul /check_stopping.
rewrite (@optqE F (0#1) (0#1) (16#1) (Fi (16#1)) (Fi (16#1)) (1#1000) (1#1000)) //.
rewrite (@pinfqE F (0#1) (0#1) (16#1) (Fi (16#1)) (Fi (16#1)) (1#10000)) //.
rewrite (@dinfqE F (0#1) (0#1) (16#1) (Fi (16#1)) (Fi (16#1)) (1#10000)) //.
by move: hb; rewrite /stop100 => /negbT; rewrite !negb_or => /and3P[/negbTE -> /negbTE -> /negbTE ->].
Qed.
Lemma kkt100 w : primal w = cst F (1#1) -> dual w = cst F (0#1) -> kkt p100 (primal w) (dual w).
Proof.
move=> -> ->; split=> [i||i].
- by rewrite /= cstM mxE /between /= !q2f_le.
- by rewrite /= cstT !cstM !cstD -cst0; exact: cst_eq.
- by rewrite [cst F (0#1) i 0]mxE q2f0; split; rewrite ltxx.
Qed.
Lemma convex100 : convex p100.
Proof.
split; first by rewrite /symm /= cstT.
by move=> x; rewrite /= cst0 /qf mulmx0 ?mul0mx mxE.
Qed.
Theorem C100_refuted : exists p : qp F 1 1, convex p /\
  forall e : env F 1 1, good_sqrt e -> (forall M, ldlt_ok e M) -> sqrt e 1 = 1 -> sqrt e (f (1#16)) = f (1#4) ->
  exists S, [/\ reach_own e prm S, code (so_sol S) = Optimal, kkt p (primal (so_sol S)) (dual (so_sol S)),
    exists S', [/\ solve_other e prm 2 S p (Some (so_sol S)) = Some S', code (so_sol S') = Optimal & primal (so_sol S') = primal (so_sol S)] &
    solve_own e prm 2 S p = None].
Proof.
exists p100; split=> [|e h lok q1 q16]; first exact: convex100.
have ge0 a : Qle_bool (0#1) a -> 0 <= f a by rewrite -(q2f0 F) q2f_le.
have gt0 a : ~~ Qle_bool a (0#1) -> 0 < f a by rewrite -(q2f0 F) q2f_lt.
pose S0 := Solver (@obj_new F 1 1) (QSol Optimal 0 0 0 0).
have go o w : reach_d e prm o -> primal w = cst F (1#1) -> dual w = cst F (0#1) ->
    exists r o', [/\ solve_dense e prm 2 o p100 (Some w) = Some (r, o'), code r = Optimal, primal r = primal w & dual r = dual w].
  move=> ro h1 h2; apply: C85_returns => //; try exact: ge0; try exact: gt0; [exact: convex100|exact: kkt100].
have r0 : reach_d e prm (@obj_new F 1 1) by constructor.
have [r [o [hs hc h1 h2]]] := go _ w100 r0 erefl erefl.
have ro : reach_d e prm o by apply: rd_solve r0 hs.
exists (Solver o r); split=> //=.
- by apply: (@ro_other _ _ _ _ _ S0 2 p100 (Some w100)); [exact: ro_make|rewrite /solve_other hs].
- by apply: kkt100.
- have [r' [o' [hs' hc' h1' h2']]] := go _ r ro h1 h2; exists (Solver o' r').
  by rewrite /solve_other /= hs'.
rewrite /solve_own /cur_scale -[scaling _]/true scale100 // /core_from start100 //= /ret0 lok.
have -> : trivially_infeasible p100 = false.
  by apply: ti1; rewrite /contradictory /= subrr ltxx.
have hv := verdict100 e; move: hv; rewrite /verdict /traj /= -/(Hd prm p100 s100) => ->.
by [].
Qed.

(** Case for C100_unscaled: the solver without scaling has solved min 0 subject to 16 x = 16 from the guess 1; given its own
    solution, it returns it again. *)
Example C100_unscaled_case (e : env F 1 1) : good_sqrt e -> (forall M, ldlt_ok e M) ->
  exists S S', [/\ reach_own e (dprm F false false) S, primal (so_sol S) = cst F (1#1), solve_own e (dprm F false false) 2 S p100 = Some S',
    code (so_sol S') = Optimal & primal (so_sol S') = cst F (1#1)].
Proof.
move=> h lok.
have ge0 a : Qle_bool (0#1) a -> 0 <= f a by rewrite -(q2f0 F) q2f_le.
have gt0 a : ~~ Qle_bool a (0#1) -> 0 < f a by rewrite -(q2f0 F) q2f_lt.
have go o w : reach_d e (dprm F false false) o -> primal w = cst F (1#1) -> dual w = cst F (0#1) ->
    exists r o', [/\ solve_dense e (dprm F false false) 2 o p100 (Some w) = Some (r, o'), code r = Optimal, primal r = primal w & dual r = dual w].
  move=> ro h1 h2; apply: C85_returns => //; try exact: ge0; try exact: gt0; [exact: convex100|exact: kkt100].
have r0 : reach_d e (dprm F false false) (@obj_new F 1 1) by constructor.
have [r [o [hs hc h1 h2]]] := go _ w100 r0 erefl erefl.
have ro : reach_d e (dprm F false false) o by apply: rd_solve r0 hs.
have rS : reach_own e (dprm F false false) (Solver o r).
  apply: (@ro_other _ _ _ _ _ (Solver (@obj_new F 1 1) (QSol Optimal 0 0 0 0)) 2 p100 (Some w100)); first exact: ro_make.
  by rewrite /solve_other hs.
have [r' [o' [hs' hc' h1' h2']]] := go _ r ro h1 h2; exists (Solver o r), (Solver o' r'); split=> //.
  by rewrite C100_unscaled // /solve_other /= hs'.
by rewrite /= h1' h1.
Qed.

(** Case for C100_optimal: min 0 subject to x = 1, where the scale factors are one. *)
Example C100_optimal_case (e : env F 1 1) : good_sqrt e -> (forall M, ldlt_ok e M) -> sqrt e 1 = 1 ->
  exists S S', [/\ reach_own e prm S, solve_own e prm 2 S (p1 F (0#1) (0#1) (1#1) (Fi (1#1)) (Fi (1#1))) = Some S' &
    code (so_sol S') = Optimal].
Proof.
move=> h lok q1; set p := p1 _ _ _ _ _ _.
have ge0 a : Qle_bool (0#1) a -> 0 <= f a by rewrite -(q2f0 F) q2f_le.
have gt0 a : ~~ Qle_bool a (0#1) -> 0 < f a by rewrite -(q2f0 F) q2f_lt.
have cv : convex p by split; [rewrite /symm /= cstT|move=> x; rewrite /= cst0 /qf mulmx0 ?mul0mx mxE].
have kk w : primal w = cst F (1#1) -> dual w = cst F (0#1) -> kkt p (primal w) (dual w).
  move=> -> ->; split=> [i||i].
  - by rewrite /= cstM mxE /between /= !q2f_le.
  - by rewrite /= cstT !cstM !cstD -cst0; exact: cst_eq.
  - by rewrite [cst F (0#1) i 0]mxE q2f0; split; rewrite ltxx.
have go o w : reach_d e prm o -> primal w = cst F (1#1) -> dual w = cst F (0#1) ->
    exists r o', [/\ solve_dense e prm 2 o p (Some w) = Some (r, o'), code r = Optimal, primal r = primal w & dual r = dual w].
  by move=> ro h1 h2; apply: C85_returns => //; try exact: ge0; try exact: gt0; exact: kk.
have r0 : reach_d e prm (@obj_new F 1 1) by constructor.
have [r [o [hs hc h1 h2]]] := go _ w100 r0 erefl erefl.
have ro : reach_d e prm o by apply: rd_solve r0 hs.
have rS : reach_own e prm (Solver o r).
  apply: (@ro_other _ _ _ _ _ (Solver (@obj_new F 1 1) (QSol Optimal 0 0 0 0)) 2 p (Some w100)); first exact: ro_make.
  by rewrite /solve_other hs.
have [r' [o' [hs' hc' h1' h2']]] := go _ r ro h1 h2; exists (Solver o r), (Solver o' r'); split=> //.
move: hs'; rewrite /solve_dense /solve_own /cur_scale -[scaling _]/true scale1 //.
rewrite core_own1.
by case: solve_core => // r1 [-> <-].
Qed.
End Refuted.

(** Square roots as C100_refuted needs them: those of a real closed field. *)
Example C100_refuted_case (R : rcfType) : let e : env R 1 1 := Env Num.sqrt (fun=> true) (fun=> fun=> true) (fun=> false) 0 in
  [/\ good_sqrt e, forall M, ldlt_ok e M, sqrt e 1 = 1 & sqrt e (q2f R (1#16)) = q2f R (1#4)].
Proof.
split=> //=; [by move=> t t0; rewrite sqrtr_gt0|exact: sqrtr1|].
have -> : q2f R (1#16) = q2f R (1#4) ^+ 2 by rewrite expr2 -q2fM; exact: q2f_eq.
by rewrite sqrtr_sqr ger0_norm // -(q2f0 R) q2f_le.
Qed.
Print Assumptions C100_unscaled. Print Assumptions C100_optimal. Print Assumptions C100_refuted.
