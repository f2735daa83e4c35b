(** C10: the time limit. *)
From Coq Require Import QArith.
From mathcomp Require Import all_ssreflect all_algebra.
From mathcomp.algebra_tactics Require Import ring.
From Verif Require Import LinAlg QF QpModel QpSpec QpFacts QpAdmm QpLoop QpProps QpConv QpCodes QpCex QpExamples.
Set Implicit Arguments.
Unset Strict Implicit.
Unset Printing Implicit Defensive.
Import Order.TTheory GRing.Theory Num.Theory.
Local Open Scope ring_scope.

Section Time.
Variables (F : realFieldType) (n m : nat).
Variables (e : env F n m) (prm : params F).
Implicit Types (p : qp F n m) (s : scaling_t F n m) (o : obj F n m) (v w : xyz F n m).
Local Notation tr p s ws := (traj prm p s (Hd prm p s) (start p s ws)).
Local Notation vd p s ws := (verdict e prm p s (Hd prm p s) (start p s ws)).
(** MaxTime is reported only if there is a time limit, and after a check at which the time was over; earlier checks
    gave no verdict. *)
Theorem C10_time fuel o p ws r o' : solve_dense e prm fuel o p ws = Some (r, o') -> code r = MaxTime ->
  ldlt_ok e (Hd prm p (o_s o')) -> ~ empty_row p ->
  has_max_time prm /\ exists j, [/\ niter r = (j.+1 %% w32)%N, is_check prm j, late e j &
    forall i, (i < j)%N -> is_check prm i -> vd p (o_s o') ws i = None].
Proof.
move=> /solve_dense_obj[s _ [hs ->]] hc lok ne; have [k [rc [er h1 h2 h3]]] := coreE lok ne hs.
move: hc; rewrite er /=; case: rc er h3 => [c|//] er [j ek [cj vj]] /= ec; subst c.
have [ht hl] : has_max_time prm /\ late e j.
  move: vj; rewrite /verdict /check_iter /check_stopping; case: ifP => _ //; case: ifP => _ //; case: ifP => _ //.
  by case: ifP => // /andP[].
by split=> //; exists j; rewrite ek; split=> // i ij ci; apply: h2; rewrite ?ek.
Qed.
(** The limit is kept: a check at which the time is over is the last one. *)
Theorem C10_deadline fuel o p ws r o' j : solve_dense e prm fuel o p ws = Some (r, o') -> has_max_time prm -> is_check prm j -> late e j ->
  ldlt_ok e (Hd prm p (o_s o')) -> ~ empty_row p -> exists2 k, (k <= j.+1)%N & niter r = (k %% w32)%N.
Proof.
move=> /solve_dense_obj[s _ [hs ->]] ht cj lj lok ne; have [k [rc [-> h1 h2 h3]]] := coreE lok ne hs.
exists k => //; rewrite leqNgt; apply/negP => jk.
by have := h2 j jk cj; rewrite /verdict /check_iter; case: check_stopping => //; rewrite ht lj.
Qed.
Lemma loop_late p s Hs j fuel k v rc : (stop_check_iter prm != 0)%N -> has_max_time prm -> is_check prm j -> late e j ->
  (k <= j)%N -> (j < k + fuel)%N -> main_loop e prm fuel k p s Hs v rc <> None.
Proof.
move=> s0 ht cj lj; elim: fuel k v rc => [|fuel IH] k v rc kj jk; first by move: jk; rewrite addn0 ltnNge kj.
rewrite /=; case: ifP => // _; rewrite (negbTE s0).
move: kj; rewrite leq_eqVlt => /orP[/eqP ek|kj]; last by apply: IH => //; rewrite addSnnS.
rewrite ek cj /check_iter ht lj /=.
by case: check_stopping => [c|]; case: (fuel) => [|f] /=; rewrite orbT.
Qed.
(** ... and then solve() returns. *)
Theorem C10_deadline_returns fuel o p ws j : (stop_check_iter prm != 0)%N -> has_max_time prm -> is_check prm j -> late e j ->
  (j < fuel)%N -> cur_scale e prm o p <> None -> solve_dense e prm fuel o p ws <> None.
Proof.
move=> s0 ht cj lj jf; rewrite /solve_dense; case: cur_scale => // s _.
have := @loop_late p s (symU (fill_dense prm p s)) j fuel 0 (start p s ws) (ret0 e p (symU (fill_dense prm p s))) s0 ht cj lj (leq0n _) jf.
by rewrite /solve_core; case: main_loop.
Qed.
End Time.

Section Cases.
Variable F : realFieldType.
Local Notation f := (q2f F).
(** The time is over after the first iteration, and the tolerances cannot be met. *)
Definition tprm : params F := Params (f (8#5)) (f (1#10)) (f (1#1000000)) false (-1) 0 0 0 None true 25 false 5 (f (1#1000000)).
Definition tenv : env F 1 1 := Env (fun t => t) (fun _ => true) (fun _ _ => true) (fun k => 0 < k)%N 0.
Example C10_time_case : exists r o', solve_dense tenv tprm 2 (@obj_new F 1 1) (p15 F) None = Some (r, o') /\ code r = MaxTime.
Proof.
have c1 : is_check tprm 1 by rewrite /is_check !modn_small // /w32 -{1}(expn0 2) ltn_exp2l.
case E : solve_dense => [[r o']|]; last first.
  by exfalso; apply: (C10_deadline_returns (j := 1) _ _ _ _ _ _ E).
exists r, o'; split=> //.
have ne : ~ empty_row (p15 F).
  move=> [i /(_ 0)]; rewrite /p15 /p1 /= /between /= -(q2f0 F) !q2f_le //.
have [s _ [hs _]] := solve_dense_obj E.
have [k [rc [-> h1 h2 h3]]] := coreE (isT : ldlt_ok tenv _) ne hs.
case: rc h3 => [c [j ek [cj vj]]|[]]; last by rewrite /at_limit.
move: vj; rewrite /verdict /check_iter /check_stopping.
have -> x y z : check_optimal tprm (p15 F) x y z = false.
  by apply/negbTE/negP => /andP[_]; rewrite mul0r addr0 leNgt (lt_le_trans _ (norm_ge0 _)) ?ltrN10.
have -> y : check_primal_inf tprm (p15 F) y = false.
  by rewrite /check_primal_inf mul0r; case: support => // a; apply/negbTE; rewrite -leNgt le_maxr norm_ge0.
have -> x : check_dual_inf tprm (p15 F) x = false.
  apply/negbTE/negP; rewrite /check_dual_inf mul0r => /and3P[_ _ /forallP/(_ 0)] /=.
  by rewrite ltNge normr_ge0.
by case: ifP => // _ [<-].
Qed.
End Cases.
Print Assumptions C10_time.
Print Assumptions C10_deadline.
Print Assumptions C10_deadline_returns.
