(** C07, C08, C15: what the verdicts PrimalInfeasible and DualInfeasible and a failed polish do guarantee.
    The full statements are refuted in QpCex.v. *)
From mathcomp Require Import all_ssreflect all_algebra.
From mathcomp.algebra_tactics Require Import ring.
From Verif Require Import LinAlg QpModel QpSpec QpFacts QpAdmm QpLoop QpProps QpConv QpCodes.
Set Implicit Arguments.
Unset Strict Implicit.
Unset Printing Implicit Defensive.
Import Order.TTheory GRing.Theory Num.Theory.
Local Open Scope ring_scope.

Section Infeas.
Variables (F : realFieldType) (n m : nat).
Variables (e : env F n m) (prm : params F).
Implicit Types (p : qp F n m) (s : scaling_t F n m) (o : obj F n m).
Notation tr p s ws := (traj prm p s (Hd prm p s) (start p s ws)).

(** dy certifies, up to t = eps |dy|, that no point satisfies l <= A x <= u. *)
Definition approx_farkas p (dy : 'cV[F]_m) (t : F) : Prop :=
  [/\ 0 < t, within ((qA p)^T *m dy) t &
      forall z : 'cV[F]_m, (forall i, between (ql p i) (qu p i) (z i 0)) -> dot dy z <= t * (1 + norm1 z)].
(** dx is, up to t = eps |dx|, a direction in which the problem is unbounded. *)
Definition approx_recession p (dx : 'cV[F]_n) (t : F) : Prop :=
  [/\ within (qP p *m dx) t, dot (qq p) dx <= t &
      forall i, (qu p i <> @PosInf F -> (qA p *m dx) i 0 <= t) /\
                (ql p i <> @NegInf F -> - t <= (qA p *m dx) i 0)].

Lemma support_bound p (dy z : 'cV[F]_m) (t : F) : 0 <= t -> (forall i, between (ql p i) (qu p i) (z i 0)) ->
  forall idx (acc sm : F), support p dy t acc idx = Some sm ->
  acc + \sum_(i <- idx) dy i 0 * z i 0 <= sm + t * \sum_(i <- idx) `|z i 0|.
Proof.
move=> t0 hz; elim=> [|i idx IH] acc sm /=; first by case=> ->; rewrite !big_nil mulr0.
case E1 : (if is_posinf _ then _ else _) => [a1|] //.
case E2 : (if is_neginf _ then _ else _) => [a2|] // /IH {IH}; rewrite !big_cons => IH.
suff h : acc + dy i 0 * z i 0 <= a2 + t * `|z i 0|.
  rewrite mulrDr -(ler_add2l a2); move: (ler_add h IH).
  move: (dy i 0 * z i 0) (t * `|z i 0|) (\sum_(j <- idx) dy j 0 * z j 0) (t * \sum_(j <- idx) `|z j 0|) => a b c d.
  have -> : acc + a + (a2 + c) = a2 + (acc + (a + c)) by ring.
  by have -> : a2 + b + (sm + d) = a2 + (sm + (b + d)) by ring.
move: (hz i) E1 E2; rewrite /between; move: (dy i 0) (z i 0) => d v /andP[].
have tv : 0 <= t * `|v| by rewrite mulr_ge0.
have [d0|/ltW d0] := leP 0 d; rewrite ?(max_idPr d0) ?(min_idPl d0) ?(max_idPl d0) ?(min_idPr d0) !mulr0 ?addr0.
- case: (qu p i) => [|b|] //= lo hi; last first.
    case: ifP => // /negbT; rewrite -leNgt => dt [<-] h2.
    have -> : a2 = acc by move: h2; case: is_neginf; [case: ifP => // _ [->]|case=> ->].
    by rewrite ler_add2l; apply: le_trans (ler_wpmul2r (normr_ge0 v) dt); rewrite ler_wpmul2l // ler_norm.
  case=> <- h2; have -> : a2 = acc + b * d by move: h2; case: is_neginf; [case: ifP => // _ [->]|case=> ->].
  by rewrite -addrA ler_add2l; apply: ler_paddr => //; rewrite mulrC ler_wpmul2r.
- move=> lo hi h1; have {h1} -> : a1 = acc by move: h1; case: is_posinf; [case: ifP => // _ [->]|case=> ->].
  case: (ql p i) lo => [|b|] //= lo.
    case: ifP => // /negbT; rewrite -leNgt => dt [<-]; rewrite ler_add2l.
    apply: le_trans (ler_norm _) _; rewrite normrM ler_wpmul2r // ler0_norm // ler_oppl //.
  by case=> <-; rewrite -addrA ler_add2l; apply: ler_paddr => //; rewrite mulrC ler_wnmul2r.
Qed.

(** The verdict of the last iteration. *)
Lemma core_verdict fuel p s ws r : solve_core e prm fuel p s (Hd prm p s) ws = Some r ->
  code r = PrimalInfeasible \/ code r = DualInfeasible ->
  (code r = PrimalInfeasible /\ empty_row p) \/
  exists x y z dx dy, check_stopping prm p x y z dx dy = Some (code r).
Proof.
move=> hs hc; have [ti|ti] := boolP (trivially_infeasible p).
  left; split; last exact/emptyP.
  move: hs hc => /coreP[t]; rewrite /ret0 ti; case: ifP => _; rewrite loop_done => -[<-] -> //=.
  by case.
right; have [lok|nlok] := boolP (ldlt_ok e (Hd prm p s)); last first.
  by move: hs hc => /coreP[t]; rewrite /ret0 (negbTE nlok) loop_done => -[<-] -> /=; case.
have [k [rc [rE _ _ h3]]] := coreE lok (elimN (emptyP p) ti) hs.
move: hc; rewrite rE /=; case: rc h3 {rE} => [c [j _ [_ vj]]|_] /=; last by case.
move=> hc; move: vj; rewrite /verdict /check_iter.
case E : (check_stopping _ _ _ _ _ _ _) => [c'|].
  by case=> <-; do 5 eexists; exact: E.
by case: ifP => // _ [ec]; move: hc; rewrite -ec; case.
Qed.

(** * C07 *)
(** Full statement: code r = PrimalInfeasible -> forall x, ~ feasible p x.  Missing: the test compares
    with a positive tolerance; what follows is an approximate certificate. *)
Theorem C07_certificate_partial fuel o p ws r o' : solve_dense e prm fuel o p ws = Some (r, o') ->
  code r = PrimalInfeasible -> empty_row p \/ exists dy, approx_farkas p dy (eps_pinf prm * linf dy).
Proof.
move=> /solve_dense_obj[s _ [hs _]] hc; have [[_ h]|] := core_verdict hs (or_introl hc); first by left.
case=> x [y [z [dx [dy]]]]; rewrite hc /check_stopping; case: ifP => // _.
case: ifP => [+ _|_]; last by case: ifP.
rewrite /check_primal_inf; case E : (support _ _ _ _ _) => [sm|] // ; rewrite lt_maxl => /andP[h1 h2].
have t0 : 0 < eps_pinf prm * norm dy by apply: le_lt_trans h1; exact: norm_ge0.
right; exists dy; split=> //; first by apply: norm_le_within; exact: ltW.
move=> w hw; have := support_bound (ltW t0) hw E; rewrite add0r !big_enum /= => h.
rewrite mulrDr mulr1; apply: le_trans (ler_add (ltW h2) (lexx _)).
by move: h; rewrite dotE.
Qed.
(** With tolerance zero the verdict is sound. *)
Theorem C07_zero_tolerance_partial fuel o p ws r o' : eps_pinf prm <= 0 ->
  solve_dense e prm fuel o p ws = Some (r, o') -> code r = PrimalInfeasible -> forall x, ~ feasible p x.
Proof.
move=> e0 hs hc; have [[i h] x /(_ i)|[dy [+ _ _]]] := C07_certificate_partial hs hc; first by rewrite h.
by rewrite ltNge mulr_le0_ge0 // norm_ge0.
Qed.

(** * C08 *)
(** Full statement: convex p -> feasible p x -> code r = DualInfeasible -> the cost is unbounded below on
    the feasible set.  Missing: the test compares with a positive tolerance. *)
Theorem C08_certificate_partial fuel o p ws r o' : solve_dense e prm fuel o p ws = Some (r, o') ->
  code r = DualInfeasible -> exists dx, approx_recession p dx (eps_dinf prm * linf dx).
Proof.
move=> /solve_dense_obj[s _ [hs _]] hc; have [[]|] := core_verdict hs (or_intror hc); first by rewrite hc.
case=> x [y [z [dx [dy]]]]; rewrite hc /check_stopping; case: ifP => // _; case: ifP => // _.
case: ifP => // + _; rewrite /check_dual_inf => /and3P[h1 h2 /forallP h3].
exists dx; split=> //; first exact: norm_le_within.
move=> i; move: (h3 i) => /=; move: ((qA p *m dx) i 0) => a.
case: (qu p i) => [|u|]; case: (ql p i) => [|l|] //= h; split=> // _;
  by move: h; rewrite ?ltr_norml => // /andP[/ltW ? /ltW ?].
Qed.
(** Along dx every feasible point stays feasible and its cost does not grow, up to multiples of t. *)
Theorem C08_direction_partial fuel o p ws r o' : convex p -> solve_dense e prm fuel o p ws = Some (r, o') ->
  code r = DualInfeasible -> exists dx, forall x a, feasible p x -> 0 <= a ->
    let t := eps_dinf prm * linf dx in
    cost p (x + a *: dx) <= cost p x + a * t * (1 + norm1 x) + 2%:R^-1 * a ^+ 2 * t * norm1 dx /\
    (0 <= t -> exists2 d, within d (a * t) & forall i, between (ql p i) (qu p i) ((qA p *m (x + a *: dx) - d) i 0)).
Proof.
move=> [sP _] hs hc; have [dx [h1 h2 h3]] := C08_certificate_partial hs hc; exists dx => x a hx a0 t.
have bd k (u w : 'cV[F]_k) b : within u b -> dot w u <= b * norm1 w.
  move=> hu; rewrite dotE /norm1 mulr_sumr; apply: ler_sum => i _.
  by rewrite mulrC; apply: le_trans (ler_norm _) _; rewrite normrM ler_wpmul2r.
split.
  have -> : cost p (x + a *: dx) = cost p x + a * (dot (qq p) dx + dot x (qP p *m dx)) + 2%:R^-1 * a ^+ 2 * dot dx (qP p *m dx).
    rewrite /cost !qf_dot mulmxDr -scalemxAr !(dotDl, dotDr, dotZl, dotZr).
    have -> : dot dx (qP p *m x) = dot x (qP p *m dx) by rewrite dotMr sP dotC.
    move: (dot x (qP p *m x)) (dot x (qP p *m dx)) (dot dx (qP p *m dx)) (dot (qq p) x) (dot (qq p) dx) => *.
    by field.
  apply: ler_add; last first.
    by rewrite -[X in _ <= X]mulrA ler_wpmul2l ?bd // mulr_ge0 ?sqr_ge0 // invr_ge0 ler0n.
  rewrite ler_add2l -[X in _ <= X]mulrA ler_wpmul2l // mulrDr mulr1; apply: ler_add => //; exact: bd.
move=> t0; pose w := qA p *m dx.
exists (\col_i (if 0 <= w i 0 then (if is_posinf (qu p i) then 0 else a * w i 0)
               else (if is_neginf (ql p i) then 0 else a * w i 0))) => i.
  rewrite mxE; case: ifP => [w0|/negbT]; rewrite -?ltNge; [|move=> /ltW w0].
    case E : (is_posinf _); first by rewrite normr0 mulr_ge0.
    by rewrite ger0_norm ?mulr_ge0 // ler_wpmul2l //; apply: (h3 i).1 => E2; rewrite E2 in E.
  case E : (is_neginf _); first by rewrite normr0 mulr_ge0.
  rewrite ler0_norm ?mulr_ge0_le0 // -mulrN ler_wpmul2l // ler_oppl; apply: (h3 i).2 => E2; rewrite E2 in E; by [].
rewrite mulmxDr -scalemxAr -/w; move: (hx i) => /=; rewrite /between.
have -> : forall (M N K : 'cV[F]_m), (M + N - K) i 0 = M i 0 + (N i 0 - K i 0) by move=> M N K; rewrite !mxE addrA.
rewrite ![(\col_i _) _ _]mxE [(a *: w) i 0]mxE; move: ((qA p *m x) i 0) (w i 0) => z d /andP[lo hi].
case: ifP => [d0|/negbT]; rewrite -?ltNge; [|move=> /ltW d0].
  have ad : 0 <= a * d by rewrite mulr_ge0.
  case: (qu p i) hi => [|u|] //= hi; rewrite ?subrr ?addr0 ?lo //.
  rewrite subr0 andbT; case: (ql p i) lo => [|l|] //= lo; exact: ler_paddr.
have ad : a * d <= 0 by rewrite mulr_ge0_le0.
case: (ql p i) lo => [|l|] //= lo; rewrite ?subrr ?addr0 ?lo //.
rewrite subr0; case: (qu p i) hi => [|u|] //= hi; apply: le_trans hi; by rewrite ger_addl.
Qed.

(** * C15 *)
(** Full statement: the tolerances of C02 hold with polishing.  Proved: they hold if polishing fails
    (the iterate is returned then).  Missing: nothing is checked after a polish that succeeds. *)
Theorem C15_failed_partial fuel o p ws r o' : good_sqrt e -> 0 < rho_bar prm ->
  (forall k (M : 'M[F]_(n + k)), pol_ok e M = false) ->
  reach_d e prm o -> solve_dense e prm fuel o p ws = Some (r, o') -> code r = Optimal ->
  exists z, approx_kkt p (primal r) (dual r) z (tol_primal prm p (primal r) z) (tol_dual prm p (primal r) (dual r)).
Proof.
move=> h r0 pf ro /solve_dense_obj[s cs [hs _]] hc.
have g := cur_scale_good h (reach_d_good h ro) cs.
apply: (@core_approx _ _ _ e (no_polish prm) fuel p s (Hd prm p s) ws) => //.
rewrite -hs /solve_core.
have -> : forall ov, omap (finish e (no_polish prm) p s) ov = omap (finish e prm p s) ov.
  case=> [[[k v] rc]|] //=; congr Some; rewrite /finish /= /polish_qp pf.
  by case: rc => [[]|] //; case: (polish prm).
by [].
Qed.
End Infeas.
