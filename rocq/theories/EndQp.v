(** What an answer Optimal of the QP solver means for the rows and for the distance to the solution (C82, C83). *)
From mathcomp Require Import all_ssreflect all_algebra.
From mathcomp.algebra_tactics Require Import ring.
From Verif Require Import LinAlg QpModel QpSpec QpFacts QpAdmm QpLoop QpProps QpConv.
Set Implicit Arguments.
Unset Strict Implicit.
Unset Printing Implicit Defensive.
Import Order.TTheory GRing.Theory Num.Theory.
Local Open Scope ring_scope.

Section Spec.
Variable F : realFieldType.
(** l <= v <= u up to t. *)
Definition lo_near (l : ext F) (v t : F) : bool := match l with NegInf => true | Fin a => a - t <= v | PosInf => false end.
Definition hi_near (u : ext F) (v t : F) : bool := match u with NegInf => false | Fin b => v <= b + t | PosInf => true end.
Definition row_near (l u : ext F) (v t : F) : bool := lo_near l v t && hi_near u v t.
(** The tolerance that is guaranteed when the largest row value is s. *)
Definition row_tol (prm : params F) (s : F) : F := (eps_abs prm + eps_rel prm * s) / (1 - eps_rel prm).
End Spec.

Section End_.
Variables (F : realFieldType) (n m : nat).
Variables (e : env F n m) (prm : params F).
Implicit Types (p : qp F n m).

Lemma near_of (l u : ext F) z v t : between l u z -> `|v - z| <= t -> row_near l u v t.
Proof.
move=> /andP[h1 h2]; rewrite ler_norml => /andP[h3 h4]; apply/andP; split.
  case: l h1 => //= a h1; apply: le_trans (ler_sub h1 (lexx _)) _.
  by move: h3; rewrite ler_subr_addl addrC.
case: u h2 => //= b h2; move: h4; rewrite ler_subl_addr => h4; apply: le_trans h4 _; by rewrite addrC ler_add2r.
Qed.
Lemma linf_ge k (v : 'cV[F]_k) i : `|v i 0| <= linf v.
Proof. exact: norm_le_within (lexx _) i. Qed.
Lemma linf_le k (v : 'cV[F]_k) t : 0 <= t -> (forall i, `|v i 0| <= t) -> linf v <= t.
Proof. by move=> t0 h; apply/norm_leP. Qed.
Lemma row_tol_ok p x (z : 'cV[F]_m) : 0 <= eps_rel prm < 1 -> within (qA p *m x - z) (tol_primal prm p x z) -> (0 < m)%N ->
  tol_primal prm p x z <= row_tol prm (linf (qA p *m x)).
Proof.
move=> /andP[r0 r1] hw m0; set s := linf (qA p *m x); set t := tol_primal _ _ _ _ in hw *.
have t0 : 0 <= t by apply: le_trans (normr_ge0 _) (hw (Ordinal m0)).
have s0 : 0 <= s by apply: le_trans (normr_ge0 _) (linf_ge _ (Ordinal m0)).
have hz : linf z <= s + t.
  apply: linf_le => [|i]; first exact: addr_ge0.
  have -> : z i 0 = (qA p *m x) i 0 - (qA p *m x - z) i 0 by rewrite !mxE opprB addrCA subrr addr0.
  by apply: le_trans (ler_norm_sub _ _) _; apply: ler_add (linf_ge _ i) (hw i).
have ht : t <= eps_abs prm + eps_rel prm * (s + t).
  rewrite {1}/t /tol_primal ler_add2l ler_wpmul2l // le_maxl hz andbT; exact: ler_paddr.
rewrite /row_tol ler_pdivl_mulr ?subr_gt0 // mulrBr mulr1 ler_subl_addr -addrA [t * _]mulrC -mulrDr.
exact: ht.
Qed.
(** * C82: every row holds up to a tolerance in terms of the row values *)
Theorem C82_rows fuel o p ws r o' : good_sqrt e -> 0 < rho_bar prm -> polish prm = false -> 0 <= eps_rel prm < 1 ->
  reach_d e prm o -> solve_dense e prm fuel o p ws = Some (r, o') -> code r = Optimal ->
  forall i, row_near (ql p i) (qu p i) ((qA p *m primal r) i 0) (row_tol prm (linf (qA p *m primal r))).
Proof.
move=> h r0 pf er ro hs hc i; have [z [h1 h2 _ _]] := C02_optimal_dense h r0 pf ro hs hc.
have m0 : (0 < m)%N by apply: leq_ltn_trans (ltn_ord i).
apply: near_of (h1 i) _; apply: le_trans (row_tol_ok er h2 m0).
have -> : (qA p *m primal r) i 0 - z i 0 = (qA p *m primal r - z) i 0 by rewrite !mxE.
exact: h2.
Qed.
Theorem C82_rows_sparse fuel o (ps : sqp F n m) ws r o' : good_sqrt e -> 0 < rho_bar prm -> polish prm = false -> 0 <= eps_rel prm < 1 ->
  reach_s e prm o -> solve_sparse e prm fuel o ps ws = Some (r, o') -> code r = Optimal ->
  let p := dense_of ps in
  forall i, row_near (ql p i) (qu p i) ((qA p *m primal r) i 0) (row_tol prm (linf (qA p *m primal r))).
Proof.
move=> h r0 pf er ro hs hc p i; have [z [h1 h2 _ _]] := C02_optimal_sparse h r0 pf ro hs hc.
have m0 : (0 < m)%N by apply: leq_ltn_trans (ltn_ord i).
apply: near_of (h1 i) _; apply: le_trans (row_tol_ok er h2 m0).
have -> : (qA p *m primal r) i 0 - z i 0 = (qA p *m primal r - z) i 0 by rewrite !mxE.
exact: h2.
Qed.
(** * C83: distance to the solution *)
Lemma approx_distance p x y z rp rd v w : approx_kkt p x y z rp rd -> kkt p v w ->
  qf (qP p) (x - v) <= rd * norm1 (x - v) + rp * norm1 (w - y).
Proof.
move=> [bz hp hd hm] [fv sv mv].
have -> : qf (qP p) (x - v) = dot (qP p *m x + qq p + (qA p)^T *m y) (x - v) + dot (qA p *m x - z) (w - y) + dot (z - qA p *m v) (w - y).
  rewrite qf_dot mulmxBr dotC -[qP p *m v](subrK (- qq p)) opprK.
  have -> : qP p *m v + qq p = - ((qA p)^T *m w) by apply/eqP; rewrite -subr_eq0 opprK sv.
  have -> : qP p *m x - (- ((qA p)^T *m w) - qq p) = (qP p *m x + qq p + (qA p)^T *m y) + (qA p)^T *m (w - y).
    rewrite mulmxBr; move: (qP p *m x) (qq p) (_ *m w) (_ *m y) => c1 c2 c3 c4.
    by apply/matrixP => i j; rewrite !mxE; move: (c1 i j) (c2 i j) (c3 i j) (c4 i j) => d1 d2 d3 d4; ring.
  rewrite [LHS]dotDl -[in RHS]addrA -[X in _ = _ + X]dotDl addrA subrK -mulmxBr; congr (_ + _).
  by rewrite -dotMr dotC.
have h3 : dot (z - qA p *m v) (w - y) <= 0.
  rewrite dotE -oppr_ge0 -sumrN; apply: sumr_ge0 => i _.
  have := mult_mono (bz i) (fv i) (hm i) (mv i).
  have -> : (z - qA p *m v) i 0 = z i 0 - (qA p *m v) i 0 by rewrite !mxE.
  have -> : (w - y) i 0 = w i 0 - y i 0 by rewrite !mxE.
  by rewrite -mulrN opprB mulrC.
rewrite -[X in _ <= X]addr0; apply: ler_add => //; apply: ler_add.
  by apply: le_trans (ler_norm _) _; apply: dot_within.
by apply: le_trans (ler_norm _) _; apply: dot_within.
Qed.
(** The solution of a strongly convex problem. *)
Theorem C83_distance fuel o p ws r o' (mu : F) (v : 'cV[F]_n) w : good_sqrt e -> 0 < rho_bar prm -> polish prm = false ->
  reach_d e prm o -> solve_dense e prm fuel o p ws = Some (r, o') -> code r = Optimal ->
  (forall d : 'cV[F]_n, mu * (\sum_i d i 0 ^+ 2) <= qf (qP p) d) -> kkt p v w ->
  exists2 z : 'cV[F]_m, (forall i, between (ql p i) (qu p i) (z i 0)) &
    mu * (\sum_i (primal r i 0 - v i 0) ^+ 2) <= tol_dual prm p (primal r) (dual r) * norm1 (primal r - v)
                                               + tol_primal prm p (primal r) z * norm1 (w - dual r).
Proof.
move=> h r0 pf ro hs hc sc hk; have [z hz] := C02_optimal_dense h r0 pf ro hs hc.
exists z; first by case: hz.
apply: le_trans (approx_distance hz hk); apply: le_trans (sc _); rewrite le_eqVlt; apply/orP; left; apply/eqP; congr (_ * _).
by apply: eq_bigr => i _; rewrite !mxE.
Qed.
Theorem C83_distance_sparse fuel o (ps : sqp F n m) ws r o' (mu : F) (v : 'cV[F]_n) w : good_sqrt e -> 0 < rho_bar prm -> polish prm = false ->
  reach_s e prm o -> solve_sparse e prm fuel o ps ws = Some (r, o') -> code r = Optimal ->
  let p := dense_of ps in
  (forall d : 'cV[F]_n, mu * (\sum_i d i 0 ^+ 2) <= qf (qP p) d) -> kkt p v w ->
  exists2 z : 'cV[F]_m, (forall i, between (ql p i) (qu p i) (z i 0)) &
    mu * (\sum_i (primal r i 0 - v i 0) ^+ 2) <= tol_dual prm p (primal r) (dual r) * norm1 (primal r - v)
                                               + tol_primal prm p (primal r) z * norm1 (w - dual r).
Proof.
move=> h r0 pf ro hs hc p sc hk; have [z hz] := C02_optimal_sparse h r0 pf ro hs hc.
exists z; first by case: hz.
apply: le_trans (approx_distance hz hk); apply: le_trans (sc _); rewrite le_eqVlt; apply/orP; left; apply/eqP; congr (_ * _).
by apply: eq_bigr => i _; rewrite !mxE.
Qed.
(** * C85: started at a solution, the solver returns it after two iterations *)
Lemma loop2 fuel p s Hs ws c : (1 < stop_check_iter prm)%N -> (forall N, max_iter prm = Some N -> (1 < N)%N) ->
  verdict e prm p s Hs (start p s ws) 1 = Some c ->
  main_loop e prm fuel.+2 0 p s Hs (start p s ws) None = Some (2%N, traj prm p s Hs (start p s ws) 2, Some c).
Proof.
move=> hc hm hv.
have w1 : (1 < w32)%N by rewrite /w32 -{1}(expn0 2) ltn_exp2l.
have c0 : is_check prm 0 = false by rewrite /is_check mod0n mod0n.
have c1 : is_check prm 1 by rewrite /is_check !modn_small.
have l0 : at_limit prm 0 = false.
  rewrite /at_limit; case em : (max_iter prm) => [N|//]; by have := hm N em; rewrite mod0n; case: N {em}.
have l1 : at_limit prm 1 = false.
  rewrite /at_limit; case em : (max_iter prm) => [N|//]; by have := hm N em; rewrite modn_small //; case: N {em} => // -[].
have s0 : (stop_check_iter prm == 0)%N = false by case: (stop_check_iter prm) hc.
rewrite /main_loop l0 l1 s0 c0 c1 /= -/(main_loop e prm).
move: hv; rewrite /verdict /traj /= => ->.
by case: fuel => [|fuel] /=; rewrite orbT.
Qed.
Theorem C85_returns o p (q : qsol F n m) fuel : good_sqrt e -> 0 < rho_bar prm -> 0 < sigma prm ->
  0 <= eps_abs prm -> 0 <= eps_rel prm -> polish prm = false -> (1 < stop_check_iter prm)%N ->
  (forall N, max_iter prm = Some N -> (1 < N)%N) -> (forall M, ldlt_ok e M) -> (0 < n)%N -> (0 < m)%N ->
  reach_d e prm o -> convex p -> kkt p (primal q) (dual q) -> (1 < fuel)%N ->
  exists r o', [/\ solve_dense e prm fuel o p (Some q) = Some (r, o'), code r = Optimal, primal r = primal q & dual r = dual q].
Proof.
case: fuel => [//|[//|fuel]] h r0 s0 ea er pf hc hm lok n0 m0 ro cv kk _.
have [s cs] : exists s, cur_scale e prm o p = Some s.
  rewrite /cur_scale; case: ifP => _; last by exists (o_s o).
  rewrite /scale n0 m0; move: 10%N => k10; by eexists.
have g := cur_scale_good h (reach_d_good h ro) cs; have [c sx sy] := g.
have ti : trivially_infeasible p = false.
  apply/negbTE/negP => /existsP[i ci]; have [f _ _] := kk.
  by have := between_contra (f i); rewrite ci.
have hv : verdict e prm p s (Hd prm p s) (start p s (Some q)) 1 = Some Optimal.
  have [f3 f1 f2] := C04_solution_fixed 2 c sx sy s0 r0 cv kk.
  have [_ _ f4 _] := C01_warmstart p q c sx sy.
  rewrite /verdict /check_iter f1 f2 f3 f4.
  have -> // : forall a b, check_stopping prm p (primal q) (dual q) (qA p *m primal q) a b = Some Optimal.
  move=> a b; rewrite /check_stopping.
  have -> // : check_optimal prm p (primal q) (dual q) (qA p *m primal q).
  have [_ gr _] := kk; rewrite /check_optimal subrr addrA gr !norm0.
  by rewrite !addr_ge0 // mulr_ge0 // le_maxr !norm_ge0 ?orbT.
rewrite /solve_dense cs /solve_core /ret0 lok ti -/(Hd prm p s) (loop2 fuel hc hm hv).
have [_ e1 e2] := C04_solution_fixed 2 c sx sy s0 r0 cv kk.
by do 2 eexists; split; first reflexivity; rewrite /finish pf.
Qed.
(** No guess is the guess zero. *)
Lemma solve_none fuel o p w : primal w = 0 -> dual w = 0 -> solve_dense e prm fuel o p (Some w) = solve_dense e prm fuel o p None.
Proof.
move=> h1 h2; rewrite /solve_dense; case: cur_scale => // s; rewrite /solve_core.
have -> // : start p s (Some w) = start p s None.
have c0 k (a : 'cV[F]_k) : cmul a 0 = 0 by apply/colP => i; rewrite !mxE mulr0.
by rewrite /= h1 h2 mulmx0 !c0 scaler0.
Qed.
End End_.
