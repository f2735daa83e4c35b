(** Model of the QP solver, /repo/include/smooth/feedback/qp_solver.hpp and qp.hpp.

    Simplifications: Scalar is an arbitrary real field [F] (exact arithmetic; float parameters are
    elements of F); bounds are [ext] values, the only place where the code uses infinities.  Vectors are
    column matrices; a sparse matrix is the function giving its stored entries.  Eigen::LDLT and
    SimplicialLDLT are modelled by the inverse of the symmetric matrix given by the upper triangle they
    read, with an arbitrary outcome of info() ([ldlt_ok], [pol_ok]).  std::sqrt is an arbitrary function
    [sqrt]; reading the clock in iteration k is [late k].  Verbose output and timing summaries are
    omitted.  Undefined behaviour, failed assertions and lack of fuel give [None]. *)
From mathcomp Require Import all_ssreflect all_algebra.
Set Implicit Arguments.
Unset Strict Implicit.
Unset Printing Implicit Defensive.
Import Order.TTheory GRing.Theory Num.Theory.
Local Open Scope ring_scope.

(** enum class QPSolutionStatus, qp.hpp:86-98. *)
Inductive status := Optimal | PolishFailed | PrimalInfeasible | DualInfeasible | MaxIterations | MaxTime | Unknown.

Section Bounds.
Variable F : realFieldType.
(** Entries of l and u: finite or infinite. *)
Inductive ext := NegInf | Fin of F | PosInf.
Definition is_neginf (b : ext) := if b is NegInf then true else false.
Definition is_posinf (b : ext) := if b is PosInf then true else false.
(** s * b for s > 0. *)
Definition ext_scale (s : F) (b : ext) : ext := if b is Fin x then Fin (s * x) else b.
(** Value of a finite bound (0 is never used: the code guards every use by != inf / != -inf, and the
    opposite infinities are contradictory, for which no iteration takes place). *)
Definition ext_val (b : ext) : F := if b is Fin x then x else 0.
(** v.cwiseMax(l).cwiseMin(u), qp_solver.hpp:474-475, for l != inf and u != -inf. *)
Definition clamp (l u : ext) (v : F) : F :=
  let v1 := if l is Fin a then Num.max v a else v in
  if u is Fin b then Num.min v1 b else v1.
(** qp_solver.hpp:362. *)
Definition contradictory (l u : ext) : bool :=
  is_posinf l || is_neginf u || (if (l, u) is (Fin a, Fin b) then b - a < 0 else false).
End Bounds.
Arguments NegInf {F}.
Arguments PosInf {F}.

Section Vectors.
Variable F : realFieldType.
(** lpNorm<Infinity> (0 for an empty vector). *)
Definition norm k (v : 'cV[F]_k) : F := \big[Num.max/0]_i `|v i 0|.
Definition cmul k (a b : 'cV[F]_k) : 'cV[F]_k := \col_i (a i 0 * b i 0).
Definition cinv k (a : 'cV[F]_k) : 'cV[F]_k := \col_i (a i 0)^-1.
Definition ones k : 'cV[F]_k := \col_i 1.
(** selfadjointView<Upper>: the symmetric matrix with the same upper triangle. *)
Definition symU k (M : 'M[F]_k) : 'M[F]_k := \matrix_(i, j) if (i <= j)%N then M i j else M j i.
(** The literal 1e-k. *)
Definition em (k : nat) : F := (10%:R ^+ k)^-1.
End Vectors.

Section Solver.
Variable F : realFieldType.
Variables n m : nat.

(** QuadraticProgram, qp.hpp:31-45. *)
Record qp := Qp { qP : 'M[F]_n; qq : 'cV[F]_n; qA : 'M[F]_(m, n); ql : 'I_m -> ext F; qu : 'I_m -> ext F }.
(** QuadraticProgramSparse, qp.hpp:60-80: stored entries. *)
Record sqp := Sqp { sP : 'I_n -> 'I_n -> option F; sq : 'cV[F]_n; sA : 'I_m -> 'I_n -> option F;
                    sl : 'I_m -> ext F; su : 'I_m -> ext F }.
Definition oval (o : option F) : F := if o is Some x then x else 0.
Definition dense_of (s : sqp) : qp :=
  Qp (\matrix_(i, j) oval (sP s i j)) (sq s) (\matrix_(i, j) oval (sA s i j)) (sl s) (su s).

(** QPSolverParams, qp_solver.hpp:29-68 ([verbose] omitted; max_time only matters through [late]). *)
Record params := Params {
  alpha : F; rho_bar : F; sigma : F; scaling : bool;
  eps_abs : F; eps_rel : F; eps_pinf : F; eps_dinf : F;
  max_iter : option nat; has_max_time : bool; stop_check_iter : nat;
  polish : bool; polish_iter : nat; delta : F }.

(** QPSolution, qp.hpp:102-114. *)
Record qsol := QSol { code : status; niter : nat; primal : 'cV[F]_n; dual : 'cV[F]_m; objective : F }.

(** The environment: sqrt, factorization outcomes, clock, machine epsilon. *)
Record env := Env {
  sqrt : F -> F;
  ldlt_ok : 'M[F]_(n + m) -> bool;
  pol_ok : forall k, 'M[F]_(n + k) -> bool;
  late : nat -> bool;
  macheps : F }.

Variable e : env.
Variable prm : params.

(** * Scaling, qp_solver.hpp:673-730 *)
Record scaling_t := Scaling { s_c : F; s_x : 'cV[F]_n; s_y : 'cV[F]_m }.

(** Zero columns, qp_solver.hpp:688-690, 719-724. *)
Definition unit0 k (v : 'cV[F]_k) : 'cV[F]_k := \col_i if v i 0 == 0 then 1 else v i 0.
(** Column norms of the cost, qp_solver.hpp:679-693. *)
Definition cost_cols (P : 'M[F]_n) : 'cV[F]_n := unit0 (\col_j \big[Num.max/0]_i `|P i j|).
Definition cost_scale (p : qp) : F :=
  1 / Num.max (em F 6) (Num.max ((\sum_i cost_cols (qP p) i 0) / n%:R) (norm (qq p))).
(** One round, qp_solver.hpp:698-727: sx_inc, sy_inc. *)
Definition x_inc (p : qp) (s : scaling_t) : 'cV[F]_n :=
  unit0 (\col_j Num.max (\big[Num.max/0]_i `|s_c s * s_x s i 0 * s_x s j 0 * qP p i j|)
                        (\big[Num.max/0]_i `|s_y s i 0 * s_x s j 0 * qA p i j|)).
Definition y_inc (p : qp) (s : scaling_t) : 'cV[F]_m :=
  unit0 (\col_i \big[Num.max/0]_j `|s_y s i 0 * s_x s j 0 * qA p i j|).
Definition apply_inc k (inc v : 'cV[F]_k) : 'cV[F]_k :=
  \col_i (sqrt e (Num.max (inc i 0) (em F 8))^-1 * v i 0).
Definition spread (p : qp) (s : scaling_t) : F :=
  Num.max (norm (x_inc p s - ones F n)) (norm (y_inc p s - ones F m)).
Definition scale_round (p : qp) (s : scaling_t) : scaling_t :=
  Scaling (s_c s) (apply_inc (x_inc p s) (s_x s)) (apply_inc (y_inc p s) (s_y s)).
(** The do-while loop; [k] is 10 - iter. *)
Fixpoint scale_loop (k : nat) (p : qp) (s : scaling_t) : scaling_t :=
  let s' := scale_round p s in
  if k is k'.+1 then if 1 / 10%:R < spread p s then scale_loop k' p s' else s' else s'.
(** mean() and maxCoeff() assert that vectors are not empty. *)
Definition scale (p : qp) : option scaling_t :=
  if (0 < n)%N && (0 < m)%N then Some (scale_loop 10 p (Scaling (cost_scale p) (ones F n) (ones F m)))
  else None.

(** * Setup, qp_solver.hpp:360-404 *)
Definition trivially_infeasible (p : qp) : bool := [exists i, contradictory (ql p i) (qu p i)].
(** rho, qp_solver.hpp:366-373. *)
Definition rho_row (sy : F) (l u : ext F) : F :=
  match l, u with
  | NegInf, PosInf => em F 6
  | Fin a, Fin b => if sy * `|a - b| < em F 5 then 10%:R ^+ 3 * rho_bar prm else rho_bar prm
  | _, _ => rho_bar prm
  end.
Definition rho_vec (p : qp) (s : scaling_t) : 'cV[F]_m := \col_i rho_row (s_y s i 0) (ql p i) (qu p i).

(** Dense H_, qp_solver.hpp:399-404. *)
Definition scaledP (p : qp) (s : scaling_t) : 'M[F]_n :=
  \matrix_(i, j) (s_c s * s_x s i 0 * qP p i j * s_x s j 0).
Definition scaledA (p : qp) (s : scaling_t) : 'M[F]_(m, n) :=
  \matrix_(i, j) (s_y s i 0 * qA p i j * s_x s j 0).
Definition fill_dense (p : qp) (s : scaling_t) : 'M[F]_(n + m) :=
  block_mx (scaledP p s + (sigma prm)%:M) (scaledA p s)^T
           0 (diag_mx (cinv (- rho_vec p s))^T).

(** Sparse H_, qp_solver.hpp:379-398: [h] are the stored entries before the call, [cmp] tells whether
    H_ is compressed (then coefficients are set to zero first).  The loops over the stored entries of
    P and A write each position once; they are given position by position. *)
Definition spmat := 'I_(n + m) -> 'I_(n + m) -> option F.
Definition fill_sparse (cmp : bool) (h : spmat) (p : sqp) (s : scaling_t) : spmat :=
  fun r c =>
    let old := if cmp then omap (fun=> 0) (h r c) else h r c in
    match split r, split c with
    | inl i, inl j =>
        let w := if sP p i j is Some v then
                   if (i <= j)%N then Some (s_c s * s_x s i 0 * s_x s j 0 * v) else old
                 else old in
        (* block_add_identity(H_, 0, 0, n, sigma), sparse.hpp:102-107 *)
        if i == j then Some (oval w + sigma prm) else w
    | inl i, inr j => if sA p j i is Some v then Some (s_y s j 0 * s_x s i 0 * v) else old
    | inr i, inr j => if i == j then Some (-1 / rho_vec (dense_of p) s i 0) else old
    | inr _, inl _ => old
    end.
Definition sp_mx (h : spmat) : 'M[F]_(n + m) := \matrix_(r, c) oval (h r c).

(** * Iteration, qp_solver.hpp:435-510 *)
Record xyz := XYZ { it_x : 'cV[F]_n; it_y : 'cV[F]_m; it_z : 'cV[F]_m }.

(** Initial values, qp_solver.hpp:436-445. *)
Definition start (p : qp) (s : scaling_t) (ws : option qsol) : xyz :=
  if ws is Some w then
    XYZ (cmul (cinv (s_x s)) (primal w)) (s_c s *: cmul (cinv (s_y s)) (dual w))
        (cmul (s_y s) (qA p *m primal w))
  else XYZ 0 0 0.

(** One pass through the loop body, qp_solver.hpp:450-477; [Hs] is the factorized matrix. *)
Definition admm_rhs (p : qp) (s : scaling_t) (v : xyz) : 'cV[F]_(n + m) :=
  col_mx (sigma prm *: it_x v - s_c s *: cmul (s_x s) (qq p))
         (it_z v - cmul (cinv (rho_vec p s)) (it_y v)).
Definition admm_step (p : qp) (s : scaling_t) (Hs : 'M[F]_(n + m)) (v : xyz) : xyz :=
  let rho := rho_vec p s in
  let pp := invmx Hs *m admm_rhs p s v in
  let a := alpha prm in
  let ac := 1 - a in
  let x' := a *: usubmx pp + ac *: it_x v in
  let w := a *: cmul (cinv rho) (dsubmx pp) + ac *: cmul (cinv rho) (it_y v) + it_z v in
  let z' : 'cV[F]_m := \col_i clamp (ext_scale (s_y s i 0) (ql p i)) (ext_scale (s_y s i 0) (qu p i)) (w i 0) in
  let y' := ac *: it_y v + a *: dsubmx pp + cmul rho (it_z v) - cmul rho z' in
  XYZ x' y' z'.

(** check_stopping, qp_solver.hpp:574-644. *)
Definition check_optimal (p : qp) (x : 'cV[F]_n) (y z : 'cV[F]_m) : bool :=
  (norm (qA p *m x - z) <= eps_abs prm + eps_rel prm * Num.max (norm (qA p *m x)) (norm z)) &&
  (norm (qP p *m x + (qq p + (qA p)^T *m y)) <=
   eps_abs prm + eps_rel prm * Num.max (norm (qP p *m x)) (Num.max (norm (qq p)) (norm ((qA p)^T *m y)))).
(** The sum u'max(0,dy) + l'min(0,dy); None is +inf (qp_solver.hpp:602-618). *)
Fixpoint support (p : qp) (dy : 'cV[F]_m) (tol : F) (acc : F) (idx : seq 'I_m) : option F :=
  if idx is i :: idx' then
    let d := dy i 0 in
    let up := if is_posinf (qu p i) then (if tol < d then None else Some acc)
              else Some (acc + ext_val (qu p i) * Num.max 0 d) in
    if up is Some acc1 then
      let lo := if is_neginf (ql p i) then (if d < - tol then None else Some acc1)
                else Some (acc1 + ext_val (ql p i) * Num.min 0 d) in
      if lo is Some acc2 then support p dy tol acc2 idx' else None
    else None
  else Some acc.
Definition check_primal_inf (p : qp) (dy : 'cV[F]_m) : bool :=
  let en := norm dy in
  if support p dy (eps_pinf prm * en) 0 (enum 'I_m) is Some s then
    Num.max (norm ((qA p)^T *m dy)) s < eps_pinf prm * en
  else false.
Definition check_dual_inf (p : qp) (dx : 'cV[F]_n) : bool :=
  let dn := norm dx in
  let t := eps_dinf prm * dn in
  [&& norm (qP p *m dx) <= t, ((qq p)^T *m dx) 0 0 <= t &
   [forall i, let ai := (qA p *m dx) i 0 in
      if is_posinf (qu p i) then - t <= ai
      else if is_neginf (ql p i) then ai <= t
      else `|ai| < t]].
Definition check_stopping (p : qp) (x : 'cV[F]_n) (y z : 'cV[F]_m) (dx : 'cV[F]_n) (dy : 'cV[F]_m) : option status :=
  if check_optimal p x y z then Some Optimal
  else if check_primal_inf p dy then Some PrimalInfeasible
  else if check_dual_inf p dx then Some DualInfeasible
  else None.

(** Unscaling, qp_solver.hpp:481-485. *)
Definition unscale_x (s : scaling_t) (x : 'cV[F]_n) : 'cV[F]_n := cmul (s_x s) x.
Definition unscale_y (s : scaling_t) (y : 'cV[F]_m) : 'cV[F]_m := (s_c s)^-1 *: cmul (s_y s) y.
Definition unscale_z (s : scaling_t) (z : 'cV[F]_m) : 'cV[F]_m := cmul (cinv (s_y s)) z.
(** The check in the iteration from v to v', qp_solver.hpp:479-509. *)
Definition check_iter (p : qp) (s : scaling_t) (v v' : xyz) (k : nat) : option status :=
  if check_stopping p (unscale_x s (it_x v')) (unscale_y s (it_y v')) (unscale_z s (it_z v'))
       (unscale_x s (it_x v' - it_x v)) (unscale_y s (it_y v' - it_y v)) is Some r then Some r
  else if has_max_time prm && late e k then Some MaxTime else None.

(** iter is an unsigned 32-bit number; [k] counts iterations, iter = k mod 2^32. *)
Definition w32 : nat := (2 ^ 32)%N.
Definition is_check (k : nat) : bool := ((k %% w32) %% stop_check_iter prm == 1)%N.
Definition at_limit (k : nat) : bool := if max_iter prm is Some N then (k %% w32 == N)%N else false.
(** The main loop, qp_solver.hpp:448-510 (iter % 0 is undefined). *)
Fixpoint main_loop (fuel k : nat) (p : qp) (s : scaling_t) (Hs : 'M[F]_(n + m)) (v : xyz) (rc : option status)
  : option (nat * xyz * option status) :=
  if at_limit k || (if rc is Some _ then true else false) then Some (k, v, rc)
  else if stop_check_iter prm == 0%N then None
  else if fuel is fuel'.+1 then
    let v' := admm_step p s Hs v in
    main_loop fuel' k.+1 p s Hs v' (if is_check k then check_iter p s v v' k else rc)
  else None.

(** * Polishing, qp_solver.hpp:92-204 *)
(** Active sets, qp_solver.hpp:114-123. *)
Definition actL (p : qp) (y : 'cV[F]_m) : seq 'I_m :=
  [seq i <- enum 'I_m | (y i 0 < - (100%:R * macheps e)) && ~~ is_neginf (ql p i)].
Definition actU (p : qp) (y : 'cV[F]_m) : seq 'I_m :=
  [seq i <- enum 'I_m | (100%:R * macheps e < y i 0) && ~~ is_posinf (qu p i)].
Section Polish.
Variables (p : qp) (s : scaling_t) (y : 'cV[F]_m).
Definition LU : seq 'I_m := actL p y ++ actU p y.
Notation k := (size LU).
Definition LU_idx (a : 'I_k) : 'I_m := tnth (in_tuple LU) a.
(** H (upper part), qp_solver.hpp:131-165. *)
Definition actA : 'M[F]_(k, n) := \matrix_(a, j) (s_y s (LU_idx a) 0 * qA p (LU_idx a) j * s_x s j 0).
Definition pol_H : 'M[F]_(n + k) := block_mx (scaledP p s) actA^T 0 0.
(** Hp, qp_solver.hpp:168-176. *)
Definition pol_Hp : 'M[F]_(n + k) := pol_H + block_mx (delta prm)%:M 0 0 (- (delta prm)%:M).
(** h, qp_solver.hpp:178-181. *)
Definition pol_b : 'cV[F]_k :=
  \col_a (s_y s (LU_idx a) 0 *
          ext_val (if (a < size (actL p y))%N then ql p (LU_idx a) else qu p (LU_idx a))).
Definition pol_h : 'cV[F]_(n + k) := col_mx (- s_c s *: cmul (s_x s) (qq p)) pol_b.
(** Iterative refinement, qp_solver.hpp:191-194. *)
Definition refine (t : 'cV[F]_(n + k)) : 'cV[F]_(n + k) :=
  t + invmx (symU pol_Hp) *m (pol_h - symU pol_H *m t).
Definition t_hat : 'cV[F]_(n + k) := iter (polish_iter prm) refine 0.
(** Write-back, qp_solver.hpp:198-200. *)
Definition write_dual (t : 'cV[F]_(n + k)) : 'cV[F]_m :=
  foldl (fun (d : 'cV[F]_m) (a : 'I_k) => \col_i if i == LU_idx a then dsubmx t a 0 else d i 0) y (enum 'I_k).
Definition polish_qp (x : 'cV[F]_n) : option ('cV[F]_n * 'cV[F]_m) :=
  if pol_ok e (symU pol_Hp) then Some (usubmx t_hat, write_dual t_hat) else None.
End Polish.

(** * solve(), after scaling and factorization: qp_solver.hpp:360-364, 433-548 *)
Definition ret0 (p : qp) (Hs : 'M[F]_(n + m)) : option status :=
  if ldlt_ok e Hs then (if trivially_infeasible p then Some PrimalInfeasible else None) else Some Unknown.

Definition finish (p : qp) (s : scaling_t) (r : nat * xyz * option status) : qsol :=
  let: (k, v, rc) := r in
  (* polish, 515-539; sol_.code written there is overwritten below *)
  let xy := if (if rc is Some Optimal then polish prm else false) then
              if polish_qp p s (it_y v) (it_x v) is Some xy then xy else (it_x v, it_y v)
            else (it_x v, it_y v) in
  let x := unscale_x s xy.1 in
  QSol (odflt MaxIterations rc) (k %% w32)%N x (unscale_y s xy.2)
       ((x^T *m (2%:R^-1 *: (qP p *m x) + qq p)) 0 0).

Definition solve_core (fuel : nat) (p : qp) (s : scaling_t) (Hs : 'M[F]_(n + m)) (ws : option qsol) : option qsol :=
  omap (finish p s) (main_loop fuel 0 p s Hs (start p s ws) (ret0 p Hs)).

(** * Solver objects *)
(** Data members that survive a call: c_, sx_, sy_ (qp_solver.hpp:736-744), and for sparse problems the
    stored entries of H_, whether it is compressed, and the pattern analyzed by SimplicialLDLT
    (None = ldlt_.first, qp_solver.hpp:208-231, 424-426). *)
Record obj := Obj { o_s : scaling_t; o_h : spmat; o_cmp : bool; o_pat : option ('I_(n + m) -> 'I_(n + m) -> bool) }.

(** A constructed object, and analyze(), qp_solver.hpp:297-338 (dimensions are those of [n], [m]).
    ldlt_.first is not reset by analyze(). *)
Definition obj_new : obj := Obj (Scaling 1 (ones F n) (ones F m)) (fun _ _ => None) false None.
Definition analyze (o : obj) : obj := Obj (Scaling 1 (ones F n) (ones F m)) (fun _ _ => None) false (o_pat o).

(** Line 346: scaling. *)
Definition cur_scale (o : obj) (p : qp) : option scaling_t := if scaling prm then scale p else Some (o_s o).

Definition solve_dense (fuel : nat) (o : obj) (p : qp) (ws : option qsol) : option (qsol * obj) :=
  if cur_scale o p is Some s then
    if solve_core fuel p s (symU (fill_dense p s)) ws is Some r then
      Some (r, Obj s (o_h o) (o_cmp o) (o_pat o)) else None
  else None.

Definition pattern (h : spmat) : 'I_(n + m) -> 'I_(n + m) -> bool := fun r c => if h r c is Some _ then true else false.
(** factorize() with the symbolic analysis of another pattern is undefined. *)
Definition pattern_ok (o : option ('I_(n + m) -> 'I_(n + m) -> bool)) (h : spmat) : bool :=
  if o is Some q then [forall r : 'I_(n + m), forall c : 'I_(n + m), ((r <= c)%N ==> (q r c == pattern h r c))] else true.
Definition solve_sparse (fuel : nat) (o : obj) (p : sqp) (ws : option qsol) : option (qsol * obj) :=
  if cur_scale o (dense_of p) is Some s then
    let h := fill_sparse (o_cmp o) (o_h o) p s in
    if pattern_ok (o_pat o) h then
      if solve_core fuel (dense_of p) s (symU (sp_mx h)) ws is Some r then
        Some (r, Obj s h true (Some (odflt (pattern h) (o_pat o)))) else None
    else None
  else None.

(** solve_qp, qp_solver.hpp:779-787. *)
Definition solve_qp (fuel : nat) (p : qp) (ws : option qsol) : option qsol :=
  omap fst (solve_dense fuel obj_new p ws).
Definition solve_qp_sparse (fuel : nat) (p : sqp) (ws : option qsol) : option qsol :=
  omap fst (solve_sparse fuel obj_new p ws).
End Solver.
