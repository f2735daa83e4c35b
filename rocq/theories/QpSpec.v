(** What the QP properties talk about: feasibility, optimality, KKT conditions, residuals and
    certificates of infeasibility.  Only the problem data and the status names come from the model. *)
From mathcomp Require Import all_ssreflect all_algebra.
From Verif Require Import LinAlg QpModel.
Set Implicit Arguments.
Unset Strict Implicit.
Unset Printing Implicit Defensive.
Import Order.TTheory GRing.Theory Num.Theory.
Local Open Scope ring_scope.

Section Spec.
Variable F : realFieldType.

(** l <= v and v <= u. *)
Definition lo_ok (l : ext F) (v : F) : bool :=
  match l with NegInf => true | Fin a => a <= v | PosInf => false end.
Definition hi_ok (u : ext F) (v : F) : bool :=
  match u with NegInf => false | Fin b => v <= b | PosInf => true end.
Definition between (l u : ext F) (v : F) : bool := lo_ok l v && hi_ok u v.
(** y is a multiplier of l <= z <= u at z: positive only at the upper bound, negative only at the lower. *)
Definition multiplier (l u : ext F) (z y : F) : Prop :=
  (0 < y -> u = Fin z) /\ (y < 0 -> l = Fin z).

Variables n m : nat.
Implicit Types (p : qp F n m) (x : 'cV[F]_n) (y z : 'cV[F]_m).

Definition feasible p x : Prop := forall i, between (ql p i) (qu p i) ((qA p *m x) i 0).
Definition cost p x : F := 2%:R^-1 * qf (qP p) x + dot (qq p) x.
Definition optimal p x : Prop := feasible p x /\ forall v, feasible p v -> cost p x <= cost p v.
Definition convex p : Prop := symm (qP p) /\ psd (qP p).
Definition kkt p x y : Prop :=
  [/\ feasible p x, qP p *m x + qq p + (qA p)^T *m y = 0 &
      forall i, multiplier (ql p i) (qu p i) ((qA p *m x) i 0) (y i 0)].
(** |v|_inf <= t, entrywise. *)
Definition within k (v : 'cV[F]_k) (t : F) : Prop := forall i, `|v i 0| <= t.
Definition norm1 k (v : 'cV[F]_k) : F := \sum_i `|v i 0|.
(** The problem whose Hessian is given by the upper triangle of P (qp.hpp:27-29). *)
Definition upper_problem p : qp F n m := Qp (symU (qP p)) (qq p) (qA p) (ql p) (qu p).
Definition same_upper p1 p2 : Prop :=
  [/\ forall i j : 'I_n, (i <= j)%N -> qP p1 i j = qP p2 i j, qq p1 = qq p2, qA p1 = qA p2,
      ql p1 = ql p2 & qu p1 = qu p2].
(** Parameters for which the algorithm is stated. *)
Definition good_params (prm : params F) : Prop :=
  [/\ 0 < sigma prm, 0 < rho_bar prm & alpha prm != 0].
(** std::sqrt of a positive number is positive. *)
Definition good_sqrt (e : env F n m) : Prop := forall t : F, 0 < t -> 0 < sqrt e t.
(** Infinity norm. *)
Definition linf k (v : 'cV[F]_k) : F := \big[Num.max/0]_i `|v i 0|.
(** s * b for a bound. *)
Definition ext_times (s : F) (b : ext F) : ext F :=
  match b with NegInf => NegInf | Fin x => Fin (s * x) | PosInf => PosInf end.
(** The problem in the variables x / sx with rows multiplied by sy and the cost by c. *)
Definition scaled_problem (c : F) (sx : 'cV[F]_n) (sy : 'cV[F]_m) p : qp F n m :=
  Qp (c *: (diag_mx sx^T *m qP p *m diag_mx sx^T)) (c *: (diag_mx sx^T *m qq p))
     (diag_mx sy^T *m qA p *m diag_mx sx^T)
     (fun i => ext_times (sy i 0) (ql p i)) (fun i => ext_times (sy i 0) (qu p i)).

(** Solver objects that have solved any sequence of dense (sparse) problems. *)
Inductive reach_d (e : env F n m) (prm : params F) : obj F n m -> Prop :=
| rd_new : reach_d e prm (@obj_new F n m)
| rd_analyze o : reach_d e prm o -> reach_d e prm (analyze o)
| rd_solve o fuel p ws r o' : reach_d e prm o -> solve_dense e prm fuel o p ws = Some (r, o') -> reach_d e prm o'.
Inductive reach_s (e : env F n m) (prm : params F) : obj F n m -> Prop :=
| rs_new : reach_s e prm (@obj_new F n m)
| rs_analyze o : reach_s e prm o -> reach_s e prm (analyze o)
| rs_solve o fuel (p : sqp F n m) ws r o' : reach_s e prm o -> solve_sparse e prm fuel o p ws = Some (r, o') -> reach_s e prm o'.

(** Sparse objects all of whose problems had the same stored entries (cP, cA). *)
Definition structure (p : sqp F n m) (cP : 'I_n -> 'I_n -> bool) (cA : 'I_m -> 'I_n -> bool) : Prop :=
  (forall i j, isSome (sP p i j) = cP i j) /\ (forall i j, isSome (sA p i j) = cA i j).
Inductive reach_same (e : env F n m) (prm : params F) cP cA : obj F n m -> Prop :=
| rm_new : reach_same e prm cP cA (@obj_new F n m)
| rm_analyze o : reach_same e prm cP cA o -> reach_same e prm cP cA (analyze o)
| rm_solve o fuel (p : sqp F n m) ws r o' : reach_same e prm cP cA o -> structure p cP cA ->
    solve_sparse e prm fuel o p ws = Some (r, o') -> reach_same e prm cP cA o'.

(** An Optimal answer: z feasible, residuals within rp and rd, y an exact multiplier of z. *)
Definition approx_kkt p x y z rp rd : Prop :=
  [/\ forall i, between (ql p i) (qu p i) (z i 0), within (qA p *m x - z) rp,
      within (qP p *m x + qq p + (qA p)^T *m y) rd &
      forall i, multiplier (ql p i) (qu p i) (z i 0) (y i 0)].
Definition tol_primal (prm : params F) p x z : F :=
  eps_abs prm + eps_rel prm * Num.max (linf (qA p *m x)) (linf z).
Definition tol_dual (prm : params F) p x y : F :=
  eps_abs prm + eps_rel prm * Num.max (linf (qP p *m x)) (Num.max (linf (qq p)) (linf ((qA p)^T *m y))).
(** Weighted square distance of the iterates (x, z, y) and (x', z', y'). *)
Definition wdist2 (sg : F) (rho : 'cV[F]_m) x z y x' z' y' : F :=
  sg * (\sum_i (x i 0 - x' i 0) ^+ 2) +
  \sum_i rho i 0 * ((z i 0 + y i 0 / rho i 0) - (z' i 0 + y' i 0 / rho i 0)) ^+ 2.
(** Parameters with polishing switched off. *)
Definition no_polish (prm : params F) : params F :=
  Params (alpha prm) (rho_bar prm) (sigma prm) (scaling prm) (eps_abs prm) (eps_rel prm) (eps_pinf prm)
    (eps_dinf prm) (max_iter prm) (has_max_time prm) (stop_check_iter prm) false (polish_iter prm) (delta prm).
End Spec.
