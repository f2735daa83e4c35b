(** Model of include/smooth/feedback/compat/osqp.hpp.  Exact arithmetic over a real field.  OSQP itself is not part of the
    repository: its validation of data and settings (osqp 0.6, src/auxil.c validate_data and validate_settings) is
    written down as far as the wrapper's choices matter, and the outcome of the iteration is an argument. *)
From mathcomp Require Import all_ssreflect all_algebra.
From Verif Require Import QpModel.
Set Implicit Arguments.
Unset Strict Implicit.
Unset Printing Implicit Defensive.
Import Order.TTheory GRing.Theory Num.Theory.
Local Open Scope ring_scope.

Section Osqp.
Variable F : realFieldType.
Variables n m : nat.

(** OSQPData (without n and m): stored entries of P and A, and q, l, u. *)
Record odata := OData { d_P : 'I_n -> 'I_n -> option F; d_A : 'I_m -> 'I_n -> option F; d_q : 'cV[F]_n;
  d_l : 'I_m -> ext F; d_u : 'I_m -> ext F }.
(** osqp.hpp:37-39, 77-84, sparse problems: A = pbm.A, P the stored entries of the upper triangle. *)
Definition data_sparse (p : sqp F n m) : odata :=
  OData (fun i j => if (i <= j)%N then sP p i j else None) (sA p) (sq p) (sl p) (su p).
(** osqp.hpp:41-45, 77-84, dense problems: sparseView() stores the entries that are not zero, and prune(1e-6) keeps
    those with |v| > 1e-6 * 1e-12 (Eigen compares with the reference times dummy_precision). *)
Definition sparse_view (v : F) : option F := if v == 0 then None else Some v.
Definition prune (v : option F) : option F := if v is Some x then if `|x| <= em F 6 * em F 12 then None else Some x else None.
Definition data_dense (p : qp F n m) : odata :=
  OData (fun i j => prune (sparse_view (if (i <= j)%N then qP p i j else 0))) (fun i j => prune (sparse_view (qA p i j)))
    (qq p) (ql p) (qu p).

(** OSQPSettings as set by osqp.hpp:50-75; o_scaling is a number of iterations, prm.scaling is a bool; c_int has 64
    bits.  [max_time] is prm.max_time in nanoseconds. *)
Record osettings := OSettings { o_sigma : F; o_alpha : F; o_rho : F; o_eps_abs : F; o_eps_rel : F; o_eps_pinf : F;
  o_eps_dinf : F; o_scaling : nat; o_check : nat; o_polish : bool; o_refine : nat; o_delta : F; o_max_iter : nat; o_time : F }.
Definition c_int_max : nat := (2 ^ 63).-1.
Definition settings_of (prm : params F) (max_time : option nat) : osettings :=
  OSettings (sigma prm) (alpha prm) (rho_bar prm) (eps_abs prm) (eps_rel prm) (eps_pinf prm) (eps_dinf prm)
    (scaling prm) (stop_check_iter prm) (polish prm) (polish_iter prm) (delta prm)
    (if max_iter prm is Some k then k else c_int_max)
    (if max_time is Some t then t%:R * em F 9 else 0).

(** osqp_setup fails for such data and settings, before it sets the pointer to the workspace. *)
Definition data_ok (d : odata) : bool := (0 < n)%N && [forall i : 'I_m, ~~ contradictory (d_l d i) (d_u d i)].
Definition settings_ok (s : osettings) : bool :=
  [&& 0 < o_rho s, 0 < o_sigma s, 0 < o_delta s, (0 < o_max_iter s)%N, 0 <= o_eps_abs s, 0 <= o_eps_rel s,
      (o_eps_abs s != 0) || (o_eps_rel s != 0), 0 < o_eps_pinf s, 0 < o_eps_dinf s, 0 < o_alpha s < 2%:R & 0 <= o_time s].
(** status_val of OSQP (constants.h). *)
Inductive ostatus := OSOLVED | OSOLVED_INACCURATE | OPRIMAL_INFEASIBLE | OPRIMAL_INFEASIBLE_INACCURATE | ODUAL_INFEASIBLE
  | ODUAL_INFEASIBLE_INACCURATE | OMAX_ITER_REACHED | OSIGINT | OTIME_LIMIT_REACHED | ONON_CVX | OUNSOLVED.
(** Return value of osqp_solve and contents of the workspace after it. *)
Record oout := OOut { oo_err : bool; oo_status : ostatus; oo_iter : nat; oo_x : 'cV[F]_n; oo_y : 'cV[F]_m; oo_obj : F }.
(** osqp.hpp:106-128. *)
Definition osqp_code (s : ostatus) : status :=
  match s with
  | OSOLVED => Optimal | OPRIMAL_INFEASIBLE => PrimalInfeasible | ODUAL_INFEASIBLE => DualInfeasible
  | OMAX_ITER_REACHED => MaxIterations | OTIME_LIMIT_REACHED => MaxTime | _ => Unknown
  end.
(** osqp.hpp:86-149.  [osqp d s w]: osqp_setup, osqp_warm_start if w is given, and osqp_solve.  If osqp_setup fails,
    [work] keeps its undetermined value, which osqp_warm_start and osqp_cleanup use: None.  In "error &= osqp_solve(work)"
    error is 0 before, so it is 0 after, and what osqp_solve returns is not used. *)
Definition solve_qp_osqp (d : odata) (s : osettings) (warm : option (qsol F n m))
    (osqp : odata -> osettings -> option ('cV[F]_n * 'cV[F]_m) -> oout) : option (qsol F n m) :=
  if ~~ (data_ok d && settings_ok s) then None else
  let r := osqp d s (omap (fun w => (primal w, dual w)) warm) in
  let error := false && oo_err r in
  if error then Some (QSol Unknown 0 0 0 0) else
  Some (QSol (osqp_code (oo_status r)) (oo_iter r) (oo_x r) (oo_y r) (oo_obj r)).
End Osqp.
