(** Model of include/smooth/feedback/compat/ipopt.hpp.  Exact arithmetic over a real field.  IPOPT itself is not part
    of the repository: the calls it makes are arbitrary ([call]), and what it reports at the end is an argument. *)
From mathcomp Require Import all_ssreflect all_algebra.
From Verif Require Import QpModel SparseModel.
Set Implicit Arguments.
Unset Strict Implicit.
Unset Printing Implicit Defensive.
Import Order.TTheory GRing.Theory Num.Theory.
Local Open Scope ring_scope.

Section Ipopt.
Variable F : realFieldType.
Local Notation vec := (nat -> F).

(** An object that satisfies the concepts NLP and HessianNLP, nlp.hpp:29-66.  The methods may change the object (those
    of OCPNLP reuse its matrices); p_rm tells whether dg_dx returns a row-major matrix. *)
Record problem (S : Type) := Problem { p_n : nat; p_m : nat; p_rm : bool;
  p_xl : nat -> ext F; p_xu : nat -> ext F; p_gl : nat -> ext F; p_gu : nat -> ext F;
  p_f : S -> vec -> S * F; p_df : S -> vec -> S * smat F;
  p_g : S -> vec -> S * vec; p_dg : S -> vec -> S * smat F;
  p_d2f : S -> vec -> S * smat F; p_d2g : S -> vec -> vec -> S * smat F }.

(** What the loops "for od < outerSize, InnerIterator it(M, od)" visit (ipopt.hpp:166-171, 176-178, 210-216, 225-227):
    the stored entries, outer index first. *)
Definition order (rm : bool) (rows cols : nat) : seq (nat * nat) :=
  if rm then [seq (r, c) | r <- iota 0 rows, c <- iota 0 cols] else [seq (r, c) | c <- iota 0 cols, r <- iota 0 rows].
Definition stored (rm : bool) (rows cols : nat) (M : smat F) : seq (nat * nat) :=
  [seq rc <- order rm rows cols | isSome (M rc.1 rc.2)].
(** Eigen: A += B for sparse matrices stores the union of the stored entries; A *= s. *)
Definition sadd (A B : smat F) : smat F := fun r c => if isSome (A r c) || isSome (B r c) then Some (val A r c + val B r c) else None.
Definition smul (s : F) (A : smat F) : smat F := fun r c => omap (fun v => v * s) (A r c).

Section Obj.
Variables (S : Type) (P : problem S).
Local Notation n := (p_n P).
Local Notation m := (p_m P).
(** The members nlp_ and H_, ipopt.hpp:281-284; use_hessian_ does not change. *)
Record ist := Ist { i_s : S; i_H : smat F }.
Variable uh : bool.
(** get_nlp_info, ipopt.hpp:47-75. *)
Definition get_nlp_info (st : ist) : ist * (nat * nat * nat * nat) :=
  let: (s, J) := p_dg P (i_s st) (fun=> 0) in
  let nnz_jac_g := size (stored (p_rm P) m n J) in
  if uh then
    let: (s, H1) := p_d2f P s (fun=> 0) in
    let: (s, H2) := p_d2g P s (fun=> 0) (fun=> 0) in
    let H := sadd H1 H2 in
    (Ist s H, (n, m, nnz_jac_g, size (stored false n n H)))
  else (Ist s (i_H st), (n, m, nnz_jac_g, 0%N)).
(** eval_jac_g, ipopt.hpp:148-182; without x (values == NULL) the positions, with x the values. *)
Definition eval_jac_s (st : ist) : ist * seq (nat * nat) :=
  let: (s, J) := p_dg P (i_s st) (fun=> 0) in (Ist s (i_H st), stored (p_rm P) m n J).
Definition eval_jac_v (st : ist) (x : vec) : ist * seq F :=
  let: (s, J) := p_dg P (i_s st) x in
  (Ist s (i_H st), [seq val J rc.1 rc.2 | rc <- stored (p_rm P) m n J]).
(** eval_h, ipopt.hpp:187-231. *)
Definition eval_h_s (st : ist) : ist * seq (nat * nat) :=
  let H := set_zero (i_H st) in (Ist (i_s st) H, [seq (rc.2, rc.1) | rc <- stored false n n H]).
Definition eval_h_v (st : ist) (x : vec) (sigma : F) (lam : vec) : ist * seq F :=
  let H := set_zero (i_H st) in
  let: (s, H1) := p_d2f P (i_s st) x in
  let H := sadd H H1 in
  let H := smul sigma H in
  let: (s, H2) := p_d2g P s x lam in
  let H := sadd H H2 in
  (Ist s H, [seq val H rc.1 rc.2 | rc <- stored false n n H]).
(** eval_f, eval_grad_f and eval_g, ipopt.hpp:118-143. *)
Definition eval_f (st : ist) (x : vec) : ist * F := let: (s, v) := p_f P (i_s st) x in (Ist s (i_H st), v).
Definition eval_grad_f (st : ist) (x : vec) : ist * seq F :=
  let: (s, D) := p_df P (i_s st) x in (Ist s (i_H st), [seq val D 0 i | i <- iota 0 n]).
Definition eval_g (st : ist) (x : vec) : ist * seq F :=
  let: (s, g) := p_g P (i_s st) x in (Ist s (i_H st), [seq g i | i <- iota 0 m]).

(** The calls that IPOPT may make after get_nlp_info, in any order. *)
Inductive call := CF of vec | CGrad of vec | CG of vec | CJs | CJv of vec | CHs | CHv of vec & F & vec.
Definition step (st : ist) (c : call) : ist :=
  match c with
  | CF x => (eval_f st x).1 | CGrad x => (eval_grad_f st x).1 | CG x => (eval_g st x).1
  | CJs => (eval_jac_s st).1 | CJv x => (eval_jac_v st x).1
  | CHs => (eval_h_s st).1 | CHv x sg l => (eval_h_v st x sg l).1
  end.
Definition run (st : ist) (h : seq call) : ist := foldl step st h.

(** get_bounds_info, ipopt.hpp:80-91; cwiseMax and cwiseMin with the constants -2e19 and 2e19. *)
Definition big : F := 2%:R * 10%:R ^+ 19.
Definition lo (b : ext F) : ext F := match b with NegInf => Fin (- big) | Fin a => Fin (Num.max a (- big)) | PosInf => PosInf end.
Definition hi (b : ext F) : ext F := match b with PosInf => Fin big | Fin a => Fin (Num.min a big) | NegInf => NegInf end.
Definition get_bounds_info : (nat -> ext F) * (nat -> ext F) * (nat -> ext F) * (nat -> ext F) :=
  (fun i => lo (p_xl P i), fun i => hi (p_xu P i), fun i => lo (p_gl P i), fun i => hi (p_gu P i)).
End Obj.

(** Ipopt::SolverReturn (IpAlgTypes.hpp of IPOPT 3.14). *)
Inductive solver_return := SUCCESS | MAXITER_EXCEEDED | CPUTIME_EXCEEDED | WALLTIME_EXCEEDED | STOP_AT_TINY_STEP
  | STOP_AT_ACCEPTABLE_POINT | LOCAL_INFEASIBILITY | USER_REQUESTED_STOP | FEASIBLE_POINT_FOUND | DIVERGING_ITERATES
  | RESTORATION_FAILURE | ERROR_IN_STEP_COMPUTATION | INVALID_NUMBER_DETECTED | TOO_FEW_DEGREES_OF_FREEDOM
  | INVALID_OPTION | OUT_OF_MEMORY | INTERNAL_ERROR | UNASSIGNED.
(** NLPSolution, nlp.hpp:71-103. *)
Inductive nstatus := NOptimal | NPrimalInfeasible | NDualInfeasible | NMaxIterations | NMaxTime | NUnknown.
Record nsol := NSol { n_status : nstatus; n_iter : nat; n_x : seq F; n_zl : seq F; n_zu : seq F; n_lam : seq F; n_obj : F }.
(** finalize_solution, ipopt.hpp:236-279. *)
Definition nlp_status (r : solver_return) : nstatus :=
  match r with
  | SUCCESS => NOptimal | STOP_AT_ACCEPTABLE_POINT => NOptimal
  | MAXITER_EXCEEDED => NMaxIterations | CPUTIME_EXCEEDED => NMaxTime
  | LOCAL_INFEASIBILITY => NPrimalInfeasible | DIVERGING_ITERATES => NDualInfeasible
  | _ => NUnknown
  end.
(** What IPOPT passes to finalize_solution. *)
Record fin := FinCall { f_ret : solver_return; f_iter : nat; f_x : seq F; f_zl : seq F; f_zu : seq F; f_lam : seq F; f_obj : F }.
Definition finalize_solution (a : fin) : nsol :=
  NSol (nlp_status (f_ret a)) (f_iter a) (f_x a) (f_zl a) (f_zu a) (f_lam a) (f_obj a).
(** solve_nlp_ipopt, ipopt.hpp:298-338, from the warm start to the returned solution.  [ipopt] is what Initialize() and
    OptimizeTNLP() do with the start values: None if finalize_solution is not called because an error was found before
    (their return values are ignored).  [junk] is the status of a new NLPSolution, which is not initialised. *)
Definition solve_nlp_ipopt (n : nat) (junk : nstatus) (warm : option nsol) (ipopt : bool -> nsol -> option fin) : nsol :=
  let start := if warm is Some w then w else NSol junk 0 (nseq n 0) [::] [::] [::] 0 in
  if ipopt (isSome warm) start is Some a then finalize_solution a else start.
(** The choice of use_hessian, ipopt.hpp:309-311: std::find_if finds the first pair with this key; options are set in
    order (ipopt.hpp:332), so that IPOPT uses the last one. *)
Definition use_hessian (T V : eqType) (key : T) (exact : V) (opts : seq (T * V)) : bool :=
  if ohead [seq p <- opts | p.1 == key] is Some p then p.2 == exact else false.
End Ipopt.
