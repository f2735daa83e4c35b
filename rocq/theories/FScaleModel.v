(** Model of QPSolver::scale, qp_solver.hpp:673-729, in IEEE double arithmetic, for dense problems with n > 0 variables and
    m > 0 rows.  Simplifications: Scalar = double; products and maxima in the order of the text. *)
From Coq Require Import Reals ZArith Lia Lra List Bool Permutation.
From Flocq Require Import Core BinarySingleNaN.
From Verif Require Import LoopModel FPidModel FQpModel FInfModel.
Import ListNotations.

Definition fsqrt (a : b64) : b64 := Bsqrt mode_NE a.
(** The literals 1e-6, 1e-8 and 0.1: a correctly rounded quotient is the double nearest to the number. *)
Definition f_em6 : b64 := fdiv (fint 1) (fint 1000000).
Definition f_em8 : b64 := fdiv (fint 1) (fint 100000000).
Definition f_tenth : b64 := fdiv (fint 1) (fint 10).
(** Zero columns, qp_solver.hpp:690, 719, 722. *)
Definition f_one0 (v : b64) : b64 := if feq v (fint 0) then fint 1 else v.
(** sx_inc_ of the cost, qp_solver.hpp:678-691: the largest absolute value of the column (fnorm takes the maxima row by row). *)
Definition f_cost_col (n : nat) (p : fqp) (j : nat) : b64 := f_one0 (fnorm n (fun i => f_P p i j)).
(** c_, qp_solver.hpp:694, from the sum of the column norms and the norm of q. *)
Definition f_cost (n : nat) (sum nq : b64) : b64 :=
  fdiv (fint 1) (fmax (fmax f_em6 (fdiv sum (fint (Z.of_nat n)))) nq).
Record fscal := FScal { fs_c : b64; fs_x : fvec; fs_y : fvec }.
(** Scaled entries, qp_solver.hpp:707 and 713 (products from left to right). *)
Definition f_sP (p : fqp) (s : fscal) (i j : nat) : b64 := fmul (fmul (fmul (fs_c s) (fs_x s i)) (fs_x s j)) (f_P p i j).
Definition f_sA (p : fqp) (s : fscal) (i j : nat) : b64 := fmul (fmul (fs_y s i) (fs_x s j)) (f_A p i j).
(** Maxima of absolute values, starting from a. *)
Fixpoint fnorm_from (a : b64) (n : nat) (v : fvec) : b64 :=
  match n with O => a | S k => fmax (fnorm_from a k v) (fabs (v k)) end.
(** sx_inc_ and sy_inc_, qp_solver.hpp:700-723. *)
Definition f_xinc (n m : nat) (p : fqp) (s : fscal) (j : nat) : b64 :=
  f_one0 (fnorm_from (fnorm n (fun i => f_sP p s i j)) m (fun i => f_sA p s i j)).
Definition f_yinc (n : nat) (p : fqp) (s : fscal) (i : nat) : b64 := f_one0 (fnorm n (fun j => f_sA p s i j)).
(** qp_solver.hpp:725-726. *)
Definition f_apply (inc s : b64) : b64 := fmul (fsqrt (fdiv (fint 1) (fmax inc f_em8))) s.
Definition f_round (n m : nat) (p : fqp) (s : fscal) : fscal :=
  FScal (fs_c s) (fun j => f_apply (f_xinc n m p s j) (fs_x s j)) (fun i => f_apply (f_yinc n p s i) (fs_y s i)).
(** The condition of the loop, qp_solver.hpp:728. *)
Definition f_spread (n m : nat) (p : fqp) (s : fscal) : b64 :=
  fmax (fnorm n (fun j => fsub (f_xinc n m p s j) (fint 1))) (fnorm m (fun i => fsub (f_yinc n p s i) (fint 1))).
(** The do-while loop, qp_solver.hpp:699-728; k is 10 - iter. *)
Fixpoint f_loop (k n m : nat) (p : fqp) (s : fscal) : fscal :=
  let s' := f_round n m p s in
  match k with O => s' | S k' => if flt f_tenth (f_spread n m p s) then f_loop k' n m p s' else s' end.
(** scale, qp_solver.hpp:673-729: the sum of mean() is taken in any order (a product with 1 is exact), the norm of q is
    lpNorm<Infinity>. *)
Definition f_scale (n m : nat) (p : fqp) (s : fscal) : Prop :=
  exists sum nq, dot (map (fun j => (f_cost_col n p j, fint 1)) (seq 0 n)) sum /\ lpnorm n (f_q p) nq /\
    s = f_loop 10 n m p (FScal (f_cost n sum nq) (fun _ => fint 1) (fun _ => fint 1)).
