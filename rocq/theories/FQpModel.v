(** Model of the end of a run of the QP solver in IEEE double arithmetic: the last iteration from the clamping on, unscaling,
    the optimality test of check_stopping and the returned values (qp_solver.hpp:471-488, 544-546, 574-594).

    Whatever the iterations before have computed is arbitrary: the scaled point, the multipliers and the vector that is
    clamped are any doubles.  Simplifications: Scalar = double; dense matrices (entries that a sparse matrix does not store
    add nothing to a product); polishing is off. *)
From Coq Require Import Reals ZArith Lia Lra List Bool Permutation.
From Flocq Require Import Core BinarySingleNaN.
From Verif Require Import LoopModel FPidModel.
Import ListNotations.

Definition fmat := nat -> nat -> b64.
Definition fabs (a : b64) : b64 := Babs a.
Definition fle (a b : b64) : bool := Bleb a b.

(** The value of a sum of products computed by Eigen (pbm.A * x_us_ and others, qp_solver.hpp:584, 589, 590): products and
    sums are rounded, the order of the sums is any (it depends on vectorization and on the storage order), and a product may
    be added with a fused multiply-add (with one rounding), as Eigen does on processors that have it. *)
Definition ffma (a b r : b64) : b64 := Bfma mode_NE a b r.
Inductive dot : list (b64 * b64) -> b64 -> Prop :=
| dot_nil : dot [] (fint 0)
| dot_one a b : dot [(a, b)] (fmul a b)
| dot_fma l l1 a b r : dot l1 r -> Permutation l ((a, b) :: l1) -> dot l (ffma a b r)
| dot_add l l1 l2 r1 r2 : dot l1 r1 -> dot l2 r2 -> Permutation l (l1 ++ l2) -> dot l (fadd r1 r2).
Definition frow (n : nat) (M : fmat) (x : fvec) (i : nat) : list (b64 * b64) := map (fun j => (M i j, x j)) (seq 0 n).
Definition ftr (M : fmat) : fmat := fun i j => M j i.
(** y = M x for M with m rows and n columns. *)
Definition fmv (m n : nat) (M : fmat) (x y : fvec) : Prop := forall i, (i < m)%nat -> dot (frow n M x i) (y i).
(** lpNorm<Infinity> (qp_solver.hpp:579): 0 for empty vectors, otherwise the largest absolute value; for vectors with NaN
    the result of Eigen's maxCoeff is not specified, and then it may be anything here. *)
Fixpoint fnorm (n : nat) (v : fvec) : b64 := match n with O => fint 0 | S k => fmax (fnorm k v) (fabs (v k)) end.
Definition lpnorm (n : nat) (v : fvec) (r : b64) : Prop := (forall i, (i < n)%nat -> is_nan (v i) = false) -> r = fnorm n v.

(** The problem, qp.hpp:31-45. *)
Record fqp := FQp { f_P : fmat; f_q : fvec; f_A : fmat; f_l : fvec; f_u : fvec }.
(** check_stopping finds the point optimal, qp_solver.hpp:583-594; ea and er are eps_abs and eps_rel (qp_solver.hpp:45-47,
    floats, converted to double without error).  The largest of three is taken from left to right (line 591). *)
Definition f_optimal (n m : nat) (p : fqp) (ea er : b64) (x y z : fvec) : Prop :=
  exists Ax Px Aty nAx nz nr nPx nq nAty nd,
    fmv m n (f_A p) x Ax /\ lpnorm m Ax nAx /\ lpnorm m z nz /\ lpnorm m (fun i => fsub (Ax i) (z i)) nr /\
    fle nr (fadd ea (fmul er (fmax nAx nz))) = true /\
    fmv n n (f_P p) x Px /\ fmv n m (ftr (f_A p)) y Aty /\ lpnorm n Px nPx /\ lpnorm n (f_q p) nq /\ lpnorm n Aty nAty /\
    lpnorm n (fun j => fadd (Px j) (fadd (f_q p j) (Aty j))) nd /\
    fle nd (fadd ea (fmul er (fmax (fmax nPx nq) nAty))) = true.

(** The last iteration, qp_solver.hpp:471-483: x_us_, y_us_, z_us_ from the scaled point x, the scaled multipliers y and the
    vector w that is clamped (lines 471-474). *)
Definition f_x_us (sx x : fvec) : fvec := fun j => fmul (sx j) (x j).
Definition f_y_us (c : b64) (sy y : fvec) : fvec := fun i => fdiv (fmul (sy i) (y i)) c.
Definition f_clamp (sy : fvec) (p : fqp) (w : fvec) : fvec := fun i =>
  fmin (fmax (w i) (fmul (sy i) (f_l p i))) (fmul (sy i) (f_u p i)).
Definition f_z_us (sy z : fvec) : fvec := fun i => fmul (fdiv (fint 1) (sy i)) (z i).
(** The solver returns Optimal with these values, qp_solver.hpp:488, 544-546, after an iteration with the scaled point x, the
    scaled multipliers y and the vector w that is clamped. *)
Definition f_returns (n m : nat) (p : fqp) (ea er c : b64) (sx sy x y w primal dual : fvec) : Prop :=
  (forall j, (j < n)%nat -> primal j = f_x_us sx x j) /\ (forall i, (i < m)%nat -> dual i = f_y_us c sy y i) /\
  f_optimal n m p ea er (f_x_us sx x) (f_y_us c sy y) (f_z_us sy (f_clamp sy p w)).
