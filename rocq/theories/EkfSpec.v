(** Specification vocabulary for the EKF properties. *)
From mathcomp Require Import all_ssreflect all_algebra.
From Verif Require Import LinAlg EkfModel.
Set Implicit Arguments.
Unset Strict Implicit.
Unset Printing Implicit Defensive.
Import Order.TTheory GRing.Theory Num.Theory.
Local Open Scope ring_scope.

Section Spec.
Variables (F : realFieldType) (d : nat) (G : Type).
Variable gplus : G -> 'cV[F]_d -> G.
Variable ad : 'cV[F]_d -> 'M[F]_d.

(** The filter integrated over consecutive steps of lengths [hs] starting at time [t]. *)
Fixpoint run_steps tb f (Q : 'M[F]_d) (t : F) (hs : seq F) (s : ekf F d G) : ekf F d G :=
  if hs is h :: hs' then run_steps tb f Q (t + h) hs' (pred_step gplus ad tb f Q s t h) else s.

(** Two matrices with the same upper triangle. *)
Definition same_upper n (A B : 'M[F]_n) : Prop := forall i j : 'I_n, (i <= j)%N -> A i j = B i j.

(** M1 <= M2 in every direction. *)
Definition mx_le n (A B : 'M[F]_n) : Prop := forall x : 'cV[F]_n, qf A x <= qf B x.

(** Weighted least squares cost of a linear measurement y = H x with prior (x0, P). *)
Definition ls_cost ny (P : 'M[F]_d) (x0 : 'cV[F]_d) (H : 'M[F]_(ny,d)) (R : 'M[F]_ny)
  (y : 'cV[F]_ny) (x : 'cV[F]_d) : F :=
  qf (invmx P) (x - x0) + qf (invmx R) (y - H *m x).
End Spec.

(** Operations whose resets are with symmetric matrices. *)
Definition sym_op (F : realFieldType) d (G : Type) (o : eop F d G) : Prop :=
  match o with OReset _ P => P^T = P | _ => True end.
