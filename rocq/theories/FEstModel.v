(** Model of EKF::update, ekf.hpp:117-139, in IEEE double arithmetic, for a scalar state that is measured directly: h(x) = x with the
    derivative H = 1 (automatic or analytic differentiation).  Simplifications as in FEkfModel. *)
From Coq Require Import Reals ZArith Lia Lra List Bool.
From Flocq Require Import Core BinarySingleNaN.
From Verif Require Import LoopModel FPidModel FQpModel FEkfModel.
Import ListNotations.

(** The estimate, ekf.hpp:137. *)
Definition fk_x (x k y x' : b64) : Prop := x' = fadd x (fmul k (fsub y x)) \/ x' = ffma k (fsub y x) x.
(** One measurement y of variance r: estimate x and variance p before, x' and p' after; ekf.hpp:129-138. *)
Definition fk_direct (r y x p x' p' : b64) : Prop :=
  exists s k, fk_S (fint 1) p r s /\ k = fk_K (fint 1) p s /\ fk_x x k y x' /\ fk_P (fint 1) p k p'.
(** Calls of update one after the other, with the variances and values of the list. *)
Inductive fk_seq : list (b64 * b64) -> b64 -> b64 -> b64 -> b64 -> Prop :=
| fk_seq0 x p : fk_seq [] x p x p
| fk_seqS r y l x p x1 p1 x' p' : fk_direct r y x p x1 p1 -> fk_seq l x1 p1 x' p' -> fk_seq ((r, y) :: l) x p x' p'.
