(** Model of the covariance in EKF::predict, ekf.hpp:79-104, in IEEE double arithmetic, for a scalar state (G = R) with dynamics f(t, x) = a x + b(t)
    and the default stepper euler.  Simplifications: Scalar = double; ad of R is zero, so A = a; boost's euler adds the step times the derivative
    to the state; a sum with a product may be contracted to a fused multiply-add.  The steps are those of LoopModel.ekf_predict. *)
From Coq Require Import Reals ZArith Lia Lra List Bool.
From Flocq Require Import Core BinarySingleNaN.
From Verif Require Import LoopModel FPidModel FQpModel.
Import ListNotations.

(** dcov, ekf.hpp:87. *)
Definition fp_rate (a q p d : b64) : Prop := d = fadd (fadd (fmul a p) (fmul p a)) q \/ d = fadd (ffma a p (fmul p a)) q.
(** cst_.do_step of the length s, ekf.hpp:95 and 101. *)
Definition fp_step (a q s p p' : b64) : Prop := exists d, fp_rate a q p d /\ (p' = fadd p (fmul s d) \/ p' = ffma s d p).
(** The calls of do_step one after the other, ekf.hpp:91-103. *)
Inductive fp_steps (a q : b64) : list (b64 * b64) -> b64 -> b64 -> Prop :=
| fp_nil p : fp_steps a q [] p p
| fp_cons t s l p p1 p' : fp_step a q s p p1 -> fp_steps a q l p1 p' -> fp_steps a q ((t, s) :: l) p p'.
(** predict(f, q, tau, dt), ekf.hpp:79-104: variance p before, p' after, with the steps l. *)
Definition fp_predict (a q tau dt : b64) (l : list (b64 * b64)) (p p' : b64) : Prop :=
  exists fuel, ekf_predict fuel tau (Some dt) = Some l /\ fp_steps a q l p p'.
