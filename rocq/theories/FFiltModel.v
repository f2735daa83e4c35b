(** Model of a whole EKF in IEEE double arithmetic: a scalar state (G = R) that does not move (f = 0) and is measured directly (h(x) = x), with any
    calls of predict and update, ekf.hpp:79-139.  Simplifications as in FEstModel and FPredModel. *)
From Coq Require Import Reals ZArith Lia Lra List Bool.
From Flocq Require Import Core BinarySingleNaN.
From Verif Require Import LoopModel FPidModel FQpModel FEkfModel FEstModel FPredModel.
Import ListNotations.

(** The calls of sst_.do_step with the derivative zero, ekf.hpp:96 and 102. *)
Inductive ff_state : list (b64 * b64) -> b64 -> b64 -> Prop :=
| ff_nil x : ff_state [] x x
| ff_cons t s l x x1 x' : x1 = fadd x (fmul s (fint 0)) \/ x1 = ffma s (fint 0) x -> ff_state l x1 x' -> ff_state ((t, s) :: l) x x'.
(** The calls: update with the variance r and the value y, predict with the variance q, the time tau and the step dt. *)
Inductive ff_call : Type := Update (r y : b64) | Predict (q tau dt : b64).
(** Estimate x and variance p before, x' and p' after a call: ekf.hpp:117-139 and 79-104. *)
Definition ff_step (c : ff_call) (x p x' p' : b64) : Prop :=
  match c with
  | Update r y => fk_direct r y x p x' p'
  | Predict q tau dt => exists l, fp_predict (fint 0) q tau dt l p p' /\ ff_state l x x'
  end.
Inductive ff_run : list ff_call -> b64 -> b64 -> b64 -> b64 -> Prop :=
| ff_run0 x p : ff_run [] x p x p
| ff_runS c l x p x1 p1 x' p' : ff_step c x p x1 p1 -> ff_run l x1 p1 x' p' -> ff_run (c :: l) x p x' p'.
