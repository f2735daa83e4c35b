(** Model of the times at which functions on a mesh are evaluated, in IEEE double arithmetic.  Simplification: a sum with a product may be contracted
    to a fused multiply-add. *)
From Coq Require Import Reals ZArith Lia Lra List Bool.
From Flocq Require Import Core BinarySingleNaN.
From Verif Require Import LoopModel FPidModel FQpModel.

(** ti = t0 + (tf - t0) * tau: mesh_function.hpp:183, 339 and 535, and dyn_error.hpp:48. *)
Definition fo_at (fma : bool) (t0 tf tau : b64) : b64 := if fma then ffma (fsub tf t0) tau t0 else fadd t0 (fmul (fsub tf t0) tau).
(** The same time with either choice of the compiler (mesh_function.hpp:183, 339 and 535, dyn_error.hpp:48). *)
Definition fo_time (t0 tf tau ti : b64) : Prop := exists fma, ti = fo_at fma t0 tf tau.
(** (t - t0) / (tf - t0): the argument of Mesh::eval in the solution functions of nlpsol_to_ocpsol, ocp_to_nlp.hpp:471, 480, 487 and 494. *)
Definition fo_back (t0 tf t : b64) : b64 := fdiv (fsub t t0) (fsub tf t0).
