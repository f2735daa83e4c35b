(** Model of EKF::update, ekf.hpp:117-139, in IEEE double arithmetic, for a scalar state and a scalar measurement (G = Y = R).
    Simplifications: Scalar = double; the derivative H of the measurement function is any double.  A sum with a product may be
    contracted to a fused multiply-add.  The factorization of a 1 x 1 matrix S is S itself, and Eigen's LDLT::solve divides by
    it unless |S| is at most the smallest normal number. *)
From Coq Require Import Reals ZArith Lia Lra List Bool.
From Flocq Require Import Core BinarySingleNaN.
From Verif Require Import LoopModel FPidModel FQpModel.

(** std::numeric_limits<double>::min(). *)
Definition f_min : b64 := binary_normalize 53 1024 p53_gt0 p53_lt mode_NE 1 (-1022) false.
(** S, ekf.hpp:129-130. *)
Definition fk_S (h p r s : b64) : Prop := s = fadd (fmul (fmul h p) h) r \/ s = ffma (fmul h p) h r.
(** The gain K, ekf.hpp:133-134. *)
Definition fk_K (h p s : b64) : b64 := if flt f_min (fabs s) then fdiv (fmul h p) s else fint 0.
(** The covariance, ekf.hpp:138. *)
Definition fk_P (h p k p' : b64) : Prop := p' = fmul (fsub (fint 1) (fmul k h)) p \/ p' = fmul (ffma (fneg k) h (fint 1)) p.
(** One measurement: variance p before, p' after, gain k. *)
Definition fk_update (h r p k p' : b64) : Prop := exists s, fk_S h p r s /\ k = fk_K h p s /\ fk_P h p k p'.
