(** Model of the time loops of ekf.hpp and asif_func.hpp in IEEE double arithmetic (Flocq's binary64 with infinities and NaN,
    rounding to nearest even).  Only the time variables are modelled: they alone decide how often the loops run. *)
From Coq Require Import Reals ZArith Lia Lra List Bool.
From Flocq Require Import Core BinarySingleNaN.
Import ListNotations.

Global Instance p53_gt0 : Prec_gt_0 53 := eq_refl.
Global Instance p53_lt : Prec_lt_emax 53 1024 := eq_refl.
(** double, its operations, the comparison < (false for NaN), and the conversion of an integer. *)
Definition b64 : Type := binary_float 53 1024.
Definition fadd : b64 -> b64 -> b64 := Bplus mode_NE.
Definition fsub : b64 -> b64 -> b64 := Bminus mode_NE.
Definition fmul : b64 -> b64 -> b64 := Bmult mode_NE.
Definition fdiv : b64 -> b64 -> b64 := Bdiv mode_NE.
Definition flt : b64 -> b64 -> bool := Bltb.
Definition fint (z : Z) : b64 := binary_normalize 53 1024 p53_gt0 p53_lt mode_NE z 0 false.
(** std::min(a, b) is b if b < a and a otherwise. *)
Definition fmin (a b : b64) : b64 := if flt b a then b else a.

(** EKF::predict, ekf.hpp:91-103: the arguments (t, step) of the calls of do_step; None: more than fuel passes. *)
Fixpoint ekf_loop (fuel : nat) (tau dt t : b64) : option (list (b64 * b64)) :=
  if flt (fadd t dt) tau then
    match fuel with
    | O => None
    | S fuel' => match ekf_loop fuel' tau dt (fadd t dt) with Some l => Some ((t, dt) :: l) | None => None end
    end
  else Some [(t, fsub tau t)].
Definition ekf_predict (fuel : nat) (tau : b64) (dt : option b64) : option (list (b64 * b64)) :=
  ekf_loop fuel tau (match dt with Some d => d | None => fmul (fint 2) tau end) (fint 0).

(** The inner loop of asif_to_qp_update, asif_func.hpp:175-179, for t < g with steps of length d. *)
Fixpoint asif_while (fuel : nat) (g d t : b64) : option b64 :=
  if flt t g then match fuel with O => None | S fuel' => asif_while fuel' g d (fadd t d) end else Some t.
(** One pass of the outer loop, asif_func.hpp:174-179: from sample k to sample k + 1 (k + 1 < 2^32 is unsigned). *)
Definition asif_next (fuel : nat) (tau dt : b64) (k : nat) (t : b64) : option b64 :=
  let g := fmul tau (fint (Z.of_nat (k + 1))) in asif_while fuel g (fmin dt (fsub g t)) t.
(** Value of t when constraint k is inserted, asif_func.hpp:141, 159-172. *)
Fixpoint asif_sample (fuel : nat) (tau dt : b64) (k : nat) : option b64 :=
  match k with
  | O => Some (fint 0)
  | S k' => match asif_sample fuel tau dt k' with Some t => asif_next fuel tau dt k' t | None => None end
  end.
(** tau and dt, asif_func.hpp:139-140. *)
Definition asif_tau (T : b64) (K : nat) : b64 := fdiv T (fint (Z.of_nat K)).
Definition asif_dt (T : b64) (K : nat) (pdt : b64) : b64 := fmin pdt (asif_tau T K).
Definition asif_time (fuel : nat) (T : b64) (K : nat) (pdt : b64) (k : nat) : option b64 :=
  asif_sample fuel (asif_tau T K) (asif_dt T K pdt) k.
