(** Model of include/smooth/feedback/time.hpp.  IEEE binary floating point numbers of precision [prec] are real numbers in
    Flocq's format FLT(emin, prec) with rounding to nearest even.  Simplification: no overflow to infinity and no NaN. *)
From Coq Require Import Reals ZArith Lia Lra.
From Flocq Require Import Core.
Local Open Scope R_scope.

(** double, and a floating point type T of precision prec (24 for float, 53 for double, 64 for long double). *)
Definition rnd (prec emin : Z) (x : R) : R := round radix2 (FLT_exp emin prec) ZnearestE x.
Definition isfl (prec emin : Z) (x : R) : Prop := generic_format radix2 (FLT_exp emin prec) x.
Definition rd : R -> R := rnd 53 (-1074).
Definition dbl : R -> Prop := isfl 53 (-1074).

(** time_trait<floating_point T>, time.hpp:39-47: the conversions round if T is not double. *)
Definition f_plus (prec emin : Z) (t s : R) : R := rnd prec emin (t + rnd prec emin s).
Definition f_minus (prec emin : Z) (t2 t1 : R) : R := rd (rnd prec emin (t2 - t1)).

(** std::chrono::duration_cast of the standard library between duration<double> and duration<int64_t, ratio<num, den>>, with
    ratio<num, den> in lowest terms: the count is multiplied by the numerator and divided by the denominator of the quotient
    of the periods, in the common type double, each only if it is not 1. *)
Definition to_ticks (num den : Z) (s : R) : R :=
  let s := if (den =? 1)%Z then s else rd (s * IZR den) in if (num =? 1)%Z then s else rd (s / IZR num).
Definition from_ticks (num den : Z) (n : Z) : R :=
  let s := rd (IZR n) in
  let s := if (num =? 1)%Z then s else rd (s * IZR num) in if (den =? 1)%Z then s else rd (s / IZR den).
Definition int64 (n : Z) : option Z := if ((- 2 ^ 63 <=? n) && (n <? 2 ^ 63))%Z%bool then Some n else None.

(** time_trait<chrono::time_point>, time.hpp:52-68, and time_trait<chrono::duration>, time.hpp:73-89: a time is a number of
    ticks.  None: out of the range of int64_t (undefined behaviour). *)
Definition c_plus (num den : Z) (t : Z) (s : R) : option Z :=
  match int64 (Ztrunc (to_ticks num den s)) with Some k => int64 (t + k) | None => None end.
Definition c_minus (num den : Z) (t2 t1 : Z) : option R :=
  match int64 (t2 - t1) with Some k => Some (from_ticks num den k) | None => None end.
