(** Model of the PID controller, pid.hpp, in IEEE double arithmetic (Flocq's binary64 with infinities and NaN, rounding to
    nearest even), for T = double.

    Simplifications: the vectors of Tangent<G> are functions of the component (all operations are component-wise, so no
    component influences another); a call is given by its time, the value of g_des - x (computed by the smooth library) and
    the values a_des, v_des of the trajectory and v; fused multiply-add is not used by the compiler. *)
From Coq Require Import Reals ZArith Lia Lra List Bool.
From Flocq Require Import Core BinarySingleNaN.
From Verif Require Import LoopModel.
Import ListNotations.

(** std::max(a, b), used by cwiseMax (pid.hpp:82) is b if a < b and a otherwise; std::min is LoopModel.fmin. *)
Definition fmax (a b : b64) : b64 := if flt a b then b else a.
(** Unary minus, pid.hpp:82. *)
Definition fneg (a : b64) : b64 := Bopp a.
Definition fvec := nat -> b64.
(** std::numeric_limits<double>::infinity(), the default windup_limit, pid.hpp:20. *)
Definition finf : b64 := B754_infinity false.

(** One call of operator(): time, g_des - x, a_des, v_des, v (pid.hpp:74-77). *)
Record fcall := FCall { c_t : b64; c_err : fvec; c_ades : fvec; c_vdes : fvec; c_v : fvec }.
(** Data members, pid.hpp:188-199. *)
Record fpid := FPid { f_w : b64; f_kd : fvec; f_kp : fvec; f_ki : fvec; f_last : option b64; f_i : fvec }.
(** Constructor and default member initialisers, pid.hpp:53, 192-199. *)
Definition fpid_new (w : b64) : fpid := FPid w (fun _ => fint 1) (fun _ => fint 1) (fun _ => fint 0) None (fun _ => fint 0).

(** i_err_ += dt * g_err; cwiseMax(-w).cwiseMin(w), pid.hpp:81-82, one component. *)
Definition f_integrate (w dt e i : b64) : b64 := fmin (fmax (fadd i (fmul dt e)) (fneg w)) w.
(** The integral state after a call, pid.hpp:79-83; t > t_last is t_last < t; minus of two doubles is their difference,
    time.hpp:45. *)
Definition f_i_next (s : fpid) (c : fcall) : fvec := fun k =>
  match f_last s with
  | Some tl => if flt tl (c_t c) then f_integrate (f_w s) (fsub (c_t c) tl) (c_err c k) (f_i s k) else f_i s k
  | None => f_i s k
  end.
(** operator(), pid.hpp:74-87: new object and returned control (sums from left to right, pid.hpp:86). *)
Definition f_call (s : fpid) (c : fcall) : fpid * fvec :=
  let i := f_i_next s c in
  (FPid (f_w s) (f_kd s) (f_kp s) (f_ki s) (Some (c_t c)) i,
   fun k => fadd (fadd (fadd (c_ades c k) (fmul (f_kp s k) (c_err c k))) (fmul (f_kd s k) (fsub (c_vdes c k) (c_v c k))))
                 (fmul (f_ki s k) (i k))).

(** Public operations: calls, the setters of the gains (pid.hpp:92-129; set_k?(double) is the constant vector) and
    reset_integral (pid.hpp:134).  set_xdes changes only what later calls find in c_err, c_ades and c_vdes. *)
Inductive fop := PCall (c : fcall) | PKp (k : fvec) | PKd (k : fvec) | PKi (k : fvec) | PReset.
Definition f_step (s : fpid) (o : fop) : fpid :=
  match o with
  | PCall c => fst (f_call s c)
  | PKp k => FPid (f_w s) (f_kd s) k (f_ki s) (f_last s) (f_i s)
  | PKd k => FPid (f_w s) k (f_kp s) (f_ki s) (f_last s) (f_i s)
  | PKi k => FPid (f_w s) (f_kd s) (f_kp s) k (f_last s) (f_i s)
  | PReset => FPid (f_w s) (f_kd s) (f_kp s) (f_ki s) (f_last s) (fun _ => fint 0)
  end.
Definition f_run (s : fpid) (h : list fop) : fpid := fold_left f_step h s.
