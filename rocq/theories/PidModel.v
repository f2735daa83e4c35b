(** Model of the PID controller, /repo/include/smooth/feedback/pid.hpp.

    Simplifications: [double] is an arbitrary ordered field [F]; the Lie group [G], its [operator-]
    ([gminus], a tangent vector of dimension [d]) and the time type with its [operator>] and
    [time_trait<T>::minus] are parameters.  The [Spline] overloads of set_xdes are modelled by the
    function they install (see [spline_xdes]). *)
From mathcomp Require Import all_ssreflect all_algebra.
Set Implicit Arguments.
Unset Strict Implicit.
Unset Printing Implicit Defensive.
Import Order.TTheory GRing.Theory Num.Theory.
Local Open Scope ring_scope.

Section Pid.
Variables (F : realFieldType) (d : nat) (G T : Type).
Variable gminus : G -> G -> 'cV[F]_d.   (* g_des - x, pid.hpp:77 (smooth library) *)
Variable gone : G.                      (* Identity<G>(), pid.hpp:202 *)
Variable tgt : T -> T -> bool.          (* t > t_last, pid.hpp:79 *)
Variable tminus : T -> T -> F.          (* time_trait<T>::minus, pid.hpp:81 *)

(** TrajectoryReturnT, pid.hpp:43 *)
Definition traj := T -> G * 'cV[F]_d * 'cV[F]_d.

(** Data members of class PID, pid.hpp:188-203; [wl = None] is the default
    windup_limit = infinity (pid.hpp:20). *)
Record pid := Pid {
  wl : option F;
  kd : 'cV[F]_d;
  kp : 'cV[F]_d;
  ki : 'cV[F]_d;
  t_last : option T;
  i_err : 'cV[F]_d;
  x_des : traj }.

(** Constructor and default member initialisers, pid.hpp:53, 192-203. *)
Definition pid_new (w : option F) : pid :=
  Pid w (const_mx 1) (const_mx 1) 0 None 0 (fun=> (gone, 0, 0)).

(** cwiseMax(-w).cwiseMin(w), pid.hpp:82; no effect for w = infinity. *)
Definition clampv (w : option F) (v : 'cV[F]_d) : 'cV[F]_d :=
  if w is Some b then \col_i Num.min (Num.max (v i 0) (- b)) b else v.

(** cwiseProduct, pid.hpp:86. *)
Definition cprod (a b : 'cV[F]_d) : 'cV[F]_d := \col_i (a i 0 * b i 0).

(** operator(), pid.hpp:74-87: returns the new object and the control. *)
Definition pid_call (s : pid) (t : T) (x : G) (v : 'cV[F]_d) : pid * 'cV[F]_d :=
  let: (g_des, v_des, a_des) := x_des s t in
  let g_err := gminus g_des x in
  let ie := if t_last s is Some tl then
              if tgt t tl then clampv (wl s) (i_err s + tminus t tl *: g_err) else i_err s
            else i_err s in
  (Pid (wl s) (kd s) (kp s) (ki s) (Some t) ie (x_des s),
   a_des + cprod (kp s) g_err + cprod (kd s) (v_des - v) + cprod (ki s) ie).

(** set_xdes(T t0, Spline c), pid.hpp:152-159: the installed trajectory; [c] is the spline together
    with its first two derivatives. *)
Definition spline_xdes (t0 : T) (c : F -> G * 'cV[F]_d * 'cV[F]_d) : traj :=
  fun t => c (tminus t t0).

(** Public operations. *)
Inductive op :=
| OCall of T & G & 'cV[F]_d                       (* pid.hpp:74 *)
| OKp of 'cV[F]_d                                 (* pid.hpp:98 *)
| OKd of 'cV[F]_d                                 (* pid.hpp:112 *)
| OKi of 'cV[F]_d                                 (* pid.hpp:126 *)
| OKpc of F                                       (* pid.hpp:92, setConstant *)
| OKdc of F                                       (* pid.hpp:106 *)
| OKic of F                                       (* pid.hpp:120 *)
| OReset                                          (* pid.hpp:134 *)
| OXdes of traj                                   (* pid.hpp:177-186 *)
| OXspline of T & (F -> G * 'cV[F]_d * 'cV[F]_d). (* pid.hpp:142-159 *)

(** One public operation on the object (setters: pid.hpp:92-186). *)
Definition pid_step (s : pid) (o : op) : pid :=
  match o with
  | OCall t x v => (pid_call s t x v).1
  | OKp k => Pid (wl s) (kd s) k (ki s) (t_last s) (i_err s) (x_des s)
  | OKd k => Pid (wl s) k (kp s) (ki s) (t_last s) (i_err s) (x_des s)
  | OKi k => Pid (wl s) (kd s) (kp s) k (t_last s) (i_err s) (x_des s)
  | OKpc k => Pid (wl s) (kd s) (const_mx k) (ki s) (t_last s) (i_err s) (x_des s)
  | OKdc k => Pid (wl s) (const_mx k) (kp s) (ki s) (t_last s) (i_err s) (x_des s)
  | OKic k => Pid (wl s) (kd s) (kp s) (const_mx k) (t_last s) (i_err s) (x_des s)
  | OReset => Pid (wl s) (kd s) (kp s) (ki s) (t_last s) 0 (x_des s)
  | OXdes f => Pid (wl s) (kd s) (kp s) (ki s) (t_last s) (i_err s) f
  | OXspline t0 c => Pid (wl s) (kd s) (kp s) (ki s) (t_last s) (i_err s) (spline_xdes t0 c)
  end.

(** A controller after any sequence of public operations. *)
Definition pid_run (w : option F) (os : seq op) : pid := foldl pid_step (pid_new w) os.

End Pid.

Arguments OKp {F d G T}. Arguments OKd {F d G T}. Arguments OKi {F d G T}.
Arguments OKpc {F d G T}. Arguments OKdc {F d G T}. Arguments OKic {F d G T}.
Arguments OReset {F d G T}. Arguments OXspline {F d G T}. Arguments OXdes {F d G T}. Arguments OCall {F d G T}.
