(** Specification vocabulary for the PID properties: what the configured values and the integral
    are supposed to be, read off the history of public operations. *)
From mathcomp Require Import all_ssreflect all_algebra.
From Verif Require Import PidModel.
Set Implicit Arguments.
Unset Strict Implicit.
Unset Printing Implicit Defensive.
Import Order.TTheory GRing.Theory Num.Theory.
Local Open Scope ring_scope.

Section Spec.
Variables (F : realFieldType) (d : nat) (G T : Type).
Variable gminus : G -> G -> 'cV[F]_d.
Variable gone : G.
Variable tgt : T -> T -> bool.
Variable tminus : T -> T -> F.
Notation op := (op F d G T).
Notation traj := (traj F d G T).

(** The last value configured through one of the setters, or the documented default
    (1 for kp and kd, 0 for ki, identity trajectory). *)
Definition last_kp (h : seq op) : 'cV[F]_d :=
  last (const_mx 1) (pmap (fun o => match o with OKp k => Some k | OKpc k => Some (const_mx k) | _ => None end) h).
Definition last_kd (h : seq op) : 'cV[F]_d :=
  last (const_mx 1) (pmap (fun o => match o with OKd k => Some k | OKdc k => Some (const_mx k) | _ => None end) h).
Definition last_ki (h : seq op) : 'cV[F]_d :=
  last 0 (pmap (fun o => match o with OKi k => Some k | OKic k => Some (const_mx k) | _ => None end) h).
Definition last_xdes (h : seq op) : traj :=
  last (fun=> (gone, 0, 0))
    (pmap (fun o => match o with OXdes f => Some f
                    | OXspline t0 c => Some (fun t => c (tminus t t0)) | _ => None end) h).

(** The position error seen by a call at time [t] in state [x] after history [h]. *)
Definition err_at (h : seq op) (t : T) (x : G) : 'cV[F]_d := gminus (last_xdes h t).1.1 x.

(** Log of all calls: (time, position error), oldest first. *)
Fixpoint calls_from (h rest : seq op) : seq (T * 'cV[F]_d) :=
  match rest with
  | [::] => [::]
  | o :: r => match o with
              | OCall t x v => (t, err_at h t x) :: calls_from (rcons h o) r
              | _ => calls_from (rcons h o) r
              end
  end.
Definition calls (h : seq op) := calls_from [::] h.

Definition is_call (o : op) : bool := if o is OCall _ _ _ then true else false.
Definition is_reset (o : op) : bool := if o is OReset then true else false.

(** Number of calls made before the most recent reset of the integral
    ([find is_reset (rev h)] operations were made after it). *)
Definition calls_before_reset (h : seq op) : nat :=
  count is_call (take (size h - find is_reset (rev h)) h).

(** Contribution of call number [k]: error times the time elapsed since the previous call, nothing
    for the first call and when time has not increased. *)
Definition contrib (c : seq (T * 'cV[F]_d)) (k : nat) : 'cV[F]_d :=
  if k is k'.+1 then
    match ohead (drop k' c), ohead (drop k c) with
    | Some (t', _), Some (t, e) => if tgt t t' then tminus t t' *: e else 0
    | _, _ => 0
    end
  else 0.

(** The integral of the error since the last reset. *)
Definition integral (h : seq op) : 'cV[F]_d :=
  \sum_(calls_before_reset h <= k < size (calls h)) contrib (calls h) k.

(** Componentwise saturation to [-b, b]. *)
Definition saturate (b : F) (v : 'cV[F]_d) : 'cV[F]_d :=
  \col_i (if v i 0 < - b then - b else if b < v i 0 then b else v i 0).

(** The integral that is saturated to [-b, b] after every contribution. *)
Definition integral_sat (b : F) (h : seq op) : 'cV[F]_d :=
  foldl (fun acc k => saturate b (acc + contrib (calls h) k)) 0
    (index_iota (calls_before_reset h) (size (calls h))).
End Spec.
