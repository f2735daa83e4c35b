(** Notions for flattening that do not refer to the code: velocity of a curve in a group, derivative of a function
    on a group, what is trusted of the library smooth, Bernoulli numbers. *)
From mathcomp Require Import all_ssreflect all_algebra.
From Verif Require Import Calc QpModel QpSpec FlatModel.
Set Implicit Arguments.
Unset Strict Implicit.
Unset Printing Implicit Defensive.
Import Order.TTheory GRing.Theory Num.Theory.
Local Open Scope ring_scope.

Section Spec.
Variable F : realFieldType.

(** w is the velocity of the curve x at s: x(s + h) = x(s) (+) a with a = h w up to small terms. *)
Definition vel (X : Type) (n : nat) (plus : X -> 'cV[F]_n -> X) (x : F -> X) (s : F) (w : 'cV[F]_n) : Prop :=
  forall ep, 0 < ep -> exists2 dl, 0 < dl & forall h, `|h| <= dl ->
    exists2 a : 'cV[F]_n, x (s + h) = plus (x s) a & forall k, `|a k 0 - h * w k 0| <= ep * `|h|.
(** J is the (right) derivative of phi at x. *)
Definition rdiff (X : Type) (n : nat) (plus : X -> 'cV[F]_n -> X) (phi : X -> F) (x : X) (J : 'I_n -> F) : Prop :=
  forall ep, 0 < ep -> exists2 dl, 0 < dl & forall a : 'cV[F]_n, (forall k, `|a k 0| <= dl) ->
    `|phi (plus x a) - phi x - \sum_k J k * a k 0| <= ep * \sum_k `|a k 0|.
(** Derivative of a curve of vectors. *)
Definition derivv (n : nat) (e : F -> 'cV[F]_n) (s : F) (w : 'cV[F]_n) : Prop :=
  forall k, deriv (fun r => e r k 0) s (w k 0).

(** The members of f are its first and second derivatives. *)
Definition fn_ok1 (X : Type) (n m : nat) (plus : X -> 'cV[F]_n -> X) (f : fn F X n m) : Prop :=
  forall y i, rdiff plus (fun y => fval f y i 0) y (fun k => fjac f y i k).
Definition fn_ok2 (X : Type) (n m : nat) (plus : X -> 'cV[F]_n -> X) (f : fn F X n m) : Prop :=
  forall y i a, rdiff plus (fun y => fjac f y i a) y (fun k => fhess f y i a k).

(** What is trusted of the library for a group G. D is the set of tangent vectors where dr_expinv is defined. *)
Record lie_ok (G : lie F) (D : 'cV[F]_(dof G) -> Prop) : Prop := LieOk {
  (** x (+) 0 = x, and (+) is locally one to one *)
  ok_zero : forall x : car G, lplus x 0 = x;
  ok_inj : forall x : car G, exists2 r, 0 < r & forall a b : 'cV[F]_(dof G),
    (forall k, `|a k 0| <= r) -> (forall k, `|b k 0| <= r) -> lplus x a = lplus x b -> a = b;
  (** Ad(exp(-e)) and dr_exp describe how velocities pass through (+) *)
  ok_vel : forall (x : F -> car G) (e : F -> 'cV[F]_(dof G)) s w de,
    vel (@lplus F G) x s w -> derivv e s de ->
    vel (@lplus F G) (fun r => lplus (x r) (e r)) s (Adi (e s) *m w + dexp (e s) *m de);
  ok_inv : forall e, D e -> dexpinv e *m dexp e = 1%:M;
  ok_fund : forall e : 'cV[F]_(dof G), dexp e *m lad e = 1%:M - Adi e;
  ok_lin : forall (c : F) (a b : 'cV[F]_(dof G)), lad (c *: a + b) = c *: lad a + lad b;
  ok_anti : forall a b : 'cV[F]_(dof G), lad a *m b = - (lad b *m a);
  ok_dAd : forall (e b : 'cV[F]_(dof G)) k i, partial (fun e => (Adi e *m b) i 0) e k ((lad (Adi e *m b) *m Adi e *m dexp (- e)) i k);
  ok_d2 : forall (e : 'cV[F]_(dof G)) i j k, partial (fun e => dexp e i j) e k (d2exp e i j k);
  ok_d2i : forall (e : 'cV[F]_(dof G)) i j k, D e -> partial (fun e => dexpinv e i j) e k (d2expinv e i j k) }.

(** Bernoulli numbers by their recurrence: B_0 = 1 and sum_(k <= n) C(n+1, k) B_k = 0 for n >= 1. *)
Definition is_bernoulli (B : nat -> F) : Prop :=
  B 0%N = 1 /\ forall n, (0 < n)%N -> \sum_(k < n.+1) 'C(n.+1, k)%:R * B k = 0.

Variables (X U : lie F) (nq ncr nce : nat).
(** A trajectory of the problem on [0, tf] that satisfies dynamics, integrals and constraints; integ g tf q says
    that q is the integral of g over [0, tf]. *)
Definition ocp_feasible (integ : (F -> 'cV[F]_nq) -> F -> 'cV[F]_nq -> Prop) (o : gocp X U nq ncr nce)
    (tf : F) (x : F -> car X) (u : F -> car U) (q : 'cV[F]_nq) : Prop :=
  [/\ forall t, 0 <= t <= tf -> vel (@lplus F X) x t (fval (o_f o) (t, (x t, u t))),
      integ (fun t => fval (o_g o) (t, (x t, u t))) tf q,
      forall t i, 0 <= t <= tf -> between (o_crl o i) (o_cru o i) (fval (o_cr o) (t, (x t, u t)) i 0) &
      forall i, between (o_cel o i) (o_ceu o i) (fval (o_ce o) (tf, (x 0, (x tf, q))) i 0)].
Definition ocp_cost (o : gocp X U nq ncr nce) (tf : F) (x : F -> car X) (q : 'cV[F]_nq) : F :=
  fval (o_theta o) (tf, (x 0, (x tf, q))) 0 0.
End Spec.
