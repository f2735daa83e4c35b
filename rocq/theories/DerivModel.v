(** Model of test_ocp_derivatives, include/smooth/feedback/ocp.hpp:153-338. *)
From mathcomp Require Import all_ssreflect all_algebra.
Set Implicit Arguments. Unset Strict Implicit. Unset Printing Implicit Defensive.
Import Order.TTheory GRing.Theory Num.Theory.
Local Open Scope ring_scope.

Section Deriv.
Variable F : realFieldType.
(** A matrix with its run-time sizes; dense and sparse matrices are not distinguished (a coefficient that is not stored is
    zero). *)
Record dmat := Dmat { drows : nat; dcols : nat; dent : nat -> nat -> F }.
(** Sum of the squared coefficients and the largest absolute value of m1 - m2, for matrices of m1's size. *)
Definition sqsum (r c : nat) (m : nat -> nat -> F) : F := \sum_(i < r) \sum_(j < c) m i j ^+ 2.
Definition maxabs (r c : nat) (m : nat -> nat -> F) : F := \big[Num.max/0]_(i < r) \big[Num.max/0]_(j < c) `|m i j|.
(** DenseBase::isApprox(other, prec) of Eigen: |m1 - m2|^2 <= prec^2 min(|m1|^2, |m2|^2). *)
Definition is_approx (m1 m2 : dmat) (prec : F) : bool :=
  sqsum (drows m1) (dcols m1) (fun i j => dent m1 i j - dent m2 i j) <=
  prec ^+ 2 * Num.min (sqsum (drows m1) (dcols m1) (dent m1)) (sqsum (drows m2) (dcols m2) (dent m2)).
(** cmp, ocp.hpp:197-208; the precision of isApprox is the literal 1e-4. *)
Definition cmp (eps : F) (m1 m2 : dmat) : bool :=
  [&& dcols m1 == dcols m2, drows m1 == drows m2 &
      is_approx m1 m2 ((10%:R ^+ 4)^-1) || (maxabs (drows m1) (dcols m1) (fun i j => dent m1 i j - dent m2 i j) < eps)].

(** One function of the problem, of an argument of type A: its member functions jacobian and hessian (None: the concepts
    diffable_order1 and diffable_order2 do not hold), and what diff::dr<1, DT> and diff::dr<2, DT> of the library smooth
    return.  diff::dr<2, Analytic> needs both member functions. *)
Record fn (A : Type) := Fn { an1 : option (A -> dmat); an2 : option (A -> dmat); dt1 : A -> dmat; dt2 : A -> dmat }.
Variables E Z : Type.
(** The five functions of OCP, ocp.hpp:79-99; E is the type of (tf, x0, xf, q) and Z that of (t, x, u). *)
Record docp := Docp { d_theta : fn E; d_f : fn Z; d_g : fn Z; d_cr : fn Z; d_ce : fn E }.
(** if constexpr (diffable) { if (!cmp(def, num)) success = false; }, for example ocp.hpp:224-245. *)
Definition check (A : Type) (eps : F) (an : option (A -> dmat)) (dt : A -> dmat) (a : A) (success : bool) : bool :=
  if an is Some d then if ~~ cmp eps (d a) (dt a) then false else success else success.
Definition check_fn (A : Type) (eps : F) (h : fn A) (a : A) (success : bool) : bool :=
  let success := check eps (an1 h) (dt1 h) a success in
  check eps (an2 h) (dt2 h) a success.
(** The body of the loop, ocp.hpp:212-334: theta, ce, f, g, cr. *)
Definition trial (eps : F) (p : docp) (ez : E * Z) (success : bool) : bool :=
  let success := check_fn eps (d_theta p) ez.1 success in
  let success := check_fn eps (d_ce p) ez.1 success in
  let success := check_fn eps (d_f p) ez.2 success in
  let success := check_fn eps (d_g p) ez.2 success in
  check_fn eps (d_cr p) ez.2 success.
(** test_ocp_derivatives, ocp.hpp:165-338, without the output to the terminal; [pts] are the random points, one for each trial. *)
Definition test_ocp_derivatives (p : docp) (pts : seq (E * Z)) (eps : F) : bool :=
  foldl (fun success ez => trial eps p ez success) true pts.
End Deriv.
