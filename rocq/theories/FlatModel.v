(** Model of ocp_flatten.hpp: flattening of an optimal control problem on a Lie group around a reference
    trajectory. Exact arithmetic over a real field. *)
From Coq Require Import NArith.
From mathcomp Require Import all_ssreflect all_algebra.
From Verif Require Import QpModel.
Set Implicit Arguments.
Unset Strict Implicit.
Unset Printing Implicit Defensive.
Import Order.TTheory GRing.Theory Num.Theory.
Local Open Scope ring_scope.

Section Flat.
Variable F : realFieldType.

(** kBn, ocp_flatten.hpp:29-53 (exact quotients instead of rounded ones; numbers in binary). *)
Definition num (n : N) : F := (nat_of_bin n)%:R.
Definition kBn : seq F :=
  [:: num 1; - (num 1 / num 2); num 1 / num 6; 0; - (num 1 / num 30); 0; num 1 / num 42; 0; - (num 1 / num 30); 0; num 5 / num 66; 0;
      - (num 691 / num 2730); 0; num 7 / num 6; 0; - (num 3617 / num 510); 0; num 43867 / num 798; 0;
      - (num 174611 / num 330); 0; num 854513 / num 138].

(** The functions of the library smooth (not part of this repository) that ocp_flatten.hpp:20-21,118-141,172-176,
    189-190,241-244 uses for a Lie group: rplus, Ad(exp(-e)), ad, dr_exp, dr_expinv and the derivatives d2r_exp
    and d2r_expinv, the latter as one matrix per row of dr_exp and dr_expinv. *)
Record lie := Lie {
  car : Type; dof : nat;
  lplus : car -> 'cV[F]_dof -> car;
  Adi : 'cV[F]_dof -> 'M[F]_dof;
  lad : 'cV[F]_dof -> 'M[F]_dof;
  dexp : 'cV[F]_dof -> 'M[F]_dof;
  dexpinv : 'cV[F]_dof -> 'M[F]_dof;
  d2exp : 'cV[F]_dof -> 'I_dof -> 'M[F]_dof;
  d2expinv : 'cV[F]_dof -> 'I_dof -> 'M[F]_dof }.

(** Eigen vectors and double as groups; ocp_flatten.hpp:93,402 (BundleT) and 517-518 (Tangent). *)
Definition Rn (n : nat) : lie :=
  @Lie 'cV[F]_n n (fun x a => x + a) (fun _ => 1%:M) (fun _ => 0) (fun _ => 1%:M) (fun _ => 1%:M) (fun _ _ => 0) (fun _ _ => 0).
Definition R1 : lie :=
  @Lie F 1 (fun x a => x + a 0 0) (fun _ => 1%:M) (fun _ => 0) (fun _ => 1%:M) (fun _ => 1%:M) (fun _ _ => 0) (fun _ _ => 0).
(** smooth::Bundle of two groups, ocp_flatten.hpp:93,289,404: every operation acts on the parts. *)
Definition pairL (G K : lie) : lie :=
  @Lie (car G * car K)%type (dof G + dof K)
    (fun x a => (lplus x.1 (usubmx a), lplus x.2 (dsubmx a)))
    (fun a => block_mx (Adi (usubmx a)) 0 0 (Adi (dsubmx a)))
    (fun a => block_mx (lad (usubmx a)) 0 0 (lad (dsubmx a)))
    (fun a => block_mx (dexp (usubmx a)) 0 0 (dexp (dsubmx a)))
    (fun a => block_mx (dexpinv (usubmx a)) 0 0 (dexpinv (dsubmx a)))
    (fun a i => match split i with
       | inl i => block_mx (d2exp (usubmx a) i) 0 0 0 | inr i => block_mx 0 0 0 (d2exp (dsubmx a) i) end)
    (fun a i => match split i with
       | inl i => block_mx (d2expinv (usubmx a) i) 0 0 0 | inr i => block_mx 0 0 0 (d2expinv (dsubmx a) i) end).

(** A callable with jacobian and hessian members, ocp_flatten.hpp:180-181,222-224: m outputs at a point of B with
    n tangent directions; block i of the columns of the hessian belongs to output i. *)
Record fn (B : Type) (n m : nat) := Fn { fval : B -> 'cV[F]_m; fjac : B -> 'M[F]_(m, n); fhess : B -> 'I_m -> 'M[F]_n }.
(** A reference trajectory and what diff::dr<1> returns for it, ocp_flatten.hpp:173,183-184. *)
Record curve (G : lie) := Curve { cv : F -> car G; dcv : F -> 'cV[F]_(dof G) }.

(** d2r_fog on an output that is zero, utils/sparse.hpp:210-245; dense version of SparseModel.d2r_fog, whose
    entries are these by SparseFacts.val_d2r_fog. *)
Definition fog (m n p : nat) (Jf : 'M[F]_(m, n)) (Hf : 'I_m -> 'M[F]_n) (Jg : 'M[F]_(n, p)) (Hg : 'I_n -> 'M[F]_p) (j : 'I_m) : 'M[F]_p :=
  Jg^T *m Hf j *m Jg + \sum_k Jf j k *: Hg k.

Section Inner.
Variables (X U : lie).
Let nx := dof X.
Let nu := dof U.
(** BundleT, ocp_flatten.hpp:93,289. *)
Definition Binner : lie := pairL R1 (pairL X U).

(** update_joplus, ocp_flatten.hpp:127-136 and 312-321. *)
Definition joplus (e : 'cV[F]_nx) (v : 'cV[F]_nu) (dxl : 'cV[F]_nx) (dul : 'cV[F]_nu) : 'M[F]_(1 + (nx + nu)) :=
  block_mx 1%:M 0 (col_mx (Adi e *m dxl) (Adi v *m dul)) (block_mx (dexp e) 0 0 (dexp v)).
(** update_hoplus, ocp_flatten.hpp:138-158 and 323-343; block k of the columns. *)
Definition dAdexp (G : lie) (e : 'cV[F]_(dof G)) (dl : 'cV[F]_(dof G)) : 'M[F]_(dof G) :=
  lad (Adi e *m dl) *m Adi e *m dexp (- e).
Definition hoplus (e : 'cV[F]_nx) (v : 'cV[F]_nu) (dxl : 'cV[F]_nx) (dul : 'cV[F]_nu) (k : 'I_(1 + (nx + nu))) : 'M[F]_(1 + (nx + nu)) :=
  match split k with
  | inl _ => 0
  | inr k => match split k with
    | inl k => block_mx 0 (row_mx (row k (dAdexp e dxl)) 0) 0 (block_mx (d2exp e k) 0 0 0)
    | inr k => block_mx 0 (row_mx 0 (row k (dAdexp v dul))) 0 (block_mx 0 0 0 (d2exp v k))
    end
  end.

Variable m : nat.
Variable f : fn (F * (car X * car U)) (1 + (nx + nu)) m.
Variables (xl : curve X) (ul : curve U).

(** FlatInnerFun::operator(), ocp_flatten.hpp:351-355. *)
Definition inner_op (t : F) (e : 'cV[F]_nx) (v : 'cV[F]_nu) : 'cV[F]_m := fval f (t, (lplus (cv xl t) e, lplus (cv ul t) v)).
(** FlatInnerFun::jacobian, ocp_flatten.hpp:357-369. *)
Definition inner_jac (t : F) (e : 'cV[F]_nx) (v : 'cV[F]_nu) : 'M[F]_(m, 1 + (nx + nu)) :=
  fjac f (t, (lplus (cv xl t) e, lplus (cv ul t) v)) *m joplus e v (dcv xl t) (dcv ul t).
(** FlatInnerFun::hessian, ocp_flatten.hpp:371-390. *)
Definition inner_hess (t : F) (e : 'cV[F]_nx) (v : 'cV[F]_nu) (j : 'I_m) : 'M[F]_(1 + (nx + nu)) :=
  let y := (t, (lplus (cv xl t) e, lplus (cv ul t) v)) in
  fog (fjac f y) (fhess f y) (joplus e v (dcv xl t) (dcv ul t)) (hoplus e v (dcv xl t) (dcv ul t)) j.
End Inner.

Section Dyn.
Variables (X U : lie).
Let nx := dof X.
Let nu := dof U.
Variable f : fn (F * (car X * car U)) (1 + (nx + nu)) nx.
Variables (xl : curve X) (ul : curve U).

(** smooth::generators_sparse (not part of this repository), ocp_flatten.hpp:64,78: generator i is the adjoint of
    basis vector i. *)
Definition gens (i : 'I_nx) : 'M[F]_nx := lad (delta_mx i 0).
(** generators_sparse_reordered, ocp_flatten.hpp:58-68. *)
Definition gens_re (k : 'I_nx) : 'M[F]_nx := \matrix_(i, c) gens i k c.
(** d_ad, ocp_flatten.hpp:73-82; block j of the columns. *)
Definition d_ad (j : 'I_nx) : 'M[F]_nx := \matrix_(r, i) gens i j r.

(** FlatDyn::operator(), ocp_flatten.hpp:165-177. *)
Definition dyn_op (t : F) (e : 'cV[F]_nx) (v : 'cV[F]_nu) : 'cV[F]_nx :=
  dexpinv e *m (fval f (t, (lplus (cv xl t) e, lplus (cv ul t) v)) - dcv xl t) + lad e *m dcv xl t.

(** FlatDyn::jacobian, ocp_flatten.hpp:180-213; the two loops add at row col / Nx and column 1 + col % Nx. *)
Definition dyn_jac (t : F) (e : 'cV[F]_nx) (v : 'cV[F]_nu) : 'M[F]_(nx, 1 + (nx + nu)) :=
  let y := (t, (lplus (cv xl t) e, lplus (cv ul t) v)) in
  dexpinv e *m fjac f y *m joplus e v (dcv xl t) (dcv ul t) +
  row_mx 0 (row_mx (\matrix_(j, k) \sum_r (fval f y r 0 - dcv xl t r 0) * d2expinv e j r k) 0) +
  row_mx 0 (row_mx (\matrix_(j, k) \sum_r dcv xl t r 0 * d_ad j r k) 0).

(** The variables of the loop of FlatDyn::hessian, ocp_flatten.hpp:236-243. *)
Record hst := Hst { h_coef : F; h_v : 'cV[F]_nx; h_j : 'M[F]_(nx, 1 + (nx + nu)); h_h : 'I_nx -> 'M[F]_(1 + (nx + nu));
  h_H : 'I_nx -> 'M[F]_(1 + (nx + nu)) }.
(** One round, ocp_flatten.hpp:244-273. *)
Definition hstep (e : 'cV[F]_nx) (s : hst) (iter : nat) : hst :=
  let B := nth 0 kBn iter in
  Hst (h_coef s * ((-1) / (iter.+1)%:R))
    (lad e *m h_v s)
    (lad e *m h_j s - row_mx 0 (row_mx (lad (h_v s)) 0))
    (fun k => (\sum_c lad e k c *: h_h s c) + col_mx 0 (col_mx (gens_re k *m h_j s) 0)
              - row_mx 0 (row_mx ((h_j s)^T *m gens_re k) 0))
    (if B != 0 then fun k => h_H s k + (B * h_coef s) *: h_h s k else h_H s).
(** FlatDyn::hessian, ocp_flatten.hpp:217-277. *)
Definition dyn_hess (t : F) (e : 'cV[F]_nx) (v : 'cV[F]_nu) : 'I_nx -> 'M[F]_(1 + (nx + nu)) :=
  let y := (t, (lplus (cv xl t) e, lplus (cv ul t) v)) in
  let jp := joplus e v (dcv xl t) (dcv ul t) in
  let hp := hoplus e v (dcv xl t) (dcv ul t) in
  h_H (foldl (hstep e) (Hst 1 (fval f y - dcv xl t) (fjac f y *m jp) (fog (fjac f y) (fhess f y) jp hp) (fun _ => 0))
    (iota 0 (size kBn))).
End Dyn.

Section Endpt.
Variables (X : lie) (nq m : nat).
Let nx := dof X.
(** BundleT, ocp_flatten.hpp:404. *)
Definition Bendpt : lie := pairL R1 (pairL X (pairL X (Rn nq))).
Variable f : fn (F * (car X * (car X * 'cV[F]_nq))) (1 + (nx + (nx + nq))) m.
Variable xl : curve X.

(** FlatEndptFun::update_joplus, ocp_flatten.hpp:424-432. *)
Definition joplus_end (e0 ef dxlf : 'cV[F]_nx) : 'M[F]_(1 + (nx + (nx + nq))) :=
  block_mx 1%:M 0 (col_mx 0 (col_mx (Adi ef *m dxlf) 0)) (block_mx (dexp e0) 0 0 (block_mx (dexp ef) 0 0 1%:M)).
(** FlatEndptFun::update_hoplus, ocp_flatten.hpp:434-450. *)
Definition hoplus_end (e0 ef dxlf : 'cV[F]_nx) (k : 'I_(1 + (nx + (nx + nq)))) : 'M[F]_(1 + (nx + (nx + nq))) :=
  match split k with
  | inl _ => 0
  | inr k => match split k with
    | inl k => block_mx 0 0 0 (block_mx (d2exp e0 k) 0 0 0)
    | inr k => match split k with
      | inl k => block_mx 0 (row_mx 0 (row_mx (row k (dAdexp ef dxlf)) 0)) 0 (block_mx 0 0 0 (block_mx (d2exp ef k) 0 0 0))
      | inr k => 0
      end
    end
  end.
(** FlatEndptFun::operator(), ocp_flatten.hpp:457-461. *)
Definition end_op (tf : F) (e0 ef : 'cV[F]_nx) (q : 'cV[F]_nq) : 'cV[F]_m :=
  fval f (tf, (lplus (cv xl 0) e0, (lplus (cv xl tf) ef, q))).
(** FlatEndptFun::jacobian, ocp_flatten.hpp:463-475. *)
Definition end_jac (tf : F) (e0 ef : 'cV[F]_nx) (q : 'cV[F]_nq) : 'M[F]_(m, 1 + (nx + (nx + nq))) :=
  fjac f (tf, (lplus (cv xl 0) e0, (lplus (cv xl tf) ef, q))) *m joplus_end e0 ef (dcv xl tf).
(** FlatEndptFun::hessian, ocp_flatten.hpp:477-493. *)
Definition end_hess (tf : F) (e0 ef : 'cV[F]_nx) (q : 'cV[F]_nq) (j : 'I_m) : 'M[F]_(1 + (nx + (nx + nq))) :=
  let y := (tf, (lplus (cv xl 0) e0, (lplus (cv xl tf) ef, q))) in
  fog (fjac f y) (fhess f y) (joplus_end e0 ef (dcv xl tf)) (hoplus_end e0 ef (dcv xl tf)) j.
End Endpt.

(** struct OCP, ocp.hpp:50-99, for state and input in Lie groups. *)
Record gocp (X U : lie) (nq ncr nce : nat) := Gocp {
  o_theta : fn (F * (car X * (car X * 'cV[F]_nq))) (1 + (dof X + (dof X + nq))) 1;
  o_f : fn (F * (car X * car U)) (1 + (dof X + dof U)) (dof X);
  o_g : fn (F * (car X * car U)) (1 + (dof X + dof U)) nq;
  o_cr : fn (F * (car X * car U)) (1 + (dof X + dof U)) ncr;
  o_crl : 'I_ncr -> ext F; o_cru : 'I_ncr -> ext F;
  o_ce : fn (F * (car X * (car X * 'cV[F]_nq))) (1 + (dof X + (dof X + nq))) nce;
  o_cel : 'I_nce -> ext F; o_ceu : 'I_nce -> ext F }.
(** struct OCPSolution, ocp.hpp:113-153. *)
Record gsol (X U : lie) (nq ncr nce : nat) := Gsol {
  g_t0 : F; g_tf : F; g_Q : 'cV[F]_nq; g_u : F -> car U; g_x : F -> car X;
  g_lq : 'cV[F]_nq; g_lce : 'cV[F]_nce; g_ldyn : F -> 'cV[F]_(dof X); g_lcr : F -> 'cV[F]_ncr }.

(** flatten_ocp, ocp_flatten.hpp:513-541. *)
Definition flatten_ocp (X U : lie) (nq ncr nce : nat) (o : gocp X U nq ncr nce) (xl : curve X) (ul : curve U) :
    gocp (Rn (dof X)) (Rn (dof U)) nq ncr nce :=
  let inner m (f : fn (F * (car X * car U)) (1 + (dof X + dof U)) m) := Fn
    (fun y : F * ('cV[F]_(dof X) * 'cV[F]_(dof U)) => inner_op f xl ul y.1 y.2.1 y.2.2)
    (fun y => inner_jac f xl ul y.1 y.2.1 y.2.2) (fun y => inner_hess f xl ul y.1 y.2.1 y.2.2) in
  let endpt m (f : fn (F * (car X * (car X * 'cV[F]_nq))) (1 + (dof X + (dof X + nq))) m) := Fn
    (fun y : F * ('cV[F]_(dof X) * ('cV[F]_(dof X) * 'cV[F]_nq)) => end_op f xl y.1 y.2.1 y.2.2.1 y.2.2.2)
    (fun y => end_jac f xl y.1 y.2.1 y.2.2.1 y.2.2.2) (fun y => end_hess f xl y.1 y.2.1 y.2.2.1 y.2.2.2) in
  @Gocp (Rn (dof X)) (Rn (dof U)) nq ncr nce
    (endpt 1%N (o_theta o))
    (Fn (fun y : F * ('cV[F]_(dof X) * 'cV[F]_(dof U)) => dyn_op (o_f o) xl ul y.1 y.2.1 y.2.2)
        (fun y => dyn_jac (o_f o) xl ul y.1 y.2.1 y.2.2) (fun y => dyn_hess (o_f o) xl ul y.1 y.2.1 y.2.2))
    (inner nq (o_g o)) (inner ncr (o_cr o)) (o_crl o) (o_cru o) (endpt nce (o_ce o)) (o_cel o) (o_ceu o).

(** unflatten_ocpsol, ocp_flatten.hpp:549-573. *)
Definition unflatten_ocpsol (X U : lie) (nq ncr nce : nat) (s : gsol (Rn (dof X)) (Rn (dof U)) nq ncr nce)
    (xl : F -> car X) (ul : F -> car U) : gsol X U nq ncr nce :=
  @Gsol X U nq ncr nce (g_t0 s) (g_tf s) (g_Q s) (fun t => lplus (ul t) (g_u s t)) (fun t => lplus (xl t) (g_x s t))
    (g_lq s) (g_lce s) (g_ldyn s) (g_lcr s).
End Flat.
