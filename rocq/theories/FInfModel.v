(** Model of the infeasibility tests of check_stopping, qp_solver.hpp:596-644, in IEEE double arithmetic.  The differences dx_us_
    and dy_us_ are arbitrary doubles.  Simplifications as in FQpModel.v. *)
From Coq Require Import Reals ZArith Lia Lra List Bool Permutation.
From Flocq Require Import Core BinarySingleNaN.
From Verif Require Import LoopModel FPidModel FQpModel.
Import ListNotations.

(** The comparison == (false for NaN). *)
Definition feq (a b : b64) : bool := Beqb a b.
(** s += a * b, with or without fused multiply-add. *)
Definition facc (s a b r : b64) : Prop := r = fadd s (fmul a b) \/ r = ffma a b s.
(** Row i of the loop, qp_solver.hpp:603-609 (hi is eps_primal_inf * Edy_norm) and 610-616 (lo is -eps_primal_inf * Edy_norm);
    None: the loop is left with the sum infinity. *)
Definition f_up (p : fqp) (hi : b64) (dy : fvec) (i : nat) (s : b64) (r : option b64) : Prop :=
  if feq (f_u p i) finf then r = (if flt hi (dy i) then None else Some s)
  else exists v, facc s (f_u p i) (fmax (fint 0) (dy i)) v /\ r = Some v.
Definition f_lo (p : fqp) (lo : b64) (dy : fvec) (i : nat) (s : b64) (r : option b64) : Prop :=
  if feq (f_l p i) (fneg finf) then r = (if flt (dy i) lo then None else Some s)
  else exists v, facc s (f_l p i) (fmin (fint 0) (dy i)) v /\ r = Some v.
(** The loop over the rows, qp_solver.hpp:601-617: value of u_dyp_plus_l_dyn, starting from s. *)
Inductive f_sup (p : fqp) (hi lo : b64) (dy : fvec) : list nat -> b64 -> b64 -> Prop :=
| sup_end s : f_sup p hi lo dy [] s s
| sup_break_u i t s : f_up p hi dy i s None -> f_sup p hi lo dy (i :: t) s finf
| sup_break_l i t s s1 : f_up p hi dy i s (Some s1) -> f_lo p lo dy i s1 None -> f_sup p hi lo dy (i :: t) s finf
| sup_go i t s s1 s2 r : f_up p hi dy i s (Some s1) -> f_lo p lo dy i s1 (Some s2) -> f_sup p hi lo dy t s2 r ->
    f_sup p hi lo dy (i :: t) s r.
(** check_stopping finds the problem infeasible, qp_solver.hpp:598-621; ep is eps_primal_inf. *)
Definition f_pinf (n m : nat) (p : fqp) (ep : b64) (dy : fvec) : Prop :=
  exists Aty nA dn s, fmv n m (ftr (f_A p)) dy Aty /\ lpnorm n Aty nA /\ lpnorm m dy dn /\
    f_sup p (fmul ep dn) (fmul (fneg ep) dn) dy (seq 0 m) (fint 0) s /\ flt (fmax nA s) (fmul ep dn) = true.

(** check_stopping finds the problem dual infeasible, qp_solver.hpp:625-642; ed is eps_dual_inf. *)
Definition f_dinf (n m : nat) (p : fqp) (ed : b64) (dx : fvec) : Prop :=
  exists Ax dn Px nP qd, fmv m n (f_A p) dx Ax /\ lpnorm n dx dn /\ fmv n n (f_P p) dx Px /\ lpnorm n Px nP /\
    dot (map (fun j => (f_q p j, dx j)) (seq 0 n)) qd /\ fle nP (fmul ed dn) = true /\ fle qd (fmul ed dn) = true /\
    forall i, (i < m)%nat ->
      (if feq (f_u p i) finf then fle (fmul (fneg ed) dn) (Ax i)
       else if feq (f_l p i) (fneg finf) then fle (Ax i) (fmul ed dn) else flt (fabs (Ax i)) (fmul ed dn)) = true.
