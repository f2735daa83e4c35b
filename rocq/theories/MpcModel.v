(** Model of include/smooth/feedback/mpc.hpp for vector spaces X = R^Nx and U = R^Nu.
    Exact arithmetic over a real field.  [Tm] is the time type T with time_trait<T>::plus and minus (time.hpp).
    diff::dr of the user's functors gives their Jacobians as dense matrices.  The QP solver is any object with
    functions analyze and solve.  std::function values are functions. *)
From mathcomp Require Import all_ssreflect all_algebra.
From Verif Require Import MeshModel SparseModel MeshFunModel QpModel NlpModel OqpModel.
Set Implicit Arguments.
Unset Strict Implicit.
Unset Printing Implicit Defensive.
Import Order.TTheory GRing.Theory Num.Theory.
Local Open Scope ring_scope.

Section Functors.
Variable F : realFieldType.
Variables Nx Nu : nat.
(** MPCWeights, mpc.hpp:344-356. *)
Record weights := Weights { wQ : 'M[F]_Nx; wQtf : 'M[F]_Nx; wR : 'M[F]_Nu }.
Definition weights_default : weights := Weights 1%:M 1%:M 1%:M.
(** for (i < n) for (j < n) if (test(i, j) != 0) hess.coeffRef(b + i, b + j) = v(i, j). *)
Definition hess_fill (n b : nat) (test v : nat -> nat -> F) (h : smat F) : smat F :=
  foldl (fun h ij => if test ij.1 ij.2 != 0 then upd h (b + ij.1) (b + ij.2) (v ij.1 ij.2) else h) h
    [seq (i, j) | i <- iota 0 n, j <- iota 0 n].
(** MPCObj::hessian, mpc.hpp:103-118; h is the member hess before the call. *)
Definition obj_hess (Qtf : 'M[F]_Nx) (h : smat F) : smat F := hess_fill Nx 1 (mget Qtf) (mget Qtf) (set_zero h).
(** MPCIntegrand::hessian, mpc.hpp:206-227.  None is the access outside of Q in line 221, an assertion failure of
    Eigen or undefined behaviour. *)
Definition int_hess (Q : 'M[F]_Nx) (R : 'M[F]_Nu) (h : smat F) : option (smat F) :=
  if (Nu <= Nx)%N then
    Some (hess_fill Nu (1 + Nx) (mget Q) (mget R) (hess_fill Nx 1 (mget Q) (mget Q) (set_zero h)))
  else None.
End Functors.
Arguments weights_default {F Nx Nu}.

Section Mpc.
Variable F : realFieldType.
Variables Nx Nu Ncr : nat.
Local Notation X := 'cV[F]_Nx.
Local Notation U := 'cV[F]_Nu.
(** T, time_trait<T>::plus and T(). *)
Variables (Tm : Type) (tplus : Tm -> F -> Tm) (tminus : Tm -> Tm -> F) (tzero : Tm).
(** Template argument Kmesh; lgr_nodes<K>(). *)
Variables (Kmesh : nat) (lgr : nat -> seq F * seq F).
(** The functors F and CR with their Jacobians with respect to (x, u); a functor without set_time does not depend on
    time.  [cr_time]: CR has set_time. *)
Variables (f : Tm -> X -> U -> nat -> F) (df : Tm -> X -> U -> nat -> nat -> F).
Variables (cr_time : bool) (cr : Tm -> X -> U -> nat -> F) (dcr : Tm -> X -> U -> nat -> nat -> F).
Variables (crl cru : nat -> F).
(** QPSolution and QPSolver::{analyze, solve}; S is the state of the solver object. *)
Record msol := Msol { mcode : status; mprimal : nat -> F; mdual : nat -> F }.
Variables (S : Type) (analyze : qpst F -> S) (solve : S -> qpst F -> option msol -> S * msol).

(** XDes and UDes, mpc.hpp:22-56.  xdes_ and udes_ are created together, copied together and never reseated, so one
    address stands for both shared objects. *)
Record cell := Cell { xt0 : Tm; xdes : Tm -> X; dxdes : Tm -> X; ut0 : Tm; udes : Tm -> U }.
Definition cell_new : cell := Cell tzero (fun=> 0) (fun=> 0) tzero (fun=> 0).
Definition xdes_rel (c : cell) (t : F) : X := xdes c (tplus (xt0 c) t).
Definition dxdes_rel (c : cell) (t : F) (k : nat) : F := vget (dxdes c (tplus (xt0 c) t)) k.
Definition udes_rel (c : cell) (t : F) : U := udes c (tplus (ut0 c) t).

(** MPCParams, mpc.hpp:309-333, without the solver parameters. *)
Record params := Params { pK : nat; ptf : F; pwarm : bool }.
(** The members of class MPC (mpc.hpp:605-635) other than the two pointers: mesh_, the mutable members of the functors
    of ocp_, prm_, qp_ with work_, qp_solver_, warmstart_.  The members hess and jac of the functors are only read
    through the value that the functor returns, see [obj_hess]; every call of a functor of one object uses the same
    weights until the constructor ends, so that their patterns are those of the first call. *)
Record mobj := Mobj { msh : mesh F; wts : weights F Nx Nu; xf_des : X; ft0 : Tm; crt0 : Tm; x0_fix : X; prm : params;
  mqp : qpst F; slv : S; warm : option msol }.

(** The parts of a stacked argument (t, x, u) or (tf, x0, xf, q). *)
Definition zx n (z : 'cV[F]_n) : X := \col_k vget z (1 + k).
Definition zu n (z : 'cV[F]_n) : U := \col_k vget z (1 + Nx + k).
(** [Zero(), df]: mpc.hpp:148-150. *)
Definition jac0 (D : nat -> nat -> F) : smat F := fun r c => Some (if c is c'.+1 then D r c' else 0).
(** ocp_, mpc.hpp:409-419, with the functors MPCObj 68-119, MPCDyn 124-152, MPCIntegrand 165-228, MPCCR 233-265 (its
    member jac has its first column empty and receives all other entries, line 260) and MPCCE 275-302 (dr_expinv is the identity).
    The values returned in lines 92 and 194 are constants.  Second derivatives of f, cr and ce are not used.  gh is
    the result of MPCIntegrand::hessian. *)
Definition mpc_ocp (w : weights F Nx Nu) (gh : smat F) (t0f t0c : Tm) (x0f : X) : ocp F Nx Nu 1 Ncr Nx := @Ocp F Nx Nu 1 Ncr Nx
  (fun=> 1) (fun _ r c => Some (c == 1 + 2 * Nx)%N%:R) (fun=> obj_hess (wQtf w) empty)
  (fun z => f (tplus t0f (vget z 0)) (zx z) (zu z)) (fun z => jac0 (df (tplus t0f (vget z 0)) (zx z) (zu z))) (fun=> empty)
  (fun=> fun=> 0) (fun=> fun r c => Some 0) (fun=> gh)
  (fun z => cr (if cr_time then tplus t0c (vget z 0) else tzero) (zx z) (zu z))
  (fun z r c => if c is c'.+1 then Some (dcr (if cr_time then tplus t0c (vget z 0) else tzero) (zx z) (zu z) r c') else None) (fun=> empty)
  (fun k => Fin (crl k)) (fun k => Fin (cru k))
  (fun z k => vget z (1 + k) - vget x0f k) (fun=> fun r c => if c == (1 + r)%N then Some 1 else None) (fun=> empty)
  (fun=> Fin 0) (fun=> Fin 0).

Local Notation upd_dyn p m xl dxl ul := (oqp_dyn Nx Nu Kmesh Kmesh lgr m true (fun _ _ _ => 0)
  (fun t x u => dynv p (txu t x u)) (fun t x u => ddyn p (txu t x u)) xl dxl ul).
(** MPC::MPC, mpc.hpp:405-425.  None: see [int_hess]. *)
Definition mpc_new (q : params) : option (cell * mobj) :=
  if (mesh_new F Kmesh Kmesh ((pK q + Kmesh - 1) %/ Kmesh) Kmesh, int_hess (wQ (@weights_default F Nx Nu)) (wR (@weights_default F Nx Nu)) empty)
     is (Some m, Some gh) then
    let c := cell_new in
    let p := mpc_ocp weights_default gh tzero tzero 0 in
    let new := MVal false (fun=> 0) empty empty (fun=> 0) in
    let s := oqp_allocate p Kmesh Kmesh lgr m (Qpst empty (fun=> 0) empty (fun=> Fin 0) (fun=> Fin 0) new new) in
    let s := oqp_update p Kmesh Kmesh lgr m (ptf q) (xdes_rel c) (dxdes_rel c) (udes_rel c) s in
    Some (c, Mobj m weights_default 0 tzero tzero 0 q s (analyze s) None)
  else None.

(** What operator() returns through its result, u_traj and x_traj; [o_qp] and [o_guess] are the arguments of
    QPSolver::solve and [o_sol] is its result. *)
Record mout := Mout { o_u : U; o_code : status; o_us : seq U; o_xs : seq X; o_qp : qpst F; o_guess : option msol;
  o_sol : msol }.
Definition usable (c : status) : bool := match c with Optimal | MaxTime | MaxIterations => true | _ => false end.
(** MPC::operator(), mpc.hpp:458-519; gh is not used because the cost is not updated. *)
Definition mpc_call (t : Tm) (x : X) (co : cell * mobj) : (cell * mobj) * mout :=
  let c := Cell t (xdes co.1) (dxdes co.1) t (udes co.1) in
  let o := co.2 in
  let N := N_colloc (msh o) in
  let tf := ptf (prm o) in
  let p := mpc_ocp (wts o) empty t t x in
  let s := upd_dyn p (msh o) (xdes_rel c) (dxdes_rel c) (udes_rel c) tf (mqp o) in
  let s := if cr_time then oqp_cr p Kmesh Kmesh lgr (msh o) tf (xdes_rel c) (udes_rel c) s else s in
  let s := oqp_ce p (msh o) tf (xdes_rel c) s in
  let r := solve (slv o) s (warm o) in
  let sol := r.2 in
  let seg n b := \col_(k < n) mprimal sol (b + k)%N in
  let node i := tf * nth 0 (all_nodes Kmesh Kmesh lgr (msh o)) i in
  let us := [seq udes_rel c (node i) + seg Nu (Nx * (N + 1) + i * Nu)%N | i <- iota 0 N] in
  let xs := [seq xdes_rel c (node i) + seg Nx (0 + i * Nx)%N | i <- iota 0 (N + 1)] in
  let wm := if pwarm (prm o) && usable (mcode sol) then Some sol else warm o in
  ((c, Mobj (msh o) (wts o) (xdes_rel c tf) t t x (prm o) s r.1 wm),
   Mout (udes_rel c 0 + seg Nu (Nx * (N + 1))%N) (mcode sol) us xs s (warm o) sol).

(** The member functions of a constructed object; set_udes_rel and set_xdes_rel (537-545, 573-588) call set_udes and
    set_xdes with functions of absolute time, [d] is the derivative of the function given by the user. *)
Inductive mop := SetUdes of Tm -> U | SetUdesRel of (F -> U) & Tm | SetXdes of (Tm -> X) & (Tm -> X)
  | SetXdesRel of (F -> X) & (F -> X) & Tm | SetWeights of weights F Nx Nu | ResetWarm | Call of Tm & X.
Definition set_udes (u : Tm -> U) (c : cell) : cell := Cell (xt0 c) (xdes c) (dxdes c) (ut0 c) u.
Definition set_xdes (xd dxd : Tm -> X) (c : cell) : cell := Cell (xt0 c) xd dxd (ut0 c) (udes c).
(** mpc.hpp:524-603. *)
Definition mpc_step (op : mop) (co : cell * mobj) : (cell * mobj) * option mout :=
  let: (c, o) := co in
  match op with
  | SetUdes u => (set_udes u c, o, None)
  | SetUdesRel g t0 => (set_udes (fun t => g (tminus t t0)) c, o, None)
  | SetXdes xd dxd => (set_xdes xd dxd c, o, None)
  | SetXdesRel g d t0 => (set_xdes (fun t => g (tminus t t0)) (fun t => d (tminus t t0)) c, o, None)
  | SetWeights w => (c, Mobj (msh o) w (xf_des o) (ft0 o) (crt0 o) (x0_fix o) (prm o) (mqp o) (slv o) (warm o), None)
  | ResetWarm => (c, Mobj (msh o) (wts o) (xf_des o) (ft0 o) (crt0 o) (x0_fix o) (prm o) (mqp o) (slv o) None, None)
  | Call t x => let r := mpc_call t x co in (r.1, Some r.2)
  end.
(** A sequence of calls: the final state and the outputs. *)
Fixpoint mpc_run (ops : seq mop) (co : cell * mobj) : (cell * mobj) * seq mout :=
  if ops is op :: ops' then
    let r := mpc_step op co in
    let r' := mpc_run ops' r.1 in
    (r'.1, if r.2 is Some out then out :: r'.2 else r'.2)
  else (co, [::]).

(** Several MPC objects and the shared objects of the heap.  Copy construction and copy assignment (mpc.hpp:438, 442)
    copy every member, so the copy has the same pointers.  WNew constructs an object, with new shared objects. *)
Record world := World { heap : nat -> cell; nxt : nat; ptr : nat -> nat; objs : nat -> option mobj }.
Inductive wop := WNew of nat & params | WCopy of nat & nat | WOp of nat & mop.
Definition at_ (A : Type) (g : nat -> A) (i : nat) (v : A) : nat -> A := fun j => if j == i then v else g j.
Definition w_step (op : wop) (w : world) : world * option (nat * mout) :=
  match op with
  | WNew i q => if mpc_new q is Some (c, o) then
      (World (at_ (heap w) (nxt w) c) (nxt w).+1 (at_ (ptr w) i (nxt w)) (at_ (objs w) i (Some o)), None) else (w, None)
  | WCopy i j => (World (heap w) (nxt w) (at_ (ptr w) j (ptr w i)) (at_ (objs w) j (objs w i)), None)
  | WOp i op => if objs w i is Some o then
      let r := mpc_step op (heap w (ptr w i), o) in
      (World (at_ (heap w) (ptr w i) r.1.1) (nxt w) (ptr w) (at_ (objs w) i (Some r.1.2)), omap (pair i) r.2)
    else (w, None)
  end.
Fixpoint w_run (ops : seq wop) (w : world) : world * seq (nat * mout) :=
  if ops is op :: ops' then
    let r := w_step op w in
    let r' := w_run ops' r.1 in
    (r'.1, if r.2 is Some out then out :: r'.2 else r'.2)
  else (w, [::]).
End Mpc.
