(** Model of include/smooth/feedback/asif_func.hpp and asif.hpp.
    Simplifications: exact arithmetic over a real field.  The state group X is given by x (+) a and ad; the input
    manifold U by u (+) a and u (-) c.  diff::dr<1> returns the value of a function together with its Jacobian, which is
    supplied with the function.  Dense matrices are functions of the indices; the assertions on their sizes hold because
    the same K, nh and number of input constraints are used in allocate and update.  Conversions between int, unsigned
    and size_t are exact. *)
From mathcomp Require Import all_ssreflect all_algebra.
From Verif Require Import SparseModel QpModel MeshFunModel NlpModel MpcModel.
Set Implicit Arguments.
Unset Strict Implicit.
Unset Printing Implicit Defensive.
Import Order.TTheory GRing.Theory Num.Theory.
Local Open Scope ring_scope.

Section Dense.
Variable F : realFieldType.
(** QuadraticProgram<-1, -1, double>, qp.hpp. *)
Record dqp := Dqp { dA : nat -> nat -> F; dl : nat -> ext F; du : nat -> ext F; dP : nat -> nat -> F; dq : nat -> F }.
(** M.block(r, c, nr, nc) = B and v.segment(r, nr) = b. *)
Definition wblock (r c nr nc : nat) (B : nat -> nat -> F) (M : nat -> nat -> F) : nat -> nat -> F :=
  fun i j => if (r <= i < r + nr)%N && (c <= j < c + nc)%N then B (i - r)%N (j - c)%N else M i j.
Definition wseg (A : Type) (r nr : nat) (b : nat -> A) (v : nat -> A) : nat -> A :=
  fun i => if (r <= i < r + nr)%N then b (i - r)%N else v i.
(** A bound plus a finite number. *)
Definition eadd (e : ext F) (a : F) : ext F := if e is Fin b then Fin (b + a) else e.
(** ManifoldBounds, common.hpp:18-30. *)
Record mbounds (nu : nat) (U : Type) := MBounds { bn : nat; bA : 'M[F]_(bn, nu); bc : U; bl : nat -> ext F; bu_ : nat -> ext F }.
End Dense.

Section Asif.
Variable F : realFieldType.
Variables (nx nu nh : nat) (X U : Type).
Variables (xplus : X -> 'cV[F]_nx -> X) (ad : 'cV[F]_nx -> 'M[F]_nx).
Variables (uplus : U -> 'cV[F]_nu -> U) (uminus : U -> U -> 'cV[F]_nu).
(** ASIFProblem, asif_func.hpp:41-53, and ASIFtoQPParams, 58-68. *)
Record pbm := Pbm { pT : F; px0 : X; pu : U; pW : 'cV[F]_nu; plim : mbounds F nu U }.
Record aprm := Aprm { aK : nat; aalpha : F; adt : F; arelax : F }.

(** asif_to_qp_allocate, asif_func.hpp:80-97. *)
Definition asif_allocate : dqp F := Dqp (fun _ _ => 0) (fun=> Fin 0) (fun=> Fin 0) (fun _ _ => 0) (fun=> 0).

(** f with d f / d u, h with d h / d (t, x), bu, and the Jacobian of x |-> f(x, bu(t, x)). *)
Variables (f : X -> U -> 'cV[F]_nx) (dfu : X -> U -> 'M[F]_(nx, nu)).
Variables (h : F -> X -> 'cV[F]_nh) (dht : F -> X -> 'cV[F]_nh) (dhx : F -> X -> 'M[F]_(nh, nx)).
Variables (bu : F -> X -> U) (dfcl : F -> X -> 'M[F]_nx).
Definition fcl (t : F) (x : X) : 'cV[F]_nx := f x (bu t x).

(** t, x and dx_dx0, asif_func.hpp:139-141. *)
Record ast := Ast { at_t : F; at_x : X; at_S : 'M[F]_nx }.
(** The body of the while loop, asif_func.hpp:174-178.  dx_dx0_ode refers to the variable x, which the first statement
    has changed (141-148). *)
Definition ode_step (dt : F) (s : ast) : ast :=
  let t := at_t s in
  let x := xplus (at_x s) (dt *: fcl t (at_x s)) in
  Ast (t + dt) x (at_S s + dt *: ((- ad (fcl t x) + dfcl t x) *m at_S s)).
(** The while loop, asif_func.hpp:174-178; None if it is still running after [fuel] tests. *)
Fixpoint ode_loop (fuel : nat) (bound dt : F) (s : ast) : option ast :=
  if fuel is n.+1 then if at_t s < bound then ode_loop n bound dt (ode_step dt s) else Some s else None.

Section Update.
Variables (p : pbm) (prm : aprm) (fuel : nat).
(** asif_func.hpp:137-138. *)
Definition tau : F := pT p / (aK prm)%:R.
Definition dtv : F := Num.min (adt prm) tau.
(** The body of the loop over k, asif_func.hpp:156-179. *)
Definition row_step (k : nat) (s : ast) (q : dqp F) : dqp F :=
  let dh_dx0 := dhx (at_t s) (at_x s) *m at_S s in
  let B := dh_dx0 *m dfu (px0 p) (pu p) in
  let b := - dht (at_t s) (at_x s) - aalpha prm *: h (at_t s) (at_x s) - dh_dx0 *m f (px0 p) (pu p) in
  Dqp (wblock (k * nh) 0 nh nu (mget B) (dA q)) (wseg (k * nh) nh (fun j => Fin (vget b j)) (dl q))
      (wseg (k * nh) nh (fun=> PosInf) (du q)) (dP q) (dq q).
Definition time_step (k : nat) (s : ast) : option ast :=
  let bound := tau * (k.+1)%:R in ode_loop fuel bound (Num.min dtv (bound - at_t s)) s.
Definition k_step (o : option (ast * dqp F)) (k : nat) : option (ast * dqp F) :=
  if o is Some (s, q) then if time_step k s is Some s' then Some (s', row_step k s q) else None else None.
(** asif_to_qp_update, asif_func.hpp:104-199. *)
Definition asif_update (q : dqp F) : option (dqp F) :=
  let K := aK prm in
  let lim := plim p in
  let ni := bn lim in
  let off := bA lim *m uminus (pu p) (bc lim) in
  if foldl k_step (Some (Ast 0 (px0 p) 1%:M, q)) (iota 0 K) is Some (_, q) then
    let A := wblock 0 nu (K * nh) 1 (fun _ _ => 1) (dA q) in
    let A := wblock (K * nh) 0 ni nu (mget (bA lim)) A in
    let l := wseg (K * nh) ni (fun i => eadd (bl lim i) (- vget off i)) (dl q) in
    let u := wseg (K * nh) ni (fun i => eadd (bu_ lim i) (- vget off i)) (du q) in
    let A := wblock (K * nh + ni) nu 1 1 (fun _ _ => 1) A in
    let l := wseg (K * nh + ni) 1 (fun=> Fin 0) l in
    let u := wseg (K * nh + ni) 1 (fun=> PosInf) u in
    let P := wblock 0 0 nu nu (fun i j => if i == j then vget (pW p) i else 0) (dP q) in
    let P := wblock nu nu 1 1 (fun _ _ => arelax prm) P in
    Some (Dqp A l u P (wseg nu 1 (fun=> 0) (dq q)))
  else None.
(** asif_to_qp, asif_func.hpp:244-260. *)
Definition asif_to_qp : option (dqp F) := asif_update asif_allocate.
End Update.
End Asif.

(** class ASIFilter, asif.hpp:40-110.  h and bu are arguments of each call, with their Jacobians; solve_qp is any
    function of the program and the initial guess. *)
Section Filter.
Variable F : realFieldType.
Variables (nx nu nh : nat) (X U : Type).
Variables (xplus : X -> 'cV[F]_nx -> X) (ad : 'cV[F]_nx -> 'M[F]_nx).
Variables (uplus : U -> 'cV[F]_nu -> U) (uminus : U -> U -> 'cV[F]_nu).
Variables (f : X -> U -> 'cV[F]_nx) (dfu : X -> U -> 'M[F]_(nx, nu)).
Variable solve : dqp F -> option (msol F) -> msol F.
(** ASIFilterParams, asif.hpp:17-32. *)
Record fprm := Fprm { fT : F; fW : 'cV[F]_nu; flim : mbounds F nu U; fasif : aprm F }.
(** The members qp_ and warmstart_. *)
Record fst_ := Fst { fqp : dqp F; fwarm : option (msol F) }.
Record fcallarg := Fcall { cg : X; cu : U; ch : F -> X -> 'cV[F]_nh; cdht : F -> X -> 'cV[F]_nh; cdhx : F -> X -> 'M[F]_(nh, nx);
  cbu : F -> X -> U; cdfcl : F -> X -> 'M[F]_nx }.
Record fout := Fout { fo_u : U; fo_code : status; fo_qp : dqp F; fo_guess : option (msol F); fo_sol : msol F }.
(** Constructor, asif.hpp:58-62. *)
Definition filter_new : fst_ := Fst (asif_allocate F) None.
(** operator(), asif.hpp:82-102.  None: the propagation does not end within [fuel] tests of a while loop. *)
Definition filter_call (prm : fprm) (fuel : nat) (c : fcallarg) (s : fst_) : option (fst_ * fout) :=
  if asif_update xplus ad uminus f dfu (ch c) (cdht c) (cdhx c) (cbu c) (cdfcl c)
       (Pbm (fT prm) (cg c) (cu c) (fW prm) (flim prm)) (fasif prm) fuel (fqp s) is Some q then
    let sol := solve q (fwarm s) in
    Some (Fst q (if mcode sol is Optimal then Some sol else fwarm s),
          Fout (uplus (cu c) (\col_k mprimal sol k)) (mcode sol) q (fwarm s) sol)
  else None.
Fixpoint filter_run (prm : fprm) (fuel : nat) (cs : seq fcallarg) (s : fst_) : option (fst_ * seq fout) :=
  if cs is c :: cs' then
    if filter_call prm fuel c s is Some (s', out) then
      if filter_run prm fuel cs' s' is Some (s'', outs) then Some (s'', out :: outs) else None
    else None
  else Some (s, [::]).
End Filter.
