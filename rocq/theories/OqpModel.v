(** Model of include/smooth/feedback/ocp_to_qp.hpp.
    Exact arithmetic over a real field.  The number of integrals is one (static_assert in lines 135 and 219).
    Costs and constraints are modelled for vector spaces X = R^Nx and U = R^Nu; the dynamics part is modelled for any
    types X and U, with the derivatives that diff::dr returns as given functions.  makeCompressed() and reserve() do
    not change entries. *)
From mathcomp Require Import all_ssreflect all_algebra.
From Verif Require Import MeshModel SparseModel MeshFunModel QpModel NlpModel.
Set Implicit Arguments.
Unset Strict Implicit.
Unset Printing Implicit Defensive.
Import Order.TTheory GRing.Theory Num.Theory.
Local Open Scope ring_scope.

Section Oqp.
Variable F : realFieldType.
Variables Nx Nu Ncr Nce : nat.
Local Notation ne := (1 + 2 * Nx + 1)%N.
Variable p : ocp F Nx Nu 1 Ncr Nce.
Variables (Kmin Kmax : nat) (lgr : nat -> seq F * seq F) (m : mesh F).
Local Notation N := (N_colloc m).

(** QuadraticProgramSparse (qp.hpp) and OcpToQpWorkmemory, ocp_to_qp.hpp:26-30.  w_cr is a MeshValue<1>: its second
    derivatives are not used. *)
Record qpst := Qpst { oP : smat F; oq : nat -> F; oA : smat F; ol : nat -> ext F; ou : nat -> ext F;
  w_cr : mval F; w_int : mval F }.

(** Layout, ocp_to_qp.hpp:55-69, 142-146 and 227-232, 300-305, 345-353. *)
Definition qxvar_L : nat := Nx * (N + 1). Definition quvar_L : nat := Nu * N.
Definition qdcon_L : nat := Nx * N. Definition qcrcon_L : nat := Ncr * N. Definition qcecon_L : nat := Nce.
Definition qcrcon_B : nat := qdcon_L. Definition qcecon_B : nat := qcrcon_B + qcrcon_L.
Definition qNvar : nat := qxvar_L + quvar_L. Definition qNcon : nat := qdcon_L + qcrcon_L + qcecon_L.

(** The ranges xslin and uslin, ocp_to_qp.hpp:162-163 and 311-312. *)
Definition lin (n : nat) (tf : F) (fn : F -> 'cV[F]_n) (i k : nat) : F :=
  vget (fn (0 + (tf - 0) * nth 0 (all_nodes Kmin Kmax lgr m) i)) k.
Definition with_lam1 (w : mval F) : mval F := MVal (mvalloc w) (mvF w) (mvdF w) (mvd2F w) (fun=> 1).
(** ocp_to_qp_allocate, ocp_to_qp.hpp:40-114; Identity<X>() is the zero vector. *)
Definition oqp_allocate (s : qpst) : qpst :=
  let xs := lin 1 (fun=> 0 : 'cV[F]_Nx) in let us := lin 1 (fun=> 0 : 'cV[F]_Nu) in
  Qpst empty (fun=> 0) empty (fun=> Fin 0) (fun=> Fin 0)
    (mesh_eval Ncr (crv p) (dcr p) (d2cr p) Kmin Kmax lgr m 0 1 xs us false (w_cr s))
    (mesh_integrate 1 (intv p) (dint p) (d2int p) Kmin Kmax lgr m 0 1 xs us (with_lam1 (w_int s))).

(** wrt(tf, xl0, xlf, ql) with ql = 1, ocp_to_qp.hpp:165-171 and 359-367. *)
Definition qend (tf : F) (xl : F -> 'cV[F]_Nx) : 'cV[F]_ne :=
  \col_a if a == 0%N :> nat then tf
         else if (a < 1 + Nx)%N then vget (xl 0) (a - 1)%N
         else if (a < 1 + 2 * Nx)%N then vget (xl tf) (a - (1 + Nx))%N else 1.
(** ocp_to_qp_update_cost, ocp_to_qp.hpp:117-195; dth is a 1 x ne matrix. *)
Definition oqp_cost (tf : F) (xl : F -> 'cV[F]_Nx) (ul : F -> 'cV[F]_Nu) (s : qpst) : qpst :=
  let P := set_zero (oP s) in
  let q := fun=> 0 : F in
  let z := qend tf xl in
  let dth := dtheta p z in let d2th := d2theta p z in
  let qo_q := val dth 0 (1 + 2 * Nx) in
  let w := mesh_integrate 1 (intv p) (dint p) (d2int p) Kmin Kmax lgr m 0 tf (lin tf xl) (lin tf ul) (w_int s) in
  let P := bexec P
    [:: Bop 0 0 (block (mvd2F w) 2 2 (qxvar_L + quvar_L) (qxvar_L + quvar_L)) qo_q true;
        Bop 0 0 (block d2th 1 1 Nx Nx) (2%:R^-1) true;
        Bop 0 (Nx * N) (block d2th 1 (1 + Nx) Nx Nx) (2%:R^-1) true;
        Bop (Nx * N) (Nx * N) (block d2th (1 + Nx) (1 + Nx) Nx Nx) (2%:R^-1) true] in
  let q := seg_set q 0 qxvar_L (fun c => qo_q * val (mvdF w) 0 (2 + c)) in
  let q := seg_set q qxvar_L quvar_L (fun c => qo_q * val (mvdF w) 0 (2 + qxvar_L + c)) in
  let q := seg_add q 0 Nx (fun k => val dth 0 (1 + k)) in
  let q := seg_add q (Nx * N) Nx (fun k => val dth 0 (1 + Nx + k)) in
  Qpst P q (oA s) (ol s) (ou s) (w_cr s) w.

(** set_zero(A.middleRows(0, n)). *)
Definition zero_rows (n : nat) (A : smat F) : smat F := fun r c => if (r < n)%N then omap (fun=> 0) (A r c) else A r c.
(** A segment of a vector of bounds: eseg in NlpModel. *)
Section Dyn.
Variables (X U : Type) (comm : bool).
(** ad<X>; ocp.f and its Jacobian with respect to (t, x, u); the linearization, its derivative and the input. *)
Variable ad : (nat -> F) -> nat -> nat -> F.
Variables (f : F -> X -> U -> nat -> F) (df : F -> X -> U -> smat F).
Variables (xl : F -> X) (dxl : F -> nat -> F) (ul : F -> U).
(** The body of the loop over the points of an interval, ocp_to_qp.hpp:249-274.  Line 269 subtracts from diagonal
    entries with coeffRef. *)
Definition dyn_point (tf : F) (I M : nat) (s : qpst) (i : nat) : qpst :=
  let t := 0 + (tf - 0) * nth 0 (interval_nodes Kmin Kmax lgr m I) i in
  let fi := f t (xl t) (ul t) in let D := df t (xl t) (ul t) in
  let r := ((M + i) * Nx)%N in
  let A := bexec (oA s) [:: Bop r r (block D 0 1 Nx Nx) tf false;
                           Bop r (qxvar_L + (M + i) * Nu) (block D 0 (1 + Nx) Nx Nu) tf false] in
  let A := if comm then A else block_add A r r (dense Nx Nx (ad (fun k => fi k + dxl t k))) (- tf / 2%:R) false in
  let A := foldl (fun A j => block_add_identity A r ((M + j) * Nx) Nx
                    (- ((interval_diffmat_unscaled lgr m I).1 * mget (interval_diffmat_unscaled lgr m I).2 j i)))
                 A (iota 0 (N_colloc_ival m I + 1)) in
  let b := fun k => Fin (- tf * (fi k - dxl t k)) in
  Qpst (oP s) (oq s) A (eseg (ol s) r Nx b) (eseg (ou s) r Nx b) (w_cr s) (w_int s).
(** ocp_to_qp_update_dyn, ocp_to_qp.hpp:198-276; the state of the outer loop is (qp, M). *)
Definition oqp_dyn (tf : F) (s : qpst) : qpst :=
  let s := Qpst (oP s) (oq s) (zero_rows qdcon_L (oA s)) (ol s) (ou s) (w_cr s) (w_int s) in
  (foldl (fun (sM : qpst * nat) I =>
     (foldl (dyn_point tf I sM.2) sM.1 (iota 0 (N_colloc_ival m I)), (sM.2 + N_colloc_ival m I)%N))
   (s, 0%N) (iota 0 (size m))).1.
End Dyn.

(** A bound minus a number. *)
Definition ext_sub (b : ext F) (x : F) : ext F := match b with Fin y => Fin (y - x) | NegInf => NegInf | PosInf => PosInf end.
(** ocp_to_qp_update_cr, ocp_to_qp.hpp:279-323. *)
Definition oqp_cr (tf : F) (xl : F -> 'cV[F]_Nx) (ul : F -> 'cV[F]_Nu) (s : qpst) : qpst :=
  let w := mesh_eval Ncr (crv p) (dcr p) (d2cr p) Kmin Kmax lgr m 0 tf (lin tf xl) (lin tf ul) false (w_cr s) in
  Qpst (oP s) (oq s) (block_write (oA s) qcrcon_B 0 (block (mvdF w) 0 2 qcrcon_L (qxvar_L + quvar_L)) 1 false)
    (eseg (ol s) qcrcon_B qcrcon_L (fun r => ext_sub (crl p (r %% Ncr)%N) (mvF w r)))
    (eseg (ou s) qcrcon_B qcrcon_L (fun r => ext_sub (cru p (r %% Ncr)%N) (mvF w r))) w (w_int s).
(** ocp_to_qp_update_ce, ocp_to_qp.hpp:326-373. *)
Definition oqp_ce (tf : F) (xl : F -> 'cV[F]_Nx) (s : qpst) : qpst :=
  let z := qend tf xl in let D := dce p z in
  let A := block_write (oA s) qcecon_B 0 (block D 0 1 Nce Nx) 1 false in
  let A := block_write A qcecon_B (0 + qxvar_L - Nx) (block D 0 (1 + Nx) Nce Nx) 1 false in
  Qpst (oP s) (oq s) A (eseg (ol s) qcecon_B qcecon_L (fun j => ext_sub (cel p j) (cev p z j)))
    (eseg (ou s) qcecon_B qcecon_L (fun j => ext_sub (ceu p j) (cev p z j))) (w_cr s) (w_int s).

(** ocp.f of a vector space problem as a function of (t, x, u), in the form dynv of the record ocp. *)
Definition txu (t : F) (x : 'cV[F]_Nx) (u : 'cV[F]_Nu) : 'cV[F]_(1 + Nx + Nu) :=
  \col_a if a == 0%N :> nat then t else if (a < 1 + Nx)%N then vget x (a - 1)%N else vget u (a - (1 + Nx))%N.
(** ocp_to_qp_update, ocp_to_qp.hpp:386-400, for vector spaces (IsCommutative). *)
Definition oqp_update (tf : F) (xl : F -> 'cV[F]_Nx) (dxl : F -> nat -> F) (ul : F -> 'cV[F]_Nu) (s : qpst) : qpst :=
  let s := oqp_cost tf xl ul s in
  let s := oqp_dyn true (fun _ _ _ => 0) (fun t x u => dynv p (txu t x u)) (fun t x u => ddyn p (txu t x u)) xl dxl ul tf s in
  let s := oqp_cr tf xl ul s in
  oqp_ce tf xl s.
(** ocp_to_qp, ocp_to_qp.hpp:421-435; the objects are new. *)
Definition ocp_to_qp (tf : F) (xl : F -> 'cV[F]_Nx) (dxl : F -> nat -> F) (ul : F -> 'cV[F]_Nu) : qpst :=
  let new := MVal false (fun=> 0) empty empty (fun=> 0) in
  oqp_update tf xl dxl ul (oqp_allocate (Qpst empty (fun=> 0) empty (fun=> Fin 0) (fun=> Fin 0) new new)).

(** qpsol_to_ocpsol, ocp_to_qp.hpp:452-499: the trajectories for any X and U with operator rplus. *)
Section Sol.
Variables (X U : Type) (rplusX : X -> 'cV[F]_Nx -> X) (rplusU : U -> 'cV[F]_Nu -> U).
Variables (bis : seq F -> F -> option nat) (xl : F -> X) (ul : F -> U) (tf : F) (primal : nat -> F).
Definition sol_x (t : F) : X :=
  rplusX (xl t) (eval Kmin Kmax lgr bis m ((t - 0) / (tf - 0)) (colseq Nx primal 0 (N + 1)) 0 true).
Definition sol_u (t : F) : U :=
  rplusU (ul t) (eval Kmin Kmax lgr bis m ((t - 0) / (tf - 0)) (colseq Nu primal qxvar_L N) 0 false).
End Sol.
End Oqp.
