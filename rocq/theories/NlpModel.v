(** Model of include/smooth/feedback/ocp_to_nlp.hpp: the nonlinear program of a collocated optimal control problem.
    Exact arithmetic over a real field; bounds may be infinite ([ext] of QpModel).  The problem is flat: X = R^Nx and
    U = R^Nu.  diff::dr gives value and derivatives of theta, f, g, cr and ce as functions of the stacked arguments
    ((t, x, u) or (tf, x0, xf, q)), as in MeshFunModel.  Vectors of dynamic size are functions on indices.
    reserve() and makeCompressed() do not change values and are omitted. *)
From mathcomp Require Import all_ssreflect all_algebra.
From Verif Require Import QpModel MeshModel SparseModel MeshFunModel.
Set Implicit Arguments.
Unset Strict Implicit.
Unset Printing Implicit Defensive.
Import Order.TTheory GRing.Theory Num.Theory.
Local Open Scope ring_scope.

(** ocp_nlp_structure, ocp_to_nlp.hpp:24-51; N = mesh.N_colloc(). *)
Section Structure.
Variables Nx Nu Nq Ncr Nce N : nat.
Definition var_len : seq nat := [:: 1; Nq; Nx * (N + 1); Nu * N]%N.
Definition con_len : seq nat := [:: Nx * N; Nq; Ncr * N; Nce]%N.
(** std::partial_sum into positions 1..4 of an array of zeros. *)
Definition var_beg : seq nat := 0%N :: scanl addn 0%N var_len.
Definition con_beg : seq nat := 0%N :: scanl addn 0%N con_len.
End Structure.

(** struct OCP, ocp.hpp:50-99: objective theta(tf, x0, xf, q), dynamics f, integrands g, running constraint cr and
    end constraint ce with bounds, each function with its first and second derivatives as given by diff::dr
    (second derivatives of vector functions are stacked horizontally). *)
Record ocp (F : realFieldType) (Nx Nu Nq Ncr Nce : nat) := Ocp {
  theta : 'cV[F]_(1 + 2 * Nx + Nq) -> F;
  dtheta : 'cV[F]_(1 + 2 * Nx + Nq) -> smat F;
  d2theta : 'cV[F]_(1 + 2 * Nx + Nq) -> smat F;
  dynv : 'cV[F]_(1 + Nx + Nu) -> nat -> F; ddyn : 'cV[F]_(1 + Nx + Nu) -> smat F; d2dyn : 'cV[F]_(1 + Nx + Nu) -> smat F;
  intv : 'cV[F]_(1 + Nx + Nu) -> nat -> F; dint : 'cV[F]_(1 + Nx + Nu) -> smat F; d2int : 'cV[F]_(1 + Nx + Nu) -> smat F;
  crv : 'cV[F]_(1 + Nx + Nu) -> nat -> F; dcr : 'cV[F]_(1 + Nx + Nu) -> smat F; d2cr : 'cV[F]_(1 + Nx + Nu) -> smat F;
  crl : nat -> ext F; cru : nat -> ext F;
  cev : 'cV[F]_(1 + 2 * Nx + Nq) -> nat -> F;
  dce : 'cV[F]_(1 + 2 * Nx + Nq) -> smat F;
  d2ce : 'cV[F]_(1 + 2 * Nx + Nq) -> smat F;
  cel : nat -> ext F; ceu : nat -> ext F }.

Section Nlp.
Variable F : realFieldType.
Variables Nx Nu Nq Ncr Nce : nat.
Local Notation ne := (1 + 2 * Nx + Nq)%N.
Variable p : ocp F Nx Nu Nq Ncr Nce.
Variables (Kmin Kmax : nat) (lgr : nat -> seq F * seq F) (m : mesh F).
Local Notation N := (N_colloc m).

(** Start indices and lengths, ocp_to_nlp.hpp:97-119. *)
Local Notation vb k := (nth 0%N (var_beg Nx Nu Nq N) k).
Local Notation vl k := (nth 0%N (var_len Nx Nu Nq N) k).
Local Notation cb k := (nth 0%N (con_beg Nx Nq Ncr Nce N) k).
Local Notation cl k := (nth 0%N (con_len Nx Nq Ncr Nce N) k).
Definition tfvar_B := vb 0. Definition qvar_B := vb 1. Definition xvar_B := vb 2. Definition uvar_B := vb 3.
Definition nlp_n := vb 4.
Definition tfvar_L := vl 0. Definition qvar_L := vl 1. Definition xvar_L := vl 2. Definition uvar_L := vl 3.
Definition dcon_B := cb 0. Definition qcon_B := cb 1. Definition crcon_B := cb 2. Definition cecon_B := cb 3.
Definition nlp_m := cb 4.
Definition dcon_L := cl 0. Definition qcon_L := cl 1. Definition crcon_L := cl 2. Definition cecon_L := cl 3.

(** ocp_to_nlp.hpp:122-124; [em 6] is 1e-6. *)
Definition max_weight : F := foldl Order.max (em F 6) (all_weights Kmin Kmax lgr m).
Definition w_scaling : F := 1 / max_weight.
(** A segment of a vector of bounds. *)
Definition eseg (v : nat -> ext F) (i0 n : nat) (g : nat -> ext F) : nat -> ext F :=
  fun r => if (i0 <= r < i0 + n)%N then g (r - i0)%N else v r.
(** Variable bounds, ocp_to_nlp.hpp:128-130. *)
Definition nlp_xl : nat -> ext F := eseg (fun=> NegInf) tfvar_B tfvar_L (fun=> Fin 0).
Definition nlp_xu : nat -> ext F := fun=> PosInf.
(** Constraint bounds, ocp_to_nlp.hpp:134-155; resize() leaves arbitrary contents [junk].  The scaling by the
    quadrature weights is done row by row after replicate(). *)
Definition con_bounds (junk : nat -> ext F) (cr ce : nat -> ext F) : nat -> ext F :=
  let b := eseg junk dcon_B dcon_L (fun=> Fin 0) in
  let b := eseg b qcon_B qcon_L (fun=> Fin 0) in
  let b := eseg b crcon_B crcon_L (fun r => cr (r %% Ncr)%N) in
  let b := foldl (fun b i => eseg b (crcon_B + i * Ncr) Ncr (fun r =>
     ext_scale (w_scaling * nth 0 (all_weights Kmin Kmax lgr m) i) (b (crcon_B + i * Ncr + r)%N))) b (iota 0 N) in
  eseg b cecon_B cecon_L ce.
Definition nlp_gl (junk : nat -> ext F) := con_bounds junk (crl p) (cel p).
Definition nlp_gu (junk : nat -> ext F) := con_bounds junk (cru p) (ceu p).

(** tf, x0, xf, q (ocp_to_nlp.hpp:179-185 and again in each method) as a stacked vector. *)
Definition x0var_B := xvar_B.
Definition xfvar_B := (xvar_B + xvar_L - Nx)%N.
Definition zend (x : nat -> F) : 'cV[F]_ne :=
  \col_a if a == 0%N :> nat then x tfvar_B
         else if (a < 1 + Nx)%N then x (x0var_B + (a - 1))%N
         else if (a < 1 + 2 * Nx)%N then x (xfvar_B + (a - (1 + Nx)))%N else x (qvar_B + (a - (1 + 2 * Nx)))%N.
(** X.colwise() and U.colwise(), ocp_to_nlp.hpp:264-265. *)
Definition xcol (x : nat -> F) (i k : nat) : F := x (xvar_B + (Nx * i + k))%N.
Definition ucol (x : nat -> F) (i k : nat) : F := x (uvar_B + (Nu * i + k))%N.

(** The members that are written by the methods, ocp_to_nlp.hpp:84-90. *)
Record nlp := Nlp { o_g : nat -> F; o_df : smat F; o_dg : smat F; o_d2f : smat F; o_d2g : smat F;
  o_dyn0 : mval F; o_int0 : mval F; o_cr0 : mval F; o_dyn1 : mval F; o_int1 : mval F; o_cr1 : mval F;
  o_dyn2 : mval F; o_int2 : mval F; o_cr2 : mval F }.
(** A new object, ocp_to_nlp.hpp:158-165 and the default member initializers. *)
Definition mval0 (lam : nat -> F) : mval F := MVal false (fun=> 0) (@empty F) (@empty F) lam.
Definition nlp_new : nlp := let v := mval0 (fun=> 0) in
  Nlp (fun=> 0) (@empty F) (@empty F) (@empty F) (@empty F) v v v v v v v v v.

(** f, ocp_to_nlp.hpp:175-188. *)
Definition nlp_f (x : nat -> F) : F := theta p (zend x).
(** df_dx, ocp_to_nlp.hpp:190-213. *)
Definition nlp_df (o : nlp) (x : nat -> F) : nlp :=
  let D := dtheta p (zend x) in
  let df := bexec (set_zero (o_df o))
    [:: Bop 0 tfvar_B (block D 0 0 1 1) 1 false;
        Bop 0 x0var_B (block D 0 1 1 Nx) 1 false;
        Bop 0 xfvar_B (block D 0 (1 + Nx) 1 Nx) 1 false;
        Bop 0 qvar_B (block D 0 (1 + 2 * Nx) 1 Nq) 1 false] in
  Nlp (o_g o) df (o_dg o) (o_d2f o) (o_d2g o) (o_dyn0 o) (o_int0 o) (o_cr0 o) (o_dyn1 o) (o_int1 o) (o_cr1 o)
    (o_dyn2 o) (o_int2 o) (o_cr2 o).
(** The ten end point blocks of d2f_dx2 (ocp_to_nlp.hpp:230-244) and d2g_dx2 (399-410), with scale k and first
    column b0. *)
Definition end_blocks (D : smat F) (b0 : nat) (k : F) : seq (bop F) :=
  [:: Bop tfvar_B tfvar_B (block D 0 (b0 + 0) 1 1) k true;
      Bop tfvar_B x0var_B (block D 0 (b0 + 1) 1 Nx) k true;
      Bop tfvar_B xfvar_B (block D 0 (b0 + (1 + Nx)) 1 Nx) k true;
      Bop tfvar_B qvar_B (block D 0 (b0 + (1 + 2 * Nx)) 1 Nq) k true;
      Bop x0var_B x0var_B (block D 1 (b0 + 1) Nx Nx) k true;
      Bop x0var_B xfvar_B (block D 1 (b0 + (1 + Nx)) Nx Nx) k true;
      Bop x0var_B qvar_B (block D 1 (b0 + (1 + 2 * Nx)) Nx Nq) k true;
      Bop xfvar_B xfvar_B (block D (1 + Nx) (b0 + (1 + Nx)) Nx Nx) k true;
      Bop xfvar_B qvar_B (block D (1 + Nx) (b0 + (1 + 2 * Nx)) Nx Nq) k true;
      Bop qvar_B qvar_B (block D (1 + 2 * Nx) (b0 + (1 + 2 * Nx)) Nq Nq) k true].
(** d2f_dx2, ocp_to_nlp.hpp:215-249. *)
Definition nlp_d2f (o : nlp) (x : nat -> F) : nlp :=
  let d2f := bexec (set_zero (o_d2f o)) (end_blocks (d2theta p (zend x)) 0 1) in
  Nlp (o_g o) (o_df o) (o_dg o) d2f (o_d2g o) (o_dyn0 o) (o_int0 o) (o_cr0 o) (o_dyn1 o) (o_int1 o) (o_cr1 o)
    (o_dyn2 o) (o_int2 o) (o_cr2 o).
(** The calls of the mesh functions, ocp_to_nlp.hpp:267-269, 298-300 and 356-358. *)
Definition call_dyn (x : nat -> F) (out : mval F) : mval F :=
  mesh_dyn (dynv p) (ddyn p) (d2dyn p) Kmin Kmax lgr m 0 (x tfvar_B) (xcol x) (ucol x) out.
Definition call_int (x : nat -> F) (out : mval F) : mval F :=
  mesh_integrate Nq (intv p) (dint p) (d2int p) Kmin Kmax lgr m 0 (x tfvar_B) (xcol x) (ucol x) out.
Definition call_cr (x : nat -> F) (out : mval F) : mval F :=
  mesh_eval Ncr (crv p) (dcr p) (d2cr p) Kmin Kmax lgr m 0 (x tfvar_B) (xcol x) (ucol x) true out.
(** g, ocp_to_nlp.hpp:251-277. *)
Definition nlp_g (o : nlp) (x : nat -> F) : nlp :=
  let dyn := call_dyn x (o_dyn0 o) in
  let int := call_int x (o_int0 o) in
  let cr := call_cr x (o_cr0 o) in
  let g := seg_set (o_g o) dcon_B dcon_L (fun r => w_scaling * mvF dyn r) in
  let g := seg_set g qcon_B qcon_L (fun r => w_scaling * (mvF int r - x (qvar_B + r)%N)) in
  let g := seg_set g crcon_B crcon_L (fun r => w_scaling * mvF cr r) in
  let g := seg_set g cecon_B cecon_L (fun r => cev p (zend x) r) in
  Nlp g (o_df o) (o_dg o) (o_d2f o) (o_d2g o) dyn int cr (o_dyn1 o) (o_int1 o) (o_cr1 o)
    (o_dyn2 o) (o_int2 o) (o_cr2 o).
(** The three blocks that copy a Jacobian of a mesh function with n rows to the rows from r0 on. *)
Definition mesh_jac (r0 n : nat) (D : smat F) : seq (bop F) :=
  [:: Bop r0 tfvar_B (block D 0 1 n 1) w_scaling false;
      Bop r0 xvar_B (block D 0 2 n xvar_L) w_scaling false;
      Bop r0 uvar_B (block D 0 (2 + xvar_L) n uvar_L) w_scaling false].
(** dg_dx, ocp_to_nlp.hpp:280-331. *)
Definition nlp_dg (o : nlp) (x : nat -> F) : nlp :=
  let dyn := call_dyn x (o_dyn1 o) in
  let int := call_int x (o_int1 o) in
  let cr := call_cr x (o_cr1 o) in
  let D := dce p (zend x) in
  let d := bexec (set_zero (o_dg o)) (mesh_jac dcon_B dcon_L (mvdF dyn)) in
  let d := bexec d (mesh_jac qcon_B qcon_L (mvdF int)) in
  let d := block_add_identity d qcon_B qvar_B qvar_L (- w_scaling) in
  let d := bexec d (mesh_jac crcon_B crcon_L (mvdF cr)) in
  let d := bexec d
    [:: Bop cecon_B tfvar_B (block D 0 0 Nce 1) 1 false;
        Bop cecon_B xvar_B (block D 0 1 Nce Nx) 1 false;
        Bop cecon_B (xvar_B + xvar_L - Nx) (block D 0 (1 + Nx) Nce Nx) 1 false;
        Bop cecon_B qvar_B (block D 0 (1 + 2 * Nx) Nce Nq) 1 false] in
  Nlp (o_g o) (o_df o) d (o_d2f o) (o_d2g o) (o_dyn0 o) (o_int0 o) (o_cr0 o) dyn int cr
    (o_dyn2 o) (o_int2 o) (o_cr2 o).
(** A segment of lambda assigned to the member lambda of a MeshValue, ocp_to_nlp.hpp:352-354. *)
Definition with_lam (out : mval F) (lam : nat -> F) (b : nat) : mval F :=
  MVal (mvalloc out) (mvF out) (mvdF out) (mvd2F out) (fun r => lam (b + r)%N).
(** d2g_dx2, ocp_to_nlp.hpp:333-416. *)
Definition nlp_d2g (o : nlp) (x lam : nat -> F) : nlp :=
  let dyn := call_dyn x (with_lam (o_dyn2 o) lam dcon_B) in
  let int := call_int x (with_lam (o_int2 o) lam qcon_B) in
  let cr := call_cr x (with_lam (o_cr2 o) lam crcon_B) in
  let D1 := mvd2F dyn in let D2 := mvd2F int in let D3 := mvd2F cr in
  let D := d2ce p (zend x) in
  let three r c br bc n k := [:: Bop r c (block D1 br bc n k) w_scaling true; Bop r c (block D2 br bc n k) w_scaling true;
                                 Bop r c (block D3 br bc n k) w_scaling true] in
  let d := bexec (set_zero (o_d2g o))
    (three tfvar_B tfvar_B 1 1 1 1 ++ three tfvar_B xvar_B 1 2 1 xvar_L ++ three tfvar_B uvar_B 1 (2 + xvar_L) 1 uvar_L ++
     three xvar_B xvar_B 2 2 xvar_L xvar_L ++ three xvar_B uvar_B 2 (2 + xvar_L) xvar_L uvar_L ++
     three uvar_B uvar_B (2 + xvar_L) (2 + xvar_L) uvar_L uvar_L)%N in
  let d := foldl (fun d j => bexec d (end_blocks D (ne * j) (lam (cecon_B + j)%N))) d (iota 0 Nce) in
  Nlp (o_g o) (o_df o) (o_dg o) (o_d2f o) d (o_dyn0 o) (o_int0 o) (o_cr0 o) (o_dyn1 o) (o_int1 o) (o_cr1 o) dyn int cr.

(** Conversion of solutions.  Columns of reshaped() segments. *)
Section Sol.
Variable bis : seq F -> F -> option nat.
(** NLPSolution (nlp.hpp) without status, and OCPSolution (ocp.hpp:113-153). *)
Record nlpsol := NlpSol { s_x : nat -> F; s_zl : nat -> F; s_zu : nat -> F; s_lam : nat -> F }.
Record ocpsol := OcpSol { c_t0 : F; c_tf : F; c_Q : 'cV[F]_Nq; c_u : F -> 'cV[F]_Nu; c_x : F -> 'cV[F]_Nx;
  c_lq : 'cV[F]_Nq; c_lce : 'cV[F]_Nce; c_ldyn : F -> 'cV[F]_Nx; c_lcr : F -> 'cV[F]_Ncr }.
Definition colseq n (v : nat -> F) (b len : nat) : seq 'cV[F]_n := [seq \col_(k < n) v (b + (n * i + k))%N | i <- iota 0 len].
(** nlpsol_to_ocpsol, ocp_to_nlp.hpp:442-508; [None] is an integer division by zero (xvar_L / Nx, uvar_L / Nu and
    crcon_L / Ncr in lines 468, 477, 484 and 491). *)
Definition nlpsol_to_ocpsol (s : nlpsol) : option ocpsol :=
  if [|| Nx == 0, Nu == 0 | Ncr == 0]%N then None else
  let t0 := 0 in
  let tf := s_x s tfvar_B in
  let ev n ext (r : seq 'cV[F]_n) t := eval Kmin Kmax lgr bis m ((t - t0) / (tf - t0)) r 0 ext in
  Some (OcpSol t0 tf (\col_k s_x s (qvar_B + k)%N)
    (ev Nu false (colseq Nu (s_x s) uvar_B (uvar_L %/ Nu)))
    (ev Nx true (colseq Nx (s_x s) xvar_B (xvar_L %/ Nx)))
    (\col_k s_lam s (qcon_B + k)%N) (\col_k s_lam s (cecon_B + k)%N)
    (ev Nx false (colseq Nx (s_lam s) dcon_B (dcon_L %/ Nx)))
    (ev Ncr false (colseq Ncr (s_lam s) crcon_B (crcon_L %/ Ncr)))).
(** An entry of a vector, addressed with a number. *)
Definition vget n (v : 'cV[F]_n) (k : nat) : F := mget v k 0.
(** ocpsol_to_nlpsol, ocp_to_nlp.hpp:515-554; the vectors start with arbitrary contents. *)
Definition ocpsol_to_nlpsol (junkx junkl : nat -> F) (s : ocpsol) : nlpsol :=
  let t0 := 0 in
  let tf := c_tf s in
  let x := seg_set junkx tfvar_B 1 (fun=> c_tf s) in
  let x := seg_set x qvar_B qvar_L (vget (c_Q s)) in
  let lam := seg_set junkl qcon_B qcon_L (vget (c_lq s)) in
  let lam := seg_set lam cecon_B cecon_L (vget (c_lce s)) in
  let st := foldl (fun (st : (nat -> F) * (nat -> F)) i =>
      let t := t0 + nth 0 (all_nodes Kmin Kmax lgr m) i * (tf - t0) in
      let x := seg_set st.1 (xvar_B + i * Nx) Nx (vget (c_x s t)) in
      if (i < N)%N then
        (seg_set x (uvar_B + i * Nu) Nu (vget (c_u s t)),
         seg_set (seg_set st.2 (dcon_B + i * Nx) Nx (vget (c_ldyn s t))) (crcon_B + i * Ncr) Ncr (vget (c_lcr s t)))
      else (x, st.2)) (x, lam) (iota 0 (size (all_nodes Kmin Kmax lgr m))) in
  NlpSol st.1 (fun=> 0) (fun=> 0) st.2.
End Sol.
End Nlp.
