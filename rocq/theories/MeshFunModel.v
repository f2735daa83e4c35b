(** Model of include/smooth/feedback/collocation/mesh_function.hpp and dyn_error.hpp.
    Exact arithmetic over a real field.  States and inputs are vectors (X = R^nx, U = R^nu); Deriv = 2, the
    other values of Deriv compute a subset of the same results.  diff::dr<2>(f, wrt(t, x, u)) is given by
    the functions [fv] (value), [df] (nf x (1+nx+nu) Jacobian) and [d2f] (horizontally stacked Hessians) of the
    stacked argument; [df] and [d2f] are sparse or dense matrices (a dense one stores all entries).  The ranges
    xs and us have at least N+1 and N elements. *)
From mathcomp Require Import all_ssreflect all_algebra.
From Verif Require Import MeshModel SparseModel.
Set Implicit Arguments.
Unset Strict Implicit.
Unset Printing Implicit Defensive.
Import Order.TTheory GRing.Theory Num.Theory.
Local Open Scope ring_scope.

Section MeshFun.
Variable F : realFieldType.
Variables nx nu nf : nat.
Local Notation nz := (1 + nx + nu)%N.
Variables (fv : 'cV[F]_nz -> nat -> F) (df d2f : 'cV[F]_nz -> smat F).

(** MeshValue<2>, mesh_function.hpp:36-71. *)
Record mval := MVal { mvalloc : bool; mvF : nat -> F; mvdF : smat F; mvd2F : smat F; mvlam : nat -> F }.
(** The allocation blocks (mesh_function.hpp:145-183, 305-340, 484-531; resize() of a sparse matrix removes
    all entries, reserve() is not observable) followed by set_zero (79-85). *)
Definition mprep (out : mval) : mval :=
  let dF := if mvalloc out then mvdF out else empty in
  let d2F := if mvalloc out then mvd2F out else empty in
  MVal true (fun=> 0) (set_zero dF) (set_zero d2F) (mvlam out).

(** v.segment(i0, n) = g and v.segment(i0, n) += g. *)
Definition seg_set (v : nat -> F) (i0 n : nat) (g : nat -> F) : nat -> F :=
  fun r => if (i0 <= r < i0 + n)%N then g (r - i0)%N else v r.
Definition seg_add (v : nat -> F) (i0 n : nat) (g : nat -> F) : nat -> F :=
  fun r => if (i0 <= r < i0 + n)%N then v r + g (r - i0)%N else v r.

(** wrt(ti, xi, ui) as a stacked vector, ti = t0 + (tf - t0) * tau. *)
Definition zarg (t0 tf : F) (xs us : nat -> nat -> F) (tau : F) (i : nat) : 'cV[F]_nz :=
  \col_a if a == 0%N :> nat then t0 + (tf - t0) * tau
         else if (a <= nx)%N then xs i (a - 1)%N else us i (a - (1 + nx))%N.

Section Loops.
Variables (N : nat) (taus ws : seq F) (t0 tf : F) (xs us : nat -> nat -> F).
(** zip(iota(0u, N), all_nodes, all_weights, xs, us). *)
Definition tau_at (i : nat) : F := nth 0 taus i.
Definition w_at (i : nat) : F := nth 0 ws i.

(** Loop body of mesh_eval, mesh_function.hpp:187-245. *)
Definition eval_step (scale : bool) (out : mval) (i : nat) : mval :=
  let tau := tau_at i in
  let z := zarg t0 tf xs us tau i in
  let mtau := 1 - tau in
  let w := if scale then w_at i else 1 in
  let row0 := (nf * i)%N in
  let x_d := (2 + i * nx)%N in
  let u_d := (2 + (N + 1) * nx + i * nu)%N in
  MVal (mvalloc out)
    (seg_set (mvF out) (i * nf) nf (fun j => w * fv z j))
    (bexec (mvdF out)
       [:: Bop row0 0 (block (df z) 0 0 nf 1) (w * mtau) false;
           Bop row0 1 (block (df z) 0 0 nf 1) (w * tau) false;
           Bop row0 (2 + i * nx) (block (df z) 0 1 nf nx) w false;
           Bop row0 (2 + nx * (N + 1) + nu * i) (block (df z) 0 (1 + nx) nf nu) w false])
    (foldl (fun d2F j =>
       let wl := w * mvlam out (row0 + j)%N in
       let b_s := (nz * j)%N in
       bexec d2F
       [:: Bop 0 0 (block (d2f z) 0 (b_s + 0) 1 1) (wl * mtau * mtau) true;
           Bop 0 1 (block (d2f z) 0 (b_s + 0) 1 1) (wl * mtau * tau) true;
           Bop 0 x_d (block (d2f z) 0 (b_s + 1) 1 nx) (wl * mtau) true;
           Bop 0 u_d (block (d2f z) 0 (b_s + (1 + nx)) 1 nu) (wl * mtau) true;
           Bop 1 1 (block (d2f z) 0 (b_s + 0) 1 1) (wl * tau * tau) true;
           Bop 1 x_d (block (d2f z) 0 (b_s + 1) 1 nx) (wl * tau) true;
           Bop 1 u_d (block (d2f z) 0 (b_s + (1 + nx)) 1 nu) (wl * tau) true;
           Bop x_d x_d (block (d2f z) 1 (b_s + 1) nx nx) wl true;
           Bop x_d u_d (block (d2f z) 1 (b_s + (1 + nx)) nx nu) wl true;
           Bop u_d u_d (block (d2f z) (1 + nx) (b_s + (1 + nx)) nu nu) wl true])
     (mvd2F out) (iota 0 nf))
    (mvlam out).
Definition eval_loop (scale : bool) (out : mval) : mval := foldl (eval_step scale) (mprep out) (iota 0 N).

(** The Hessian blocks that mesh_integrate (mesh_function.hpp:383-415) and mesh_dyn (577-617) add for output j of
    node i with wl = w * lambda. *)
Definition hess_blocks (z : 'cV[F]_nz) (tau wl : F) (i j : nat) : seq (bop F) :=
  let mtau := 1 - tau in
  let b_s := (nz * j)%N in
  let x_d := (2 + nx * i)%N in
  let u_d := (2 + nx * (N + 1) + nu * i)%N in
  [:: Bop 0 0 (block (d2f z) 0 (b_s + 0) 1 1) (wl * (tf - t0) * mtau * mtau) true;
      Bop 0 0 (block (df z) j 0 1 1) (- wl * 2%:R * mtau) true;
      Bop 0 1 (block (d2f z) 0 (b_s + 0) 1 1) (wl * (tf - t0) * mtau * tau) true;
      Bop 0 1 (block (df z) j 0 1 1) (wl * (1 - 2%:R * tau)) true;
      Bop 0 x_d (block (d2f z) 0 (b_s + 1) 1 nx) (wl * (tf - t0) * mtau) true;
      Bop 0 x_d (block (df z) j 1 1 nx) (- wl) true;
      Bop 0 u_d (block (d2f z) 0 (b_s + (1 + nx)) 1 nu) (wl * (tf - t0) * mtau) true;
      Bop 0 u_d (block (df z) j (1 + nx) 1 nu) (- wl) true;
      Bop 1 1 (block (d2f z) 0 (b_s + 0) 1 1) (wl * (tf - t0) * tau * tau) true;
      Bop 1 1 (block (df z) j 0 1 1) (wl * 2%:R * tau) true;
      Bop 1 x_d (block (d2f z) 0 (b_s + 1) 1 nx) (wl * (tf - t0) * tau) true;
      Bop 1 x_d (block (df z) j 1 1 nx) wl true;
      Bop 1 u_d (block (d2f z) 0 (b_s + (1 + nx)) 1 nu) (wl * (tf - t0) * tau) true;
      Bop 1 u_d (block (df z) j (1 + nx) 1 nu) wl true;
      Bop x_d x_d (block (d2f z) 1 (b_s + 1) nx nx) (wl * (tf - t0)) true;
      Bop x_d u_d (block (d2f z) 1 (b_s + (1 + nx)) nx nu) (wl * (tf - t0)) true;
      Bop u_d u_d (block (d2f z) (1 + nx) (b_s + (1 + nx)) nu nu) (wl * (tf - t0)) true].

(** Loop body of mesh_integrate, mesh_function.hpp:344-418; fval is a dense column. *)
Definition int_step (out : mval) (i : nat) : mval :=
  let tau := tau_at i in
  let w := w_at i in
  let z := zarg t0 tf xs us tau i in
  let mtau := 1 - tau in
  let fval := dense nf 1 (fun r _ => fv z r) in
  MVal (mvalloc out)
    (seg_add (mvF out) 0 nf (fun j => w * (tf - t0) * fv z j))
    (bexec (mvdF out)
       [:: Bop 0 0 (block (df z) 0 0 nf 1) (w * (tf - t0) * mtau) false;
           Bop 0 0 fval (- w) false;
           Bop 0 1 (block (df z) 0 0 nf 1) (w * (tf - t0) * tau) false;
           Bop 0 1 fval w false;
           Bop 0 (2 + i * nx) (block (df z) 0 1 nf nx) (w * (tf - t0)) false;
           Bop 0 (2 + nx * (N + 1) + nu * i) (block (df z) 0 (1 + nx) nf nu) (w * (tf - t0)) false])
    (foldl (fun d2F j => bexec d2F (hess_blocks z tau (w * mvlam out j) i j)) (mvd2F out) (iota 0 nf))
    (mvlam out).
Definition int_loop (out : mval) : mval := foldl int_step (mprep out) (iota 0 N).

(** First loop of mesh_dyn, mesh_function.hpp:541-620 (nf = nx). *)
Definition dyn_step (out : mval) (i : nat) : mval :=
  let tau := tau_at i in
  let w := w_at i in
  let z := zarg t0 tf xs us tau i in
  let mtau := 1 - tau in
  let row0 := (nx * i)%N in
  let fval := dense nx 1 (fun r _ => fv z r) in
  MVal (mvalloc out)
    (seg_add (mvF out) row0 nx (fun j => w * (tf - t0) * fv z j))
    (bexec (mvdF out)
       [:: Bop row0 0 fval (- w) false;
           Bop row0 0 (block (df z) 0 0 nx 1) (w * (tf - t0) * mtau) false;
           Bop row0 1 fval w false;
           Bop row0 1 (block (df z) 0 0 nx 1) (w * (tf - t0) * tau) false;
           Bop row0 (2 + nx * i) (block (df z) 0 1 nx nx) (w * (tf - t0)) false;
           Bop row0 (2 + nx * (N + 1) + nu * i) (block (df z) 0 (1 + nx) nx nu) (w * (tf - t0)) false])
    (foldl (fun d2F j => bexec d2F (hess_blocks z tau (w * mvlam out (row0 + j)%N) i j)) (mvd2F out) (iota 0 nx))
    (mvlam out).

(** The inner loops of the second part of mesh_dyn, mesh_function.hpp:632-643 and 654-663 (the same code twice):
    column i of interval [ival] that starts at node idx0 and has Nival points.  [iw] = interval_weights,
    [alpha], [Dus] = interval_diffmat_unscaled. *)
Variables (nI : nat) (Ks : nat -> nat) (iw : nat -> seq F) (alpha : nat -> F) (Dus : nat -> nat -> nat -> F).
Definition dyn_add (ival idx0 Nival i : nat) (out : mval) : mval :=
  foldl (fun out j =>
    let row0 := ((idx0 + j) * nx)%N in
    let coef := - nth 0 (iw ival) j * alpha ival * Dus ival (i - idx0)%N j in
    MVal (mvalloc out) (seg_add (mvF out) row0 nx (fun k => coef * xs i k))
      (block_add_identity (mvdF out) row0 (2 + nx * i) nx coef) (mvd2F out) (mvlam out)) out (iota 0 Nival).
(** Second loop of mesh_dyn, mesh_function.hpp:624-664; the state is (ival, ival_idx0, Nival, out). *)
Definition dyn_step2 (st : nat * nat * nat * mval) (i : nat) : nat * nat * nat * mval :=
  let: (ival, idx0, Nival, out) := st in
  let: (ival, idx0, Nival, out) :=
    if i == (idx0 + Nival)%N then
      let out := dyn_add ival idx0 Nival i out in
      if (ival.+1 < nI)%N then (ival.+1, (idx0 + Nival)%N, Ks ival.+1, out) else (ival.+1, idx0, Nival, out)
    else (ival, idx0, Nival, out) in
  if (i < N)%N then (ival, idx0, Nival, dyn_add ival idx0 Nival i out) else (ival, idx0, Nival, out).
Definition dyn_loop (out : mval) : mval :=
  let out := foldl dyn_step (mprep out) (iota 0 N) in
  (foldl dyn_step2 (0%N, 0%N, Ks 0%N, out) (iota 0 (N + 1))).2.
End Loops.

(** The mesh enters through N_colloc(), all_nodes(), all_weights() etc. *)
Section OnMesh.
Variables (Kmin Kmax : nat) (lgr : nat -> seq F * seq F) (m : mesh F).
Variables (t0 tf : F) (xs us : nat -> nat -> F).
Definition nodes_ := all_nodes Kmin Kmax lgr m.
Definition weights_ := all_weights Kmin Kmax lgr m.
(** mesh_eval, mesh_function.hpp:114-246. *)
Definition mesh_eval (scale : bool) (out : mval) : mval :=
  eval_loop (N_colloc m) nodes_ weights_ t0 tf xs us scale out.
(** mesh_integrate, mesh_function.hpp:273-419. *)
Definition mesh_integrate (out : mval) : mval := int_loop (N_colloc m) nodes_ weights_ t0 tf xs us out.
(** An entry of a fixed-size matrix, addressed with numbers. *)
Definition mget p q (M : 'M[F]_(p, q)) (a b : nat) : F :=
  if insub a is Some a' then if insub b is Some b' then M a' b' else 0 else 0.
(** mesh_dyn, mesh_function.hpp:450-665. *)
Definition mesh_dyn (out : mval) : mval :=
  dyn_loop (N_colloc m) nodes_ weights_ t0 tf xs us (size m) (N_colloc_ival m)
    (interval_weights Kmin Kmax lgr m) (fun i => (interval_diffmat_unscaled lgr m i).1)
    (fun i => mget (interval_diffmat_unscaled lgr m i).2) out.
End OnMesh.
End MeshFun.

Section DynError.
Variables (F : rcfType) (nx nu : nat).
Variables (Kmin Kmax : nat) (lgr : nat -> seq F * seq F) (m : mesh F).
Variable f : F -> 'cV[F]_nx -> 'cV[F]_nu -> 'cV[F]_nx.
Variables (t0 tf : F) (xfun : F -> 'cV[F]_nx) (ufun : F -> 'cV[F]_nu).
Definition norm2 (x : 'cV[F]_nx) : F := Num.sqrt (\sum_k x k 0 ^+ 2).
(** maxCoeff() of a non-empty vector. *)
Definition max_coeff n (v : 'I_n -> F) : F :=
  let s := [seq v k | k <- enum 'I_n] in foldl Order.max (head 0 s) (behead s).
(** Body of the loop of mesh_dyn_error for interval ival, dyn_error.hpp:42-70: Xval and Fval (45-59), the left and
    right columns, Xval_est (62-63) and the relative error (66-70). *)
Definition ival_t (ival j : nat) : F := t0 + (tf - t0) * nth 0 (interval_nodes Kmin Kmax lgr m ival) j.
Definition ival_X (ival : nat) : 'M[F]_(nx, (N_colloc_ival m ival).+1) := \matrix_(k, j) xfun (ival_t ival j) k 0.
Definition ival_F (ival : nat) : 'M[F]_(nx, (N_colloc_ival m ival).+1) :=
  \matrix_(k, j) f (ival_t ival j) (xfun (ival_t ival j)) (ufun (ival_t ival j)) k 0.
Definition left_cols n (A : 'M[F]_(nx, n.+1)) : 'M[F]_(nx, n) := \matrix_(k, j) A k (widen_ord (leqnSn n) j).
Definition right_cols n (A : 'M[F]_(nx, n.+1)) : 'M[F]_(nx, n) := \matrix_(k, j) A k (lift ord0 j).
Definition ival_est (ival : nat) : 'M[F]_(nx, N_colloc_ival m ival) :=
  (\matrix_(k, _) ival_X ival k ord0) + (tf - t0) *: (left_cols (ival_F ival) *m interval_intmat lgr m ival).
Definition ival_error (ival : nat) : F :=
  let den := 1 + max_coeff (fun j => norm2 (col j (right_cols (ival_X ival)))) in
  max_coeff (fun j => norm2 (col j (ival_est ival - right_cols (ival_X ival))) / den).
(** mesh_dyn_error, dyn_error.hpp:28-74. *)
Definition mesh_dyn_error : seq F := [seq ival_error i | i <- iota 0 (size m)].
End DynError.
