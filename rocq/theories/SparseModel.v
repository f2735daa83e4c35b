(** Model of include/smooth/feedback/utils/sparse.hpp.
    Numbers are elements of an arbitrary real field (exact arithmetic). *)
From mathcomp Require Import all_ssreflect all_algebra.
Set Implicit Arguments.
Unset Strict Implicit.
Unset Printing Implicit Defensive.
Import Order.TTheory GRing.Theory Num.Theory.
Local Open Scope ring_scope.

Section Sparse.
Variable F : realFieldType.

(** Eigen::SparseMatrix<double>: the stored entries; None is an implicit zero.  Dimensions are not
    represented: coeffRef() outside of them is undefined in C++. *)
Definition smat : Type := nat -> nat -> option F.
(** coeff(r, c). *)
Definition val (m : smat) (r c : nat) : F := odflt 0 (m r c).
(** coeffRef(r, c) = v. *)
Definition upd (m : smat) (r c : nat) (v : F) : smat :=
  fun r' c' => if (r' == r) && (c' == c) then Some v else m r' c'.
(** resize(): no stored entries. *)
Definition empty : smat := fun _ _ => None.

(** What Eigen::InnerIterator visits: the stored entries of a sparse source, all entries of a dense one. *)
Record src := Src { rows : nat; cols : nat; ent : nat -> nat -> option F }.
Definition dense (rows cols : nat) (g : nat -> nat -> F) : src := Src rows cols (fun r c => Some (g r c)).
(** m.block(r0, c0, rows, cols) of a matrix with entries [ent]. *)
Definition block (e : nat -> nat -> option F) (r0 c0 rows cols : nat) : src :=
  Src rows cols (fun r c => e (r0 + r)%N (c0 + c)%N).

(** The loops of block_add and block_write (sparse.hpp:42-49, 77-84) with the assignment [g old value].
    Columns are visited in increasing order, as for a column-major source; [block_opE] in SparseFacts.v
    shows that the result does not depend on the order. *)
Definition block_step (g : F -> F -> F) (r0 c0 : nat) (up : bool) (ent : nat -> nat -> option F) (d : smat) (rc : nat * nat) : smat :=
  if ent rc.1 rc.2 is Some v then
    if ~~ up || (r0 + rc.1 <= c0 + rc.2)%N then upd d (r0 + rc.1) (c0 + rc.2) (g (val d (r0 + rc.1) (c0 + rc.2)) v) else d
  else d.
Definition block_op (g : F -> F -> F) (d : smat) (r0 c0 : nat) (s : src) (up : bool) : smat :=
  foldl (block_step g r0 c0 up (ent s)) d [seq (r, c) | c <- iota 0 (cols s), r <- iota 0 (rows s)].
(** block_add, sparse.hpp:33-50. *)
Definition block_add (d : smat) (r0 c0 : nat) (s : src) (scale : F) (up : bool) : smat :=
  block_op (fun old v => old + scale * v) d r0 c0 s up.
(** A sequence of calls block_add(d, r, c, s, k, up). *)
Record bop := Bop { b_r : nat; b_c : nat; b_s : src; b_k : F; b_up : bool }.
Definition bexec (d : smat) (l : seq bop) : smat :=
  foldl (fun d o => block_add d (b_r o) (b_c o) (b_s o) (b_k o) (b_up o)) d l.
(** block_write, sparse.hpp:68-85. *)
Definition block_write (d : smat) (r0 c0 : nat) (s : src) (scale : F) (up : bool) : smat :=
  block_op (fun _ v => scale * v) d r0 c0 s up.
(** block_add_identity, sparse.hpp:102-107. *)
Definition block_add_identity (d : smat) (r0 c0 n : nat) (scale : F) : smat :=
  foldl (fun d k => upd d (r0 + k) (c0 + k) (val d (r0 + k) (c0 + k) + scale)) d (iota 0 n).
(** block_write_identity, sparse.hpp:124-129. *)
Definition block_write_identity (d : smat) (r0 c0 n : nat) (scale : F) : smat :=
  foldl (fun d k => upd d (r0 + k) (c0 + k) scale) d (iota 0 n).
(** set_zero, sparse.hpp:138-149 (both branches write all stored entries). *)
Definition set_zero (d : smat) : smat := fun r c => omap (fun=> 0) (d r c).
(** count_explicit_zeros, sparse.hpp:156-167 (the 64-bit counter cannot overflow in memory). *)
Definition count_explicit_zeros (s : src) : nat :=
  foldl (fun n rc => if ent s rc.1 rc.2 is Some v then (if v == 0 then n.+1 else n) else n) 0%N
    [seq (r, c) | c <- iota 0 (cols s), r <- iota 0 (rows s)].
(** mark_explicit_zeros, sparse.hpp:179-195. *)
Definition mark_explicit_zeros (s : src) : nat -> nat -> F :=
  foldl (fun (m : nat -> nat -> F) rc => if ent s rc.1 rc.2 is Some v then
      fun r c => if (r == rc.1) && (c == rc.2) then (if v == 0 then 9%:R else 1) else m r c else m) (fun _ _ => 0)
    [seq (r, c) | c <- iota 0 (cols s), r <- iota 0 (rows s)].

(** Jg.transpose() * H * Jg for H = Hf.middleCols(no * Ny, Ny), sparse.hpp:235: the entries that the sparse
    product stores are those with a stored term. *)
Definition prod_src (Ny Nx : nat) (Jg Hf : smat) (h0 : nat) : src :=
  Src Nx Nx (fun a b =>
    if has (fun k => has (fun l => [&& isSome (Jg k a), isSome (Hf k (h0 + l)%N) & isSome (Jg l b)]) (iota 0 Ny)) (iota 0 Ny)
    then Some (\sum_(k < Ny) \sum_(l < Ny) val Jg k a * val Hf k (h0 + l) * val Jg l b) else None).
(** d2r_fog, sparse.hpp:210-245; No x Ny = size of Jf, Ny x Nx = size of Jg. *)
Definition d2r_fog (No Ny Nx : nat) (out : smat) (Jf Hf Jg Hg : smat) (r0 c0 : nat) : smat :=
  let out := foldl (fun out no => block_add out r0 (c0 + no * Nx) (prod_src Ny Nx Jg Hf (no * Ny)) 1 false) out (iota 0 No) in
  foldl (fun out rc => if Jf rc.1 rc.2 is Some v then
      block_add out r0 (c0 + rc.1 * Nx) (block Hg 0 (rc.2 * Nx) Nx Nx) v false else out) out
    [seq (r, c) | c <- iota 0 Ny, r <- iota 0 No].
End Sparse.
Arguments empty {F}.
