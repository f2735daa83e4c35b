(** Model of the collocation mesh, /repo/include/smooth/feedback/collocation/mesh.hpp.

    Simplifications: [double] is a real field [F]; [std::size_t] is [nat] (only N_colloc's narrower
    accumulator is modelled with wrap-around).  A violated [assert] and division by zero are the outcome
    [None].  From the smooth library: [lgr K] is the result of lgr_nodes<K>() (nodes, weights on
    [-1,1]); lagrange_basis / monomial_derivative / polynomial_basis_derivatives are modelled by the
    Lagrange polynomials they tabulate; [bis] is binary_interval_search; [kinc K e target] is the value
    std::lround(std::log(e / target) / std::log(K) + 1). *)
From mathcomp Require Import all_ssreflect all_algebra.
Set Implicit Arguments.
Unset Strict Implicit.
Unset Printing Implicit Defensive.
Import Order.TTheory GRing.Theory Num.Theory.
Local Open Scope ring_scope.

Section Mesh.
Variable F : realFieldType.
Variables Kmin Kmax : nat.                 (* template arguments, mesh.hpp:59 *)
Variable lgr : nat -> seq F * seq F.       (* ::smooth::lgr_nodes<K>() *)
Variable bis : seq F -> F -> option nat.   (* utils::binary_interval_search, None = end() *)
Variable kinc : nat -> F -> F -> nat.      (* mesh.hpp:185 *)

(** struct Interval, mesh.hpp:474-480: (K, tau0); intervals_, mesh.hpp:483. *)
Definition mesh := seq (nat * F).

(** tauf as computed in mesh.hpp:153, 226, 274, 317, 348, 438. *)
Definition tau0 (m : mesh) (i : nat) : F := (nth (0%N, 0) m i).2.
Definition tauf (m : mesh) (i : nat) : F := if (i.+1 < size m)%N then tau0 m i.+1 else 1.

(** Mesh(), mesh.hpp:83. *)
Definition mesh_default : mesh := [:: (Kmin, 0)].

(** Mesh(n, k), mesh.hpp:93-104. *)
Definition mesh_new (n k : nat) : option mesh :=
  if (Kmin <= k <= Kmax.+1)%N then
    Some (if (n < 2)%N then [:: (k, 0)] else [seq (k, i%:R * (1 / n%:R)) | i <- iota 0 n])
  else None.

(** N_colloc_ival, mesh.hpp:126-130. *)
Definition N_colloc_ival (m : mesh) (i : nat) : nat := (nth (0%N, 0) m i).1.

(** N_colloc, mesh.hpp:114-118: the accumulator has the type of 0u, i.e. it is reduced modulo
    2^32 after every addition. *)
Definition uint_mod : nat := (2 ^ 32)%N.
Definition N_colloc (m : mesh) : nat := foldl (fun acc x => (acc + x.1) %% uint_mod)%N 0%N m.

(** std::vector::insert at position p. *)
Definition insert_at (p : nat) (x : nat * F) (m : mesh) : mesh := take p m ++ x :: drop p m.

(** The loop while (n-- > 1), mesh.hpp:156-160. *)
Fixpoint split_loop (i : nat) (t0 tm : F) (n : nat) (m : mesh) : mesh :=
  if n is n'.+1 then
    if (1 < n)%N then split_loop i t0 tm n' (insert_at i.+1 (Kmin, t0 + n'%:R * tm) m) else m
  else m.

(** refine_ph, mesh.hpp:145-167. *)
Definition refine_ph (i D : nat) (m : mesh) : option mesh :=
  if (i < size m)%N then
    let K := N_colloc_ival m i in
    if (Kmax < D)%N || (Kmax < K)%N then
      if Kmin == 0%N then None
      else
        let n := maxn 2 ((D + Kmin - 1) %/ Kmin) in
        let tm := (tauf m i - tau0 m i) / n%:R in
        Some (split_loop i (tau0 m i) tm n m)
    else if (D < K)%N then Some m
    else Some (set_nth (0%N, 0) m i (D, tau0 m i))
  else None.

(** refine_errors, mesh.hpp:174-189. *)
Definition refine_errors (errs : seq F) (target : F) (m : mesh) : option mesh :=
  if size errs == size m then
    foldl (fun om ie =>
             if om is Some m' then
               if target < ie.2 then
                 let Ki := N_colloc_ival m' ie.1 in
                 refine_ph ie.1 (Ki + kinc Ki ie.2 target) m'
               else Some m'
             else None)
          (Some m) (rev (zip (iota 0 (size m)) errs))
  else None.

(** set_N_colloc_ival, mesh.hpp:196-201 (i must be a valid index). *)
Definition set_N_colloc_ival (i K : nat) (m : mesh) : option mesh :=
  if (Kmin <= K <= Kmax.+1)%N && (i < size m)%N then Some (set_nth (0%N, 0) m i (K, tau0 m i)) else None.

(** increase_degrees, mesh.hpp:409-412. *)
Definition increase_degrees (m : mesh) : mesh := [seq (minn x.1.+1 Kmax.+1, x.2) | x <- m].

(** decrease_degrees, mesh.hpp:417-420 (K - 1 wraps around for K = 0). *)
Definition decrease_degrees (m : mesh) : option mesh :=
  if all (fun x => 0 < x.1)%N m then Some [seq (maxn x.1.-1 Kmin, x.2) | x <- m] else None.

(** Public operations and meshes reachable through them. *)
Inductive mop :=
| MRefine of nat & nat
| MErrors of seq F & F
| MSet of nat & nat
| MInc
| MDec.
Definition mesh_step (m : mesh) (o : mop) : option mesh :=
  match o with
  | MRefine i D => refine_ph i D m
  | MErrors errs t => refine_errors errs t m
  | MSet i K => set_N_colloc_ival i K m
  | MInc => Some (increase_degrees m)
  | MDec => decrease_degrees m
  end.
Definition mesh_run (m0 : option mesh) (os : seq mop) : option mesh :=
  foldl (fun om o => if om is Some m then mesh_step m o else None) m0 os.

(** lgr_plus_one<K>(), mesh.hpp:35-48. *)
Definition lgr_plus_one (K : nat) : seq F * seq F :=
  (rcons (take K (lgr K).1) 1, rcons (take K (lgr K).2) 0).

(** interval_nodes, mesh.hpp:208-230; empty if no table exists for K. *)
Definition has_table (K : nat) : bool := (Kmin <= K <= Kmax.+1)%N.
Definition half_len (m : mesh) (i : nat) : F := (tauf m i - tau0 m i) / 2%:R.
Definition interval_nodes (m : mesh) (i : nat) : seq F :=
  let K := N_colloc_ival m i in
  if has_table K then [seq tau0 m i + half_len m i * (x + 1) | x <- (lgr_plus_one K).1] else [::].

(** interval_weights, mesh.hpp:256-278. *)
Definition interval_weights (m : mesh) (i : nat) : seq F :=
  let K := N_colloc_ival m i in
  if has_table K then [seq half_len m i * w | w <- (lgr_plus_one K).2] else [::].

(** n_take, mesh.hpp:244, 292. *)
Definition n_take (m : mesh) (i : nat) : nat :=
  if (i.+1 < size m)%N then N_colloc_ival m i else (N_colloc_ival m i).+1.
(** all_nodes, mesh.hpp:239-249. *)
Definition all_nodes (m : mesh) : seq F :=
  flatten [seq take (n_take m i) (interval_nodes m i) | i <- iota 0 (size m)].
(** all_weights, mesh.hpp:287-297. *)
Definition all_weights (m : mesh) : seq F :=
  flatten [seq take (n_take m i) (interval_weights m i) | i <- iota 0 (size m)].

(** j-th Lagrange polynomial of the nodes xs (column j of smooth::lagrange_basis). *)
Definition others (xs : seq F) (j : nat) : seq F := take j xs ++ drop j.+1 xs.
Definition lagrange (xs : seq F) (j : nat) : {poly F} :=
  (\prod_(x <- others xs j) (nth 0 xs j - x))^-1 *: \prod_(x <- others xs j) ('X - x%:P).

(** interval_diffmat_unscaled, mesh.hpp:343-365: (2 / (tauf - tau0), (K+1) x K block of
    polynomial_basis_derivatives). *)
Definition diffmat_us (K : nat) : 'M[F]_(K.+1, K) :=
  let xs := (lgr_plus_one K).1 in
  \matrix_(a, b) (lagrange xs a)^`().[nth 0 xs b].
Definition interval_diffmat_unscaled (m : mesh) (i : nat) :=
  (2%:R / (tauf m i - tau0 m i), diffmat_us (N_colloc_ival m i)).

(** interval_diffmat, mesh.hpp:312-334. *)
Definition interval_diffmat (m : mesh) (i : nat) : 'M[F]_((N_colloc_ival m i).+1, N_colloc_ival m i) :=
  (2%:R / (tauf m i - tau0 m i)) *: diffmat_us (N_colloc_ival m i).

(** interval_intmat, mesh.hpp:387-391: inverse of block(1, 0, k, k). *)
Definition interval_intmat (m : mesh) (i : nat) : 'M[F]_(N_colloc_ival m i) :=
  invmx (row' ord0 (interval_diffmat m i)).

(** interval_find, mesh.hpp:396-404. *)
Definition interval_find (m : mesh) (t : F) : nat :=
  if t < 0 then 0%N
  else if 1 < t then (size m).-1
  else if bis [seq x.2 | x <- m] t is Some i then i else 0%N.

(** N_before, mesh.hpp:442-443. *)
Definition N_before (m : mesh) (i : nat) : nat := sumn [seq x.1 | x <- take i m].

(** eval, mesh.hpp:432-471, for values in a vector space V; W = U * B holds the p-th derivatives of
    the Lagrange polynomials at u. *)
Definition eval (V : lmodType F) (m : mesh) (t : F) (r : seq V) (p : nat) (extend : bool) : V :=
  let i := interval_find m t in
  let K := N_colloc_ival m i in
  let u := 2%:R * (t - tau0 m i) / (tauf m i - tau0 m i) - 1 in
  if has_table K then
    let xs := if extend || (i.+1 < size m)%N then (lgr_plus_one K).1 else take K (lgr K).1 in
    let W := [seq ((lagrange xs j)^`(p)).[u] | j <- iota 0 (size xs)] in
    \sum_(wv <- zip W (drop (N_before m i) r)) wv.1 *: wv.2
  else 0.
End Mesh.
