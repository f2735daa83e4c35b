(** Specification vocabulary for the mesh properties. *)
From mathcomp Require Import all_ssreflect all_algebra.
From Verif Require Import MeshModel.
Set Implicit Arguments.
Unset Strict Implicit.
Unset Printing Implicit Defensive.
Import Order.TTheory GRing.Theory Num.Theory.
Local Open Scope ring_scope.

Section Spec.
Variable F : realFieldType.

(** Left end points 0 = t_0 < t_1 < ... < t_(n-1) < 1. *)
Definition is_partition (m : seq (nat * F)) : Prop :=
  (head 1 [seq x.2 | x <- m] = 0) /\ sorted <%R (rcons [seq x.2 | x <- m] 1).

(** Interval [a, b) with K points after a refinement to D points: what the documentation of refine_ph
    says, except that [K0] is the degree of the first sub-interval after a split. *)
Definition n_split (Kmin D : nat) : nat := maxn 2 ((D + Kmin - 1) %/ Kmin).
Definition split_into (Kmin n : nat) (K0 : nat) (a b : F) : seq (nat * F) :=
  (K0, a) :: [seq (Kmin, a + j%:R * ((b - a) / n%:R)) | j <- iota 1 n.-1].
Definition refined (Kmin Kmax K0 K D : nat) (a b : F) : seq (nat * F) :=
  if (Kmax < D)%N || (Kmax < K)%N then split_into Kmin (n_split Kmin D) K0 a b
  else if (D < K)%N then [:: (K, a)] else [:: (D, a)].

(** Antiderivative and definite integral of a polynomial. *)
Definition prim (p : {poly F}) : {poly F} := \poly_(i < (size p).+1) (p`_i.-1 / i%:R).
Definition integ (p : {poly F}) (a b : F) : F := (prim p).[b] - (prim p).[a].

(** Contract of smooth::lgr_nodes<K>(): Legendre-Gauss-Radau quadrature on [-1,1]. *)
Record lgr_contract (K : nat) (nw : seq F * seq F) : Prop := LgrContract {
  lgr_size : size nw.1 = K;
  lgr_wsize : size nw.2 = K;
  lgr_first : head 0 nw.1 = -1;
  lgr_sorted : sorted <%R (rcons nw.1 1);
  lgr_pos : all (fun w => 0 < w) nw.2;
  lgr_exact : forall p : {poly F}, (size p <= (2 * K).-1)%N ->
    \sum_(xw <- zip nw.1 nw.2) xw.2 * p.[xw.1] = integ p (-1) 1 }.

(** Contract of smooth::utils::binary_interval_search on a sorted range. *)
Definition bis_contract (bis : seq F -> F -> option nat) : Prop :=
  forall s t, sorted <%R s -> s != [::] -> head 0 s <= t ->
    exists i, [/\ bis s t = Some i, (i < size s)%N, nth 0 s i <= t &
                  (i.+1 < size s)%N -> t < nth 0 s i.+1].

(** Meshes that a user can have: built by a constructor and changed by public operations only. *)
Definition reachable (Kmin Kmax : nat) (kinc : nat -> F -> F -> nat) (m : seq (nat * F)) : Prop :=
  exists om os, (om = Some (mesh_default F Kmin) \/ exists n k, om = mesh_new F Kmin Kmax n k) /\
                mesh_run Kmin Kmax kinc om os = Some m.
End Spec.
