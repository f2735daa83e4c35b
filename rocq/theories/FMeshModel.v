(** Model of the interval arithmetic of collocation/mesh.hpp in IEEE double arithmetic.  The exact model is MeshModel.v. *)
From Coq Require Import Reals ZArith Lia Lra List Bool.
From Flocq Require Import Core BinarySingleNaN.
From Verif Require Import LoopModel.
Import ListNotations.

(** std::size_t converted to double. *)
Definition fnat (n : nat) : b64 := fint (Z.of_nat n).
(** intervals_: degree and start, mesh.hpp:474-484. *)
Definition fmesh : Type := list (nat * b64).
Section FMesh.
Variables Kmin Kmax : nat.
(** Mesh(), mesh.hpp:83. *)
Definition fm_single : fmesh := [(Kmin, fint 0)].
(** Mesh(n, k), mesh.hpp:93-104. *)
Definition fm_uniform (n k : nat) : fmesh :=
  if Nat.ltb n 2 then [(k, fint 0)]
  else let dx := fdiv (fint 1) (fnat n) in map (fun i => (k, fmul (fnat i) dx)) (seq 0 n).
(** Start and end of interval i, mesh.hpp:152-153. *)
Definition fm_tau0 (m : fmesh) (i : nat) : b64 := snd (nth i m (0, fint 1)).
Definition fm_tauf (m : fmesh) (i : nat) : b64 := if Nat.ltb (i + 1) (length m) then fm_tau0 m (i + 1) else fint 1.
Definition fm_K (m : fmesh) (i : nat) : nat := fst (nth i m (0, fint 1)).
(** std::vector::insert. *)
Definition insert_at {A} (j : nat) (x : A) (l : list A) : list A := firstn j l ++ x :: skipn j l.
(** The loop while (n-- > 1), mesh.hpp:156-160. *)
Fixpoint fm_loop (n i : nat) (tau0 taum : b64) (m : fmesh) : fmesh :=
  match n with
  | O => m
  | S n' => if Nat.ltb 1 n then fm_loop n' i tau0 taum (insert_at (i + 1) (Kmin, fadd tau0 (fmul (fnat n') taum)) m) else m
  end.
(** refine_ph, mesh.hpp:145-167.  n does not overflow. *)
Definition fm_parts (D : nat) : nat := Nat.max 2 (Nat.div (D + Kmin - 1) Kmin).
Definition fm_refine (m : fmesh) (i D : nat) : fmesh :=
  if Nat.ltb Kmax D || Nat.ltb Kmax (fm_K m i) then
    let n := fm_parts D in
    let taum := fdiv (fsub (fm_tauf m i) (fm_tau0 m i)) (fnat n) in
    fm_loop n i (fm_tau0 m i) taum m
  else if Nat.ltb D (fm_K m i) then m
  else firstn i m ++ (D, fm_tau0 m i) :: skipn (i + 1) m.
(** refine_errors, mesh.hpp:174-190: the last interval first; Ds i is the target of interval i, if it is refined
    (Ktarget, computed with std::log and std::lround, is any number). *)
Fixpoint fm_errors (j : nat) (Ds : nat -> option nat) (m : fmesh) : fmesh :=
  match j with
  | O => m
  | S i => fm_errors i Ds (match Ds i with Some D => fm_refine m i D | None => m end)
  end.
Definition fm_round (m : fmesh) (Ds : nat -> option nat) : fmesh := fm_errors (length m) Ds m.
(** set_N_colloc_ival, mesh.hpp:196-201; increase_degrees, decrease_degrees, mesh.hpp:409-420. *)
Definition fm_set (m : fmesh) (i K : nat) : fmesh := firstn i m ++ (K, fm_tau0 m i) :: skipn (i + 1) m.
Definition fm_inc (m : fmesh) : fmesh := map (fun x => (Nat.min (fst x + 1) (Kmax + 1), snd x)) m.
Definition fm_dec (m : fmesh) : fmesh := map (fun x => (Nat.max (fst x - 1) Kmin, snd x)) m.
(** interval_nodes, mesh.hpp:208-230; lgr K is the table of lgr_plus_one<K> (K + 1 numbers from -1 to 1). *)
Variable lgr : nat -> list b64.
Definition fm_node (tau0 tauf d : b64) : b64 := fadd tau0 (fmul (fdiv (fsub tauf tau0) (fint 2)) (fadd d (fint 1))).
Definition fm_nodes (m : fmesh) (i : nat) : list b64 := map (fm_node (fm_tau0 m i) (fm_tauf m i)) (lgr (fm_K m i)).
(** all_nodes, mesh.hpp:239-250. *)
Definition fm_all_nodes (m : fmesh) : list b64 :=
  concat (map (fun i => firstn (if Nat.ltb (i + 1) (length m) then fm_K m i else fm_K m i + 1) (fm_nodes m i)) (seq 0 (length m))).
End FMesh.
