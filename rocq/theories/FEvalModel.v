(** Model of the arithmetic around Mesh::eval, interval_weights, all_weights and interval_diffmat of collocation/mesh.hpp in IEEE
    double arithmetic.  Simplification: the polynomials themselves (monomials times the table of the Lagrange basis) are not here. *)
From Coq Require Import Reals ZArith Lia Lra List Bool.
From Flocq Require Import Core BinarySingleNaN.
From Verif Require Import LoopModel FPidModel FMeshModel.
Import ListNotations.

(** The coordinate u at which the polynomials of an interval are evaluated, mesh.hpp:441. *)
Definition fe_coord (tau0 tauf t : b64) : b64 := fsub (fdiv (fmul (fint 2) (fsub t tau0)) (fsub tauf tau0)) (fint 1).
(** The scale of the differentiation matrix, mesh.hpp:332 and 364. *)
Definition fe_dscale (tau0 tauf : b64) : b64 := fdiv (fint 2) (fsub tauf tau0).
(** interval_weights, mesh.hpp:256-278; lgw K is the second table of lgr_plus_one<K> (K + 1 numbers, the last is 0). *)
Definition fe_weight (tau0 tauf d : b64) : b64 := fmul (fdiv (fsub tauf tau0) (fint 2)) d.
Section Weights.
Variable lgw : nat -> list b64.
Definition fe_weights (m : fmesh) (i : nat) : list b64 := map (fe_weight (fm_tau0 m i) (fm_tauf m i)) (lgw (fm_K m i)).
(** all_weights, mesh.hpp:287-298. *)
Definition fe_all_weights (m : fmesh) : list b64 :=
  concat (map (fun i => firstn (if Nat.ltb (i + 1) (length m) then fm_K m i else fm_K m i + 1) (fe_weights m i)) (seq 0 (length m))).
End Weights.
