(** Theorems on the flattened dynamics (C67, C77, C78) and the table of Bernoulli numbers (C69). *)
From mathcomp Require Import all_ssreflect all_algebra.
From mathcomp.algebra_tactics Require Import ring.
From Verif Require Import Calc QpModel QpSpec FlatModel FlatSpec FlatFacts FlatProps FlatThms.
Set Implicit Arguments.
Unset Strict Implicit.
Unset Printing Implicit Defensive.
Import Order.TTheory GRing.Theory Num.Theory.
Local Open Scope ring_scope.

Section Thms.
Variable F : realFieldType.

(** * C67 *)
Section Dyn.
Variables (X U : lie F) (DX : 'cV[F]_(dof X) -> Prop).
Hypothesis (oX : lie_ok DX).
Variables (xl : curve X) (ul : curve U).
Hypothesis xv : forall t, vel (@lplus F X) (cv xl) t (dcv xl t).
Let nx := dof X.
Let nu := dof U.

(** The velocity of x = reference (+) e, less f, is dr_exp(e) times the defect of the flattened dynamics. *)
Lemma dyn_defect (f : fn F (F * (car X * car U)) (1 + (nx + nu)) nx) t e v (de : 'cV[F]_nx) : DX e ->
  Adi e *m dcv xl t + dexp e *m de - fval f (t, (lplus (cv xl t) e, lplus (cv ul t) v)) = dexp e *m (de - dyn_op f xl ul t e v).
Proof.
move=> De; have e1 : dexp e *m dexpinv e = 1%:M by apply: mulmx1C; exact: (ok_inv oX).
rewrite /dyn_op mulmxBr mulmxDr !mulmxA e1 mul1mx (ok_fund oX) mulmxBl mul1mx.
move: (dcv xl t) (Adi e *m dcv xl t) (fval _ _) (dexp e *m de) => d c a b.
by rewrite [a - d + _]addrA subrK opprB addrA [c + b]addrC.
Qed.

Section F.
Variable f : fn F (F * (car X * car U)) (1 + (nx + nu)) nx.
Theorem C67_dynamics (e : F -> 'cV[F]_nx) (v : F -> 'cV[F]_nu) t :
  let x s := lplus (cv xl s) (e s) in let u s := lplus (cv ul s) (v s) in
  DX (e t) -> (exists de, derivv e t de) ->
  (vel (@lplus F X) x t (fval f (t, (x t, u t))) <-> derivv e t (dyn_op f xl ul t (e t) (v t))).
Proof.
move=> x u De [de he]; have hv := ok_vel oX (xv t) he; have hd := dyn_defect f t (v t) de De.
have e1 : dexpinv (e t) *m dexp (e t) = 1%:M by exact: (ok_inv oX).
split=> [h|h].
  have e2 : Adi (e t) *m dcv xl t + dexp (e t) *m de = fval f (t, (x t, u t)) by apply: vel_uniq hv h; exact: (ok_inj oX).
  have e3 : de = dyn_op f xl ul t (e t) (v t).
    apply/eqP; rewrite -subr_eq0 -[X in X == 0]mul1mx -e1 -mulmxA -hd e2 subrr mulmx0; exact: eqxx.
  by rewrite -e3.
have := ok_vel oX (xv t) h; apply: vel_eq.
by apply/eqP; rewrite -subr_eq0 (dyn_defect f t (v t) _ De) subrr mulmx0; exact: eqxx.
Qed.
End F.

Variables (nq ncr nce : nat) (o : gocp X U nq ncr nce).
(** A deviation that stays where dr_expinv is defined and has a derivative. *)
Definition admissible (tf : F) (e : F -> 'cV[F]_nx) : Prop :=
  forall t, 0 <= t <= tf -> DX (e t) /\ exists de, derivv e t de.

(** The flattened problem and the original one have the same feasible trajectories with the same cost, related by
    unflatten_ocpsol. *)
Theorem C67_problem integ (s : gsol (Rn F nx) (Rn F nu) nq ncr nce) :
  let s' := unflatten_ocpsol s (cv xl) (cv ul) in
  admissible (g_tf s) (g_x s) ->
  (ocp_feasible integ (flatten_ocp o xl ul) (g_tf s) (g_x s) (g_u s) (g_Q s) <->
   ocp_feasible integ o (g_tf s') (g_x s') (g_u s') (g_Q s')) /\
  ocp_cost (flatten_ocp o xl ul) (g_tf s) (g_x s) (g_Q s) = ocp_cost o (g_tf s') (g_x s') (g_Q s').
Proof.
move=> s' adm; split=> //; split=> [] [d i r c]; split=> // t ht; have [De de] := adm t ht.
  apply/(C67_dynamics (o_f o) (g_u s) De de); exact/(velRn (n := nx))/d.
by apply/(velRn (n := nx)); apply/(C67_dynamics (o_f o) (g_u s) De de); exact: d.
Qed.

(** Hence a deviation is optimal among admissible deviations iff the trajectory is optimal among the trajectories
    that are a reference plus an admissible deviation. *)
Theorem C67_optimal integ (s : gsol (Rn F nx) (Rn F nu) nq ncr nce) :
  let s' := unflatten_ocpsol s (cv xl) (cv ul) in
  admissible (g_tf s) (g_x s) ->
  ((ocp_feasible integ (flatten_ocp o xl ul) (g_tf s) (g_x s) (g_u s) (g_Q s) /\
    forall tf e v q, admissible tf e -> ocp_feasible integ (flatten_ocp o xl ul) tf e v q ->
      ocp_cost (flatten_ocp o xl ul) (g_tf s) (g_x s) (g_Q s) <= ocp_cost (flatten_ocp o xl ul) tf e q) <->
   (ocp_feasible integ o (g_tf s') (g_x s') (g_u s') (g_Q s') /\
    forall tf e v q, admissible tf e ->
      let x t := lplus (cv xl t) (e t) in let u t := lplus (cv ul t) (v t) in
      ocp_feasible integ o tf x u q -> ocp_cost o (g_tf s') (g_x s') (g_Q s') <= ocp_cost o tf x q)).
Proof.
move=> s' adm; have [e1 e2] := C67_problem integ adm.
have P tf e v q : admissible tf e -> (ocp_feasible integ (flatten_ocp o xl ul) tf e v q <->
   ocp_feasible integ o tf (fun t => lplus (cv xl t) (e t)) (fun t => lplus (cv ul t) (v t)) q) /\
  ocp_cost (flatten_ocp o xl ul) tf e q = ocp_cost o tf (fun t => lplus (cv xl t) (e t)) q.
  move=> ae; exact: (@C67_problem integ (@Gsol F (Rn F nx) (Rn F nu) nq ncr nce 0 tf q v e (g_lq s) (g_lce s) (g_ldyn s) (g_lcr s)) ae).
split=> [] [h1 h2]; split; try exact/e1.
  move=> tf e v q ae x u fe; have [p1 p2] := P tf e v q ae.
  by have := h2 tf e v q ae (proj2 p1 fe); rewrite e2 p2.
move=> tf e v q ae fe; have [p1 p2] := P tf e v q ae.
by rewrite e2 p2; apply: h2 (proj1 p1 fe).
Qed.

(** * C78 *)
(** The multiplier that weighs the defect of the original dynamics like l weighs that of the flattened ones is
    dr_expinv(e)^T l. *)
Theorem C78_multiplier (f : fn F (F * (car X * car U)) (1 + (nx + nu)) nx) (e : F -> 'cV[F]_nx) (v : F -> 'cV[F]_nu) t (w de l : 'cV[F]_nx) :
  let x s := lplus (cv xl s) (e s) in let u s := lplus (cv ul s) (v s) in
  DX (e t) -> derivv e t de -> vel (@lplus F X) x t w ->
  ((dexpinv (e t))^T *m l)^T *m (w - fval f (t, (x t, u t))) = l^T *m (de - dyn_op f xl ul t (e t) (v t)).
Proof.
move=> x u De he hw; have ew : w = Adi (e t) *m dcv xl t + dexp (e t) *m de.
  by apply: vel_uniq hw (ok_vel oX (xv t) he); exact: (ok_inj oX).
by rewrite ew (dyn_defect f t (v t) de De) trmx_mul trmxK -mulmxA [X in _ *m X]mulmxA (ok_inv oX) // mul1mx.
Qed.
End Dyn.
End Thms.
