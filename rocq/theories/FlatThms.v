(** Theorems on flattened functions: values, Jacobians and Hessians (C68), dynamics and problems (C67). *)
From mathcomp Require Import all_ssreflect all_algebra.
From mathcomp.algebra_tactics Require Import ring.
From Verif Require Import Calc QpModel QpSpec FlatModel FlatSpec FlatFacts FlatProps.
Set Implicit Arguments.
Unset Strict Implicit.
Unset Printing Implicit Defensive.
Import Order.TTheory GRing.Theory Num.Theory.
Local Open Scope ring_scope.

Section Thms.
Variable F : realFieldType.

Lemma fog_eq (m n p : nat) (Jf : 'M[F]_(m, n)) Hf (Jg : 'M[F]_(n, p)) Hg Hg' j : (forall k, Hg k = Hg' k) ->
  fog Jf Hf Jg Hg j = fog Jf Hf Jg Hg' j.
Proof. by move=> h; rewrite /fog; congr (_ + _); apply: eq_bigr => k _; rewrite h. Qed.

Lemma lad0 (G : lie F) (D : 'cV[F]_(dof G) -> Prop) : lie_ok D -> lad (0 : 'cV[F]_(dof G)) = 0.
Proof. by move=> o; have := ok_lin o (-1) 0 0; rewrite scaler0 addr0 scaleN1r addNr. Qed.

(** * C68, functions of (t, x, u) *)
Section Inner.
Variables (X U : lie F) (DX : 'cV[F]_(dof X) -> Prop) (DU : 'cV[F]_(dof U) -> Prop).
Hypotheses (oX : lie_ok DX) (oU : lie_ok DU).
Variables (xl : curve X) (ul : curve U).
Hypothesis xv : forall t, vel (@lplus F X) (cv xl) t (dcv xl t).
Hypothesis uv : forall t, vel (@lplus F U) (cv ul) t (dcv ul t).
Let nx := dof X.
Let nu := dof U.
Variables (m : nat) (f : fn F (F * (car X * car U)) (1 + (nx + nu)) m).
(** Stacked variables (t, e, v). *)
Definition vt (z : 'cV[F]_(1 + (nx + nu))) : F := z (lshift (nx + nu) 0) 0.
Definition ve (z : 'cV[F]_(1 + (nx + nu))) : 'cV[F]_nx := usubmx (dsubmx z).
Definition vv (z : 'cV[F]_(1 + (nx + nu))) : 'cV[F]_nu := dsubmx (dsubmx z).

Definition xul : curve (pairL X U) := @Curve F (pairL X U) (fun t => (cv xl t, cv ul t)) (fun t => col_mx (dcv xl t) (dcv ul t)).
Lemma xul_v t : vel (@lplus F (pairL X U)) (cv xul) t (dcv xul t). Proof. exact: vel_pair. Qed.
Lemma joplusE z : joplus (ve z) (vv z) (dcv xl (vt z)) (dcv ul (vt z)) = Jp xul z.
Proof. by rewrite /Jp /= blockv col_mxKu col_mxKd. Qed.
Lemma hoplusE z k : hoplus (ve z) (vv z) (dcv xl (vt z)) (dcv ul (vt z)) k = Hp xul z k.
Proof.
rewrite /hoplus /Hp; case: (split k) => // {k} k /=.
rewrite /dAdexp /= !linearN /= blockv !col_mxKu !col_mxKd !mulmx_block !mulmx0 !mul0mx !addr0 !add0r.
case: (split_ordP k) => {k} k ->; rewrite ?(unsplitK (inl k)) ?(unsplitK (inr k)); congr block_mx.
  by rewrite rowKu row_row_mx ?mul0mx row0.
by rewrite rowKd row_row_mx ?mul0mx row0.
Qed.

Theorem C68_inner_jacobian z i k : fn_ok1 (@lplus F (Binner X U)) f ->
  (forall z, inner_op f xl ul (vt z) (ve z) (vv z) = fval f (vt z, (lplus (cv xl (vt z)) (ve z), lplus (cv ul (vt z)) (vv z)))) /\
  partial (fun z => fval f (vt z, (lplus (cv xl (vt z)) (ve z), lplus (cv ul (vt z)) (vv z))) i 0) z k
    (inner_jac f xl ul (vt z) (ve z) (vv z) i k).
Proof.
move=> f1; split=> //; rewrite /inner_jac joplusE.
exact: (@gen_jac _ _ _ (pair_ok oX oU) xul xul_v m f f1 z i k).
Qed.
(** The Hessian, for references of constant velocity: the second derivative of the reference is left out. *)
Theorem C68_inner_hessian z i a b : fn_ok1 (@lplus F (Binner X U)) f -> fn_ok2 (@lplus F (Binner X U)) f ->
  derivv (dcv xl) (vt z) 0 -> derivv (dcv ul) (vt z) 0 ->
  hess (fun z => fval f (vt z, (lplus (cv xl (vt z)) (ve z), lplus (cv ul (vt z)) (vv z))) i 0) z a b (inner_hess f xl ul (vt z) (ve z) (vv z) i a b).
Proof.
move=> f1 f2 ax au.
have ac : derivv (dcv xul) (vt z) 0.
  move=> k; rewrite mxE; case: (split_ordP k) => {k} k ->.
    by apply: deriv_ext (_ : deriv (fun s => dcv xl s k 0) _ _) => [s|]; [rewrite col_mxEu|have := ax k; rewrite mxE].
  by apply: deriv_ext (_ : deriv (fun s => dcv ul s k 0) _ _) => [s|]; [rewrite col_mxEd|have := au k; rewrite mxE].
have := @gen_hess _ _ _ (pair_ok oX oU) xul xul_v m f f1 f2 z i a b ac; rewrite /inner_hess joplusE.
by rewrite (fog_eq _ _ _ _ (fun k => esym (hoplusE z k))).
Qed.
End Inner.

(** * C68, functions of (tf, x0, xf, q) *)
Section Endpt.
Variables (X : lie F) (DX : 'cV[F]_(dof X) -> Prop) (nq : nat).
Hypotheses (oX : lie_ok DX).
Variables (xl : curve X).
Hypothesis xv : forall t, vel (@lplus F X) (cv xl) t (dcv xl t).
Let nx := dof X.
Variables (m : nat) (f : fn F (F * (car X * (car X * 'cV[F]_nq))) (1 + (nx + (nx + nq))) m).
(** Stacked variables (tf, e0, ef, q). *)
Definition wt (z : 'cV[F]_(1 + (nx + (nx + nq)))) : F := z (lshift (nx + (nx + nq)) 0) 0.
Definition w0 (z : 'cV[F]_(1 + (nx + (nx + nq)))) : 'cV[F]_nx := usubmx (dsubmx z).
Definition wf (z : 'cV[F]_(1 + (nx + (nx + nq)))) : 'cV[F]_nx := usubmx (dsubmx (dsubmx z)).
Definition wq (z : 'cV[F]_(1 + (nx + (nx + nq)))) : 'cV[F]_nq := dsubmx (dsubmx (dsubmx z)).

Definition xend : curve (pairL X (pairL X (Rn F nq))) :=
  @Curve F (pairL X (pairL X (Rn F nq))) (fun t => (cv xl 0, (cv xl t, 0))) (fun t => col_mx 0 (col_mx (dcv xl t) 0)).
Lemma xend_v t : vel (@lplus F (pairL X (pairL X (Rn F nq)))) (cv xend) t (dcv xend t).
Proof.
apply: vel_pair; first by apply: vel_const; exact: (ok_zero oX).
apply: vel_pair; first exact: xv.
by apply: vel_const; exact: (ok_zero (Rn_ok F nq)).
Qed.
Lemma oEnd : lie_ok (G := pairL X (pairL X (Rn F nq))) (fun e => DX (usubmx e) /\ (DX (usubmx (dsubmx e)) /\ True)).
Proof. exact: (pair_ok oX (pair_ok oX (Rn_ok F nq))). Qed.
Lemma pointE z : point xend z = (wt z, (lplus (cv xl 0) (w0 z), (lplus (cv xl (wt z)) (wf z), wq z))).
Proof. by rewrite /point /= add0r. Qed.
Lemma joplus_endE z : joplus_end nq (w0 z) (wf z) (dcv xl (wt z)) = Jp xend z.
Proof. by rewrite /Jp /= blockv col_mxKu col_mxKd blockv col_mxKu col_mxKd !mulmx0. Qed.
Lemma hoplus_endE z k : hoplus_end (w0 z) (wf z) (dcv xl (wt z)) k = Hp xend z k.
Proof.
rewrite /hoplus_end /Hp; case: (split k) => // {k} k /=.
rewrite /dAdexp /= !linearN /= !blockv !(col_mxKu, col_mxKd) !mulmx_block !(mulmx0, mul0mx, addr0, add0r, col_mx0, mul1mx, mulmx1).
rewrite mulmx_block !(mulmx0, mul0mx, addr0, add0r) (lad0 oX) !mul0mx.
case: (split_ordP k) => {k} k ->; rewrite ?(unsplitK (inl k)) ?(unsplitK (inr k)).
  by rewrite rowKu row_row_mx !row0 row_mx0.
case: (split_ordP k) => {k} k ->; rewrite ?(unsplitK (inl k)) ?(unsplitK (inr k)).
  by rewrite rowKd row_row_mx rowKu row_row_mx !row0.
by rewrite rowKd row_row_mx rowKd row_row_mx !row0 !row_mx0 !block_mx0.
Qed.

Theorem C68_end_jacobian z i k : fn_ok1 (@lplus F (Bendpt X nq)) f ->
  (forall z, end_op f xl (wt z) (w0 z) (wf z) (wq z) = fval f (wt z, (lplus (cv xl 0) (w0 z), (lplus (cv xl (wt z)) (wf z), wq z)))) /\
  partial (fun z => fval f (wt z, (lplus (cv xl 0) (w0 z), (lplus (cv xl (wt z)) (wf z), wq z))) i 0) z k
    (end_jac f xl (wt z) (w0 z) (wf z) (wq z) i k).
Proof.
move=> f1; split=> //; rewrite /end_jac joplus_endE -pointE.
apply: partial_ext (@gen_jac _ _ _ oEnd xend xend_v m f f1 z i k) => w.
by rewrite pointE.
Qed.
Theorem C68_end_hessian z i a b : fn_ok1 (@lplus F (Bendpt X nq)) f -> fn_ok2 (@lplus F (Bendpt X nq)) f ->
  derivv (dcv xl) (wt z) 0 ->
  hess (fun z => fval f (wt z, (lplus (cv xl 0) (w0 z), (lplus (cv xl (wt z)) (wf z), wq z))) i 0) z a b (end_hess f xl (wt z) (w0 z) (wf z) (wq z) i a b).
Proof.
move=> f1 f2 ax.
have ac : derivv (dcv xend) (wt z) 0.
  move=> k; rewrite mxE; case: (split_ordP k) => {k} k ->.
    by apply: deriv_ext (deriv_const 0 _) => s; rewrite col_mxEu mxE.
  case: (split_ordP k) => {k} k ->.
    by apply: deriv_ext (_ : deriv (fun s => dcv xl s k 0) _ _) => [s|]; [rewrite col_mxEd col_mxEu|have := ax k; rewrite mxE].
  by apply: deriv_ext (deriv_const 0 _) => s; rewrite !col_mxEd mxE.
have := @gen_hess _ _ _ oEnd xend xend_v m f f1 f2 z i a b ac; rewrite /end_hess joplus_endE -pointE.
case=> D D1 D2; exists D; first by move=> w; apply: partial_ext (D1 w) => w'; rewrite pointE.
apply: partial_eq D2.
by rewrite (fog_eq _ _ _ _ (fun k => esym (hoplus_endE z k))).
Qed.
End Endpt.
End Thms.
