(** The nonlinear program of ocp_to_nlp.hpp meets what the wrapper of IPOPT relies on, if the stored entries of the
    derivatives of the optimal control problem do not depend on the point. *)
From mathcomp Require Import all_ssreflect all_algebra.
From Verif Require Import Calc QpModel LinAlg QpSpec MeshModel MeshSpec SparseModel SparseFacts MeshFunModel NlpModel NlpFacts NlpProps IpoptModel IpoptProps.
Set Implicit Arguments.
Unset Strict Implicit.
Unset Printing Implicit Defensive.
Import Order.TTheory GRing.Theory Num.Theory.
Local Open Scope ring_scope.

Section Pat.
Variable F : realFieldType.

(** A procedure on a sparse matrix, with an argument a in Q, that stores the same entries for every a, only in the upper
    triangle if up, and whose values are the same for arguments related by R. *)
Definition cst (up : bool) (A : Type) (Q : A -> Prop) (R : A -> A -> Prop) (P : A -> smat F -> smat F) : Prop :=
  (exists2 X : nat -> nat -> bool, (forall r c, up -> X r c -> (r <= c)%N) &
    forall a d r c, Q a -> isSome (P a d r c) = isSome (d r c) || X r c) /\
  (forall a a' d d', Q a -> Q a' -> R a a' -> val d =2 val d' -> val (P a d) =2 val (P a' d')).
Lemma cst_id up A Q R : @cst up A Q R (fun _ d => d).
Proof. by split=> //; exists (fun _ _ => false) => // a d r c _; rewrite orbF. Qed.
Lemma cst_comp up A Q R P1 P2 : @cst up A Q R P1 -> cst up Q R P2 -> cst up Q R (fun a d => P2 a (P1 a d)).
Proof.
move=> [[X1 u1 h1] v1] [[X2 u2 h2] v2]; split.
  exists (fun r c => X1 r c || X2 r c).
    by move=> r c u /orP[]; [exact: u1|exact: u2].
  by move=> a d r c q; rewrite h2 // h1 // orbA.
by move=> a a' d d' q q' ra e; apply: v2 => //; exact: v1.
Qed.
Lemma cst_fold up A Q R (I : Type) (P : I -> A -> smat F -> smat F) l : (forall i, @cst up A Q R (P i)) ->
  cst up Q R (fun a d => foldl (fun d i => P i a d) d l).
Proof.
move=> h; elim: l => [|i l IH]; first exact: cst_id.
exact: (cst_comp (h i) IH).
Qed.
(** A matrix with an argument a in Q whose stored entries do not depend on a, and whose values are the same for related
    arguments. *)
Definition cpat (A : Type) (Q : A -> Prop) (R : A -> A -> Prop) (e : A -> smat F) : Prop :=
  (exists p : nat -> nat -> bool, forall a r c, Q a -> isSome (e a r c) = p r c) /\
  (forall a a', Q a -> Q a' -> R a a' -> val (e a) =2 val (e a')).
Definition cnum (A : Type) (R : A -> A -> Prop) (k : A -> F) : Prop := forall a a', R a a' -> k a = k a'.
Lemma cst_add (up : bool) A (Q : A -> Prop) R r0 c0 rows cols (e : A -> smat F) (k : A -> F) up' : up ==> up' -> cpat Q R e ->
  cnum R k -> cst up Q R (fun a d => block_add d r0 c0 (Src rows cols (e a)) (k a) up').
Proof.
move=> uu [[p h] v] kk; split.
  exists (fun r c => inb r0 c0 rows cols up' r c && p (r - r0)%N (c - c0)%N).
    by move=> r c u /andP[/and3P[_ _]]; move: uu; rewrite u => /implyP ->.
  by move=> a d r c q; rewrite isSome_block_op /= h.
move=> a a' d d' q q' ra ed r c; rewrite !val_block_add ed (kk _ _ ra) /=; congr (_ + _); case: ifP => // _; congr (_ * _).
exact: v.
Qed.
Lemma cst_block (up : bool) A (Q : A -> Prop) R r0 c0 (e : A -> smat F) r1 c1 rows cols (k : A -> F) up' : up ==> up' ->
  cpat Q R e -> cnum R k -> cst up Q R (fun a d => block_add d r0 c0 (block (e a) r1 c1 rows cols) (k a) up').
Proof.
move=> uu [[p h] v] kk; apply: (@cst_add up A Q R r0 c0 rows cols (fun a r c => e a (r1 + r)%N (c1 + c)%N) k up') => //; split.
  by exists (fun r c => p (r1 + r)%N (c1 + c)%N) => a r c; exact: h.
by move=> a a' q q' ra r c; exact: v.
Qed.
Lemma cst_ident A (Q : A -> Prop) R r0 c0 n (k : A -> F) : cnum R k ->
  cst false Q R (fun a d => block_add_identity d r0 c0 n (k a)).
Proof.
move=> kk; apply: (cst_fold (P := fun i a d => upd d (r0 + i) (c0 + i) (val d (r0 + i) (c0 + i) + k a))) => i; split.
  exists (fun r c => (r == r0 + i) && (c == c0 + i))%N => // a d r c _.
  by rewrite /upd; case: ifP; rewrite ?orbT ?orbF.
by move=> a a' d d' _ _ ra e r c; rewrite !val_upd !e (kk _ _ ra).
Qed.
Lemma cst_nil up A Q R : @cst up A Q R (fun _ d => bexec d [::]). Proof. exact: cst_id. Qed.
Lemma cst_cons up A Q R (o : A -> bop F) (l : A -> seq (bop F)) :
  @cst up A Q R (fun a d => block_add d (b_r (o a)) (b_c (o a)) (b_s (o a)) (b_k (o a)) (b_up (o a))) ->
  cst up Q R (fun a d => bexec d (l a)) -> cst up Q R (fun a d => bexec d (o a :: l a)).
Proof. by move=> h1 h2; exact: (cst_comp h1 h2). Qed.
(** From a matrix with some of these entries, after set_zero, the result has the same entries and values. *)
Lemma cst_pat up A (Q : A -> Prop) R P : @cst up A Q R P -> exists2 X : nat -> nat -> bool, (forall r c, up -> X r c -> (r <= c)%N) &
  (forall a d r c, Q a -> (isSome (d r c) -> X r c) -> isSome (P a (set_zero d) r c) = X r c) /\
  (forall a a' d d', Q a -> Q a' -> R a a' -> val (P a (set_zero d)) =2 val (P a' (set_zero d'))).
Proof.
case=> [[X u h] v]; exists X => //; split.
  move=> a d r c q hd; rewrite h // isSome_zero; case: (X r c) hd; rewrite ?orbT ?orbF // => hd.
  by case: (isSome (d r c)) hd => // /(_ isT).
by move=> a a' d d' q q' ra; apply: v => // r c; rewrite !val_set_zero.
Qed.

(** * The mesh functions *)
(** The arguments of the loops: t0, tf, xs, us, and the multipliers. *)
Record marg := Marg { a_t0 : F; a_tf : F; a_xs : nat -> nat -> F; a_us : nat -> nat -> F; a_l : nat -> F }.
Section Mesh.
Variables nx nu nf : nat.
Local Notation nz := (1 + nx + nu)%N.
Variables (fv : 'cV[F]_nz -> nat -> F) (df d2f : 'cV[F]_nz -> smat F).
(** The stored entries of the derivatives do not depend on the point. *)
Definition fixed (e : 'cV[F]_nz -> smat F) : Prop :=
  exists p : nat -> nat -> bool, forall z r c, isSome (e z r c) = p r c.
Hypotheses (p1 : fixed df) (p2 : fixed d2f).
Variables (N : nat) (taus ws : seq F).
Let anya : marg -> Prop := fun _ => True.
Let eqa : marg -> marg -> Prop := fun a a' => a = a'.
Local Notation z a i := (zarg nx nu (a_t0 a) (a_tf a) (a_xs a) (a_us a) (tau_at taus i) i).
Lemma q1 i : cpat anya eqa (fun a => df (z a i)). Proof. by split; [case: p1 => p h; exists p => a r c _; exact: h|move=> a _ _ _ <-]. Qed.
Lemma q2 i : cpat anya eqa (fun a => d2f (z a i)). Proof. by split; [case: p2 => p h; exists p => a r c _; exact: h|move=> a _ _ _ <-]. Qed.
Lemma qd i : cpat anya eqa (fun a => (fun r _ => Some (fv (z a i) r)) : smat F).
Proof. by split; [exists (fun _ _ => true)|move=> a _ _ _ <-]. Qed.
Lemma eq_num k : cnum eqa k. Proof. by move=> a _ <-. Qed.

(** Steps that change the matrices of a MeshValue in this way. *)
Definition acts (S : marg -> mval F -> mval F) : Prop :=
  exists P : (marg -> smat F -> smat F) * (marg -> smat F -> smat F), [/\ cst false anya eqa P.1, cst true anya eqa P.2 &
    forall a o, mvlam o = a_l a -> [/\ mvdF (S a o) = P.1 a (mvdF o), mvd2F (S a o) = P.2 a (mvd2F o),
      mvlam (S a o) = mvlam o & mvalloc (S a o) = mvalloc o]].
Lemma acts_id : acts (fun _ o => o).
Proof. by exists (fun _ d => d, fun _ d => d); split=> //; exact: cst_id. Qed.
Lemma acts_comp S1 S2 : acts S1 -> acts S2 -> acts (fun a o => S2 a (S1 a o)).
Proof.
move=> [P1 [c1 d1 h1]] [P2 [c2 d2 h2]]; exists (fun a d => P2.1 a (P1.1 a d), fun a d => P2.2 a (P1.2 a d)).
split; [exact: (cst_comp c1 c2)|exact: (cst_comp d1 d2)|move=> a o e].
have [e1 e2 e3 e4] := h1 a o e; have [|f1 f2 f3 f4] := h2 a (S1 a o); first by rewrite e3.
by rewrite f1 f2 f3 f4 e1 e2 e3 e4.
Qed.
Lemma acts_fold (I : Type) (S : I -> marg -> mval F -> mval F) l : (forall i, acts (S i)) ->
  acts (fun a o => foldl (fun o i => S i a o) o l).
Proof.
move=> h; elim: l => [|i l IH]; first exact: acts_id.
exact: (acts_comp (h i) IH).
Qed.
Ltac pat := first [exact: q1 | exact: q2 | exact: qd].
Ltac one := cbn [b_r b_c b_s b_k b_up]; lazymatch goal with
  | |- @cst ?up ?A ?Q ?R (fun a d => block_add d ?r0 ?c0 (block (@?e a) ?r1 ?c1 ?n ?m) (@?k a) ?up') =>
    refine (@cst_block up A Q R r0 c0 e r1 c1 n m k up' _ _ _); [done|pat|exact: eq_num]
  | |- @cst ?up ?A ?Q ?R (fun a d => block_add d ?r0 ?c0 (dense ?n ?m (fun r c => @?e a r)) (@?k a) ?up') =>
    refine (@cst_add up A Q R r0 c0 n m (fun a r _ => Some (e a r)) k up' _ _ _); [done|pat|exact: eq_num]
  end.
Ltac blocks := repeat first [exact: cst_nil | lazymatch goal with
  |- @cst ?up ?A ?Q ?R (fun a d => bexec d (@?o a :: @?l a)) => refine (@cst_cons up A Q R o l _ _); [one|cbn beta] end].
(** A step given by what it does to each matrix. *)
Lemma acts_by (S : marg -> mval F -> mval F) (P1 P2 : marg -> smat F -> smat F) :
  (forall a o, mvlam o = a_l a -> [/\ mvdF (S a o) = P1 a (mvdF o), mvd2F (S a o) = P2 a (mvd2F o),
      mvlam (S a o) = mvlam o & mvalloc (S a o) = mvalloc o]) ->
  cst false anya eqa P1 -> cst true anya eqa P2 -> acts S.
Proof. by move=> h c1 c2; exists (P1, P2). Qed.
Ltac loop := lazymatch goal with
  |- @cst ?up ?A ?Q ?R (fun a d => foldl (fun d' j => @?G a d' j) d ?l) =>
    refine (@cst_fold up A Q R nat (fun j a d => G a d j) l _); intro; cbv beta end.
Lemma acts_eval sc i : acts (fun a o => eval_step nf fv df d2f N taus ws (a_t0 a) (a_tf a) (a_xs a) (a_us a) sc o i).
Proof.
eapply acts_by.
- move=> a [al vF dF d2F lam]; cbv beta iota zeta delta [eval_step mvdF mvd2F mvlam mvalloc] => ->.
  by split; [reflexivity|reflexivity| |].
- by blocks.
- by loop; blocks.
Qed.
Lemma acts_int i : acts (fun a o => int_step nf fv df d2f N taus ws (a_t0 a) (a_tf a) (a_xs a) (a_us a) o i).
Proof.
eapply acts_by.
- move=> a [al vF dF d2F lam]; cbv beta iota zeta delta [int_step hess_blocks mvdF mvd2F mvlam mvalloc] => ->.
  by split; [reflexivity|reflexivity| |].
- by blocks.
- by loop; blocks.
Qed.
Lemma acts_dyn1 i : acts (fun a o => dyn_step fv df d2f N taus ws (a_t0 a) (a_tf a) (a_xs a) (a_us a) o i).
Proof.
eapply acts_by.
- move=> a [al vF dF d2F lam]; cbv beta iota zeta delta [dyn_step hess_blocks mvdF mvd2F mvlam mvalloc] => ->.
  by split; [reflexivity|reflexivity| |].
- by blocks.
- by loop; blocks.
Qed.
Variables (nI : nat) (Ks : nat -> nat) (iw : nat -> seq F) (alpha : nat -> F) (Dus : nat -> nat -> nat -> F).
Lemma acts_add I i0 Ni i : acts (fun a o => dyn_add nx (a_xs a) iw alpha Dus I i0 Ni i o).
Proof.
apply: (acts_fold (S := fun j a o => MVal _ _ _ _ _)) => j; eapply acts_by.
- by move=> a [al vF dF d2F lam] /= ->; split; [reflexivity|reflexivity| |].
- by apply: (cst_ident _ _ _ _ (k := fun=> _)) => a a' _.
- exact: cst_id.
Qed.
Lemma acts_dyn2 l st : acts (fun a o => (foldl (dyn_step2 nx N (a_xs a) nI Ks iw alpha Dus) (st, o) l).2).
Proof.
elim: l st => [|i l IH] st; first exact: acts_id.
have [st' [S hS e]] : exists st', exists2 S, acts S & forall a o, dyn_step2 nx N (a_xs a) nI Ks iw alpha Dus (st, o) i = (st', S a o).
  case: st => [[I i0] Ni]; rewrite /dyn_step2; case: (i == i0 + Ni)%N.
    case: (I.+1 < nI)%N; case: (i < N)%N.
    - exists (I.+1, i0 + Ni, Ks I.+1)%N.
      exists (fun a o => dyn_add nx (a_xs a) iw alpha Dus I.+1 (i0 + Ni) (Ks I.+1) i (dyn_add nx (a_xs a) iw alpha Dus I i0 Ni i o)) => //.
      exact: (acts_comp (acts_add _ _ _ _) (acts_add _ _ _ _)).
    - by exists (I.+1, i0 + Ni, Ks I.+1)%N; exists (fun a o => dyn_add nx (a_xs a) iw alpha Dus I i0 Ni i o) => //; exact: acts_add.
    - exists (I.+1, i0, Ni)%N.
      exists (fun a o => dyn_add nx (a_xs a) iw alpha Dus I.+1 i0 Ni i (dyn_add nx (a_xs a) iw alpha Dus I i0 Ni i o)) => //.
      exact: (acts_comp (acts_add _ _ _ _) (acts_add _ _ _ _)).
    - by exists (I.+1, i0, Ni)%N; exists (fun a o => dyn_add nx (a_xs a) iw alpha Dus I i0 Ni i o) => //; exact: acts_add.
  case: (i < N)%N.
  - by exists (I, i0, Ni)%N; exists (fun a o => dyn_add nx (a_xs a) iw alpha Dus I i0 Ni i o) => //; exact: acts_add.
  - by exists (I, i0, Ni)%N; exists (fun a o => o) => //; exact: acts_id.
have [P [c1 c2 h]] := acts_comp hS (IH st'); exists P; split=> // a o; move: (h a o).
by rewrite -(e a o).
Qed.

(** A mesh function that starts with mprep: there are sets of entries X1 and X2 such that, from an object that stores no
    other entries, it gives one that stores these, and values that depend on the arguments only. *)
Definition stable (X1 X2 : nat -> nat -> bool) (o : mval F) : Prop :=
  mvalloc o -> forall r c, (isSome (mvdF o r c) -> X1 r c) /\ (isSome (mvd2F o r c) -> X2 r c).
Definition settles_with (X1 X2 : nat -> nat -> bool) (M : marg -> mval F -> mval F) : Prop := [/\ forall r c, X2 r c -> (r <= c)%N,
    forall a o, mvlam o = a_l a -> stable X1 X2 o -> [/\ mvlam (M a o) = mvlam o, mvalloc (M a o),
      forall r c, isSome (mvdF (M a o) r c) = X1 r c & forall r c, isSome (mvd2F (M a o) r c) = X2 r c] &
    forall a o o', mvlam o = a_l a -> mvlam o' = a_l a ->
      val (mvdF (M a o)) =2 val (mvdF (M a o')) /\ val (mvd2F (M a o)) =2 val (mvd2F (M a o'))].
Definition settles (M : marg -> mval F -> mval F) : Prop := exists X1 X2 : nat -> nat -> bool, settles_with X1 X2 M.
Lemma settles_prep S : acts S -> settles (fun a o => S a (mprep o)).
Proof.
case=> P [c1 c2 h]; have [X1 _ [h1 v1]] := cst_pat c1; have [X2 u2 [h2 v2]] := cst_pat c2.
exists X1, X2; split=> [r c|a o e st|a o o' e e']; first exact: u2.
  have [|-> -> -> ->] := h a (mprep o); first by rewrite -e.
  split=> // r c; [apply: h1|apply: h2] => //=; move: st; rewrite /stable; case: (mvalloc o) => // /(_ isT r c)[] //.
have [|-> -> _ _] := h a (mprep o); first by rewrite -e.
have [|-> -> _ _] := h a (mprep o'); first by rewrite -e'.
by split; [apply: v1|apply: v2].
Qed.
Lemma settles_eval sc : settles (fun a o => eval_loop nf fv df d2f N taus ws (a_t0 a) (a_tf a) (a_xs a) (a_us a) sc o).
Proof.
apply: (settles_prep (S := fun a o => foldl (eval_step nf fv df d2f N taus ws (a_t0 a) (a_tf a) (a_xs a) (a_us a) sc) o (iota 0 N))).
exact: (acts_fold _ (acts_eval sc)).
Qed.
Lemma settles_int : settles (fun a o => int_loop nf fv df d2f N taus ws (a_t0 a) (a_tf a) (a_xs a) (a_us a) o).
Proof.
apply: (settles_prep (S := fun a o => foldl (int_step nf fv df d2f N taus ws (a_t0 a) (a_tf a) (a_xs a) (a_us a)) o (iota 0 N))).
exact: (acts_fold _ acts_int).
Qed.
Lemma settles_dyn : settles (fun a o => dyn_loop fv df d2f N taus ws (a_t0 a) (a_tf a) (a_xs a) (a_us a) nI Ks iw alpha Dus o).
Proof.
apply: (settles_prep (S := fun a o => (foldl (dyn_step2 nx N (a_xs a) nI Ks iw alpha Dus) (0%N, 0%N, Ks 0%N,
  foldl (dyn_step fv df d2f N taus ws (a_t0 a) (a_tf a) (a_xs a) (a_us a)) o (iota 0 N)) (iota 0 (N + 1))).2)).
exact: (acts_comp (acts_fold _ acts_dyn1) (acts_dyn2 _ _)).
Qed.
End Mesh.

(** * The nonlinear program *)
Section Ocp.
Variables Nx Nu Nq Ncr Nce : nat.
Variable p : ocp F Nx Nu Nq Ncr Nce.
Variables (Kmin Kmax : nat) (lgr : nat -> seq F * seq F) (m : mesh F).
Local Notation N := (N_colloc m).
Local Notation n := (nlp_n Nx Nu Nq m).
Local Notation mm := (nlp_m Nx Nq Ncr Nce m).
(** The object of ocp_to_nlp as the wrapper sees it; the matrices are column-major (ocp_to_nlp.hpp:86-87). *)
Definition ocp_problem (jl ju : nat -> ext F) : problem F (nlp F) :=
  Problem n mm false (nlp_xl Nx Nu Nq m) (nlp_xu F) (nlp_gl p Kmin Kmax lgr m jl) (nlp_gu p Kmin Kmax lgr m ju)
    (fun o x => (o, nlp_f p m x))
    (fun o x => let o := nlp_df p m o x in (o, o_df o))
    (fun o x => let o := nlp_g p Kmin Kmax lgr m o x in (o, o_g o))
    (fun o x => let o := nlp_dg p Kmin Kmax lgr m o x in (o, o_dg o))
    (fun o x => let o := nlp_d2f p m o x in (o, o_d2f o))
    (fun o x l => let o := nlp_d2g p Kmin Kmax lgr m o x l in (o, o_d2g o)).
(** The stored entries of the derivatives of the problem do not depend on the point. *)
Record fixed_patterns : Prop := Fixed {
  fx_ddyn : fixed (ddyn p); fx_d2dyn : fixed (d2dyn p); fx_dint : fixed (dint p); fx_d2int : fixed (d2int p);
  fx_dcr : fixed (dcr p); fx_d2cr : fixed (d2cr p);
  fx_dce : exists q : nat -> nat -> bool, forall z r c, isSome (dce p z r c) = q r c;
  fx_d2ce : exists q : nat -> nat -> bool, forall z r c, isSome (d2ce p z r c) = q r c;
  fx_d2theta : exists q : nat -> nat -> bool, forall z r c, isSome (d2theta p z r c) = q r c }.
Hypothesis fx : fixed_patterns.

Ltac one2 := cbn [b_r b_c b_s b_k b_up]; lazymatch goal with
  | |- @cst ?up ?A ?Q ?R (fun a d => block_add d ?r0 ?c0 (block (@?e a) ?r1 ?c1 ?n ?m) (@?k a) ?up') =>
    refine (@cst_block up A Q R r0 c0 e r1 c1 n m k up' _ _ _); [done|assumption|first [by intros ? ? ? | match goal with h : forall i, cnum _ _ |- _ => apply h end]]
  end.
Ltac blocks2 := repeat first [exact: cst_nil | lazymatch goal with
  |- @cst ?up ?A ?Q ?R (fun a d => bexec d (@?o a :: @?l a)) => refine (@cst_cons up A Q R o l _ _); [one2|cbn beta] end].
Ltac comp := lazymatch goal with
  | |- @cst ?up ?A ?Q ?R (fun a d => bexec (@?G a d) (@?l a)) => refine (@cst_comp up A Q R G (fun a d => bexec d (l a)) _ _); cbv beta
  | |- @cst ?up ?A ?Q ?R (fun a d => block_add_identity (@?G a d) ?r0 ?c0 ?n ?k) =>
    refine (@cst_comp up A Q R G (fun a d => block_add_identity d r0 c0 n k) _ _); cbv beta
  end.
Section Cst.
Variables (D1 D2 I1 I2 C1 C2 : nat -> nat -> bool).
Definition ok3 (d i c : mval F) : Prop := [/\ stable D1 D2 d, stable I1 I2 i & stable C1 C2 c].
Definition Mdyn (a : marg) := mesh_dyn (dynv p) (ddyn p) (d2dyn p) Kmin Kmax lgr m (a_t0 a) (a_tf a) (a_xs a) (a_us a).
Definition Mint (a : marg) := mesh_integrate Nq (intv p) (dint p) (d2int p) Kmin Kmax lgr m (a_t0 a) (a_tf a) (a_xs a) (a_us a).
Definition Mcr (a : marg) := mesh_eval Ncr (crv p) (dcr p) (d2cr p) Kmin Kmax lgr m (a_t0 a) (a_tf a) (a_xs a) (a_us a) true.
Hypotheses (Sd : settles_with D1 D2 Mdyn) (Si : settles_with I1 I2 Mint) (Sc : settles_with C1 C2 Mcr).
Definition arg (x l : nat -> F) : marg := Marg 0 (x (tfvar_B Nx Nu Nq m)) (xcol Nx Nu Nq m x) (ucol Nx Nu Nq m x) l.
Definition okj (o : nlp F) : Prop :=
  [/\ ok3 (o_dyn1 o) (o_int1 o) (o_cr1 o), mvlam (o_dyn1 o) = (fun=> 0), mvlam (o_int1 o) = (fun=> 0) & mvlam (o_cr1 o) = (fun=> 0)].
Definition dg_proc (a : nlp F * (nat -> F)) (d : smat F) : smat F :=
  let D := dce p (zend Nx Nu Nq m a.2) in
  let d := bexec d (mesh_jac Nx Nu Nq Kmin Kmax lgr m (dcon_B Nx Nq Ncr Nce m) (dcon_L Nx Nq Ncr Nce m)
    (mvdF (call_dyn p Kmin Kmax lgr m a.2 (o_dyn1 a.1)))) in
  let d := bexec d (mesh_jac Nx Nu Nq Kmin Kmax lgr m (qcon_B Nx Nq Ncr Nce m) (qcon_L Nx Nq Ncr Nce m)
    (mvdF (call_int p Kmin Kmax lgr m a.2 (o_int1 a.1)))) in
  let d := block_add_identity d (qcon_B Nx Nq Ncr Nce m) (qvar_B Nx Nu Nq m) (qvar_L Nx Nu Nq m) (- w_scaling Kmin Kmax lgr m) in
  let d := bexec d (mesh_jac Nx Nu Nq Kmin Kmax lgr m (crcon_B Nx Nq Ncr Nce m) (crcon_L Nx Nq Ncr Nce m)
    (mvdF (call_cr p Kmin Kmax lgr m a.2 (o_cr1 a.1)))) in
  bexec d
    [:: Bop (cecon_B Nx Nq Ncr Nce m) (tfvar_B Nx Nu Nq m) (block D 0 0 Nce 1) 1 false;
        Bop (cecon_B Nx Nq Ncr Nce m) (xvar_B Nx Nu Nq m) (block D 0 1 Nce Nx) 1 false;
        Bop (cecon_B Nx Nq Ncr Nce m) (xvar_B Nx Nu Nq m + xvar_L Nx Nu Nq m - Nx) (block D 0 (1 + Nx) Nce Nx) 1 false;
        Bop (cecon_B Nx Nq Ncr Nce m) (qvar_B Nx Nu Nq m) (block D 0 (1 + 2 * Nx) Nce Nq) 1 false].
Lemma dg_procE o x : o_dg (nlp_dg p Kmin Kmax lgr m o x) = dg_proc (o, x) (set_zero (o_dg o)). Proof. by []. Qed.
Let Rj (a a' : nlp F * (nat -> F)) : Prop := a.2 = a'.2.
Let Qj (a : nlp F * (nat -> F)) : Prop := okj a.1.
Lemma pat_call X1 X2 M (A : Type) (Q : A -> Prop) (R : A -> A -> Prop) (g : A -> marg) (f : A -> mval F) :
  settles_with X1 X2 M -> (forall a, Q a -> mvlam (f a) = a_l (g a) /\ stable X1 X2 (f a)) -> (forall a a', R a a' -> g a = g a') ->
  cpat Q R (fun a => mvdF (M (g a) (f a))) /\ cpat Q R (fun a => mvd2F (M (g a) (f a))).
Proof.
move=> [_ h v] hf hg; split; split.
- by exists X1 => a r c /hf[e1 e2]; have [_ _ -> _] := h (g a) (f a) e1 e2.
- by move=> a a' /hf[e _] /hf[e' _] /hg ea; rewrite ea; have [] := v (g a') (f a) (f a') (etrans e (congr1 a_l ea)) e'.
- by exists X2 => a r c /hf[e1 e2]; have [_ _ _ ->] := h (g a) (f a) e1 e2.
- by move=> a a' /hf[e _] /hf[e' _] /hg ea; rewrite ea; have [] := v (g a') (f a) (f a') (etrans e (congr1 a_l ea)) e'.
Qed.
Lemma cst_dg : cst false Qj Rj dg_proc.
Proof.
have hg (a a' : nlp F * (nat -> F)) : Rj a a' -> arg a.2 (fun=> 0) = arg a'.2 (fun=> 0) by move=> ->.
have [c1 _] := @pat_call D1 D2 Mdyn _ Qj Rj (fun a => arg a.2 (fun=> 0)) (fun a => o_dyn1 a.1) Sd
  (fun a h => let: And4 (And3 h1 h2 h3) e1 e2 e3 := h in conj e1 h1) hg.
have [c2 _] := @pat_call I1 I2 Mint _ Qj Rj (fun a => arg a.2 (fun=> 0)) (fun a => o_int1 a.1) Si
  (fun a h => let: And4 (And3 h1 h2 h3) e1 e2 e3 := h in conj e2 h2) hg.
have [c3 _] := @pat_call C1 C2 Mcr _ Qj Rj (fun a => arg a.2 (fun=> 0)) (fun a => o_cr1 a.1) Sc
  (fun a h => let: And4 (And3 h1 h2 h3) e1 e2 e3 := h in conj e3 h3) hg.
have c4 : cpat Qj Rj (fun a => dce p (zend Nx Nu Nq m a.2)).
  by split; [have [q h] := fx_dce fx; exists q => a r c _|move=> a a' _ _ ->].
cbv beta iota zeta delta [dg_proc mesh_jac].
comp; last by blocks2.
comp; last by blocks2.
comp; last by apply: (cst_ident _ _ _ _ (k := fun=> _)) => a a' _.
comp; last by blocks2.
by blocks2.
Qed.

Let Rx (x x' : nat -> F) : Prop := x = x'.
Definition d2f_proc (x : nat -> F) (d : smat F) : smat F := bexec d (end_blocks Nx Nu Nq m (d2theta p (zend Nx Nu Nq m x)) 0 1).
Lemma d2f_procE o x : o_d2f (nlp_d2f p m o x) = d2f_proc x (set_zero (o_d2f o)). Proof. by []. Qed.
Lemma cst_d2f : cst true (fun=> True) Rx d2f_proc.
Proof.
have c : cpat (fun=> True) Rx (fun x => d2theta p (zend Nx Nu Nq m x)).
  by split; [have [q h] := fx_d2theta fx; exists q => a r c _|move=> a a' _ _ ->].
by cbv beta iota zeta delta [d2f_proc end_blocks]; blocks2.
Qed.

Definition okh (o : nlp F) : Prop := ok3 (o_dyn2 o) (o_int2 o) (o_cr2 o).
Let Rh (a a' : nlp F * (nat -> F) * (nat -> F)) : Prop := a.1.2 = a'.1.2 /\ a.2 = a'.2.
Let Qh (a : nlp F * (nat -> F) * (nat -> F)) : Prop := okh a.1.1.
Definition d2g_proc (a : nlp F * (nat -> F) * (nat -> F)) (d : smat F) : smat F :=
  let D1 := mvd2F (call_dyn p Kmin Kmax lgr m a.1.2 (with_lam (o_dyn2 a.1.1) a.2 (dcon_B Nx Nq Ncr Nce m))) in
  let D2 := mvd2F (call_int p Kmin Kmax lgr m a.1.2 (with_lam (o_int2 a.1.1) a.2 (qcon_B Nx Nq Ncr Nce m))) in
  let D3 := mvd2F (call_cr p Kmin Kmax lgr m a.1.2 (with_lam (o_cr2 a.1.1) a.2 (crcon_B Nx Nq Ncr Nce m))) in
  let D := d2ce p (zend Nx Nu Nq m a.1.2) in
  let w := w_scaling Kmin Kmax lgr m in
  let three r c br bc n k := [:: Bop r c (block D1 br bc n k) w true; Bop r c (block D2 br bc n k) w true;
                                 Bop r c (block D3 br bc n k) w true] in
  let tfB := tfvar_B Nx Nu Nq m in let xB := xvar_B Nx Nu Nq m in let uB := uvar_B Nx Nu Nq m in
  let xL := xvar_L Nx Nu Nq m in let uL := uvar_L Nx Nu Nq m in
  let d := bexec d
    (three tfB tfB 1 1 1 1 ++ three tfB xB 1 2 1 xL ++ three tfB uB 1 (2 + xL) 1 uL ++
     three xB xB 2 2 xL xL ++ three xB uB 2 (2 + xL) xL uL ++ three uB uB (2 + xL) (2 + xL) uL uL)%N in
  foldl (fun d j => bexec d (end_blocks Nx Nu Nq m D ((1 + 2 * Nx + Nq) * j) (a.2 (cecon_B Nx Nq Ncr Nce m + j)%N))) d (iota 0 Nce).
Lemma d2g_procE o x l : o_d2g (nlp_d2g p Kmin Kmax lgr m o x l) = d2g_proc (o, x, l) (set_zero (o_d2g o)). Proof. by []. Qed.
Lemma cst_d2g : cst true Qh Rh d2g_proc.
Proof.
have hg b (a a' : nlp F * (nat -> F) * (nat -> F)) : Rh a a' -> arg a.1.2 (fun r => a.2 (b + r)%N) = arg a'.1.2 (fun r => a'.2 (b + r)%N).
  by case=> -> ->.
have [_ c1] := @pat_call D1 D2 Mdyn _ Qh Rh (fun a => arg a.1.2 (fun r => a.2 (_ + r)%N)) (fun a => with_lam (o_dyn2 a.1.1) a.2 (dcon_B Nx Nq Ncr Nce m)) Sd
  (fun a h => let: And3 h1 h2 h3 := h in conj erefl h1) (hg _).
have [_ c2] := @pat_call I1 I2 Mint _ Qh Rh (fun a => arg a.1.2 (fun r => a.2 (_ + r)%N)) (fun a => with_lam (o_int2 a.1.1) a.2 (qcon_B Nx Nq Ncr Nce m)) Si
  (fun a h => let: And3 h1 h2 h3 := h in conj erefl h2) (hg _).
have [_ c3] := @pat_call C1 C2 Mcr _ Qh Rh (fun a => arg a.1.2 (fun r => a.2 (_ + r)%N)) (fun a => with_lam (o_cr2 a.1.1) a.2 (crcon_B Nx Nq Ncr Nce m)) Sc
  (fun a h => let: And3 h1 h2 h3 := h in conj erefl h3) (hg _).
have c4 : cpat Qh Rh (fun a => d2ce p (zend Nx Nu Nq m a.1.2)).
  by split; [have [q h] := fx_d2ce fx; exists q => a r c _|move=> a a' _ _ [-> _]].
have kk i : cnum Rh (fun a => a.2 i) by move=> a a' [_ ->].
cbv beta iota zeta delta [d2g_proc end_blocks cat].
lazymatch goal with
  |- @cst ?up ?A ?Q ?R (fun a d => foldl (fun d' j => @?G a d' j) (@?H a d) ?l) =>
    refine (@cst_comp up A Q R H (fun a d => foldl (fun d j => G a d j) d l) _ _); cbv beta end.
  by blocks2.
lazymatch goal with
  |- @cst ?up ?A ?Q ?R (fun a d => foldl (fun d' j => @?G a d' j) d ?l) =>
    refine (@cst_fold up A Q R nat (fun j a d => G a d j) l _); intro; cbv beta end.
by blocks2.
Qed.

(** The objects that the calls reach from a new one. *)
Section Inv.
Variables XJ Xf Xg : nat -> nat -> bool.
Definition sub (d : smat F) (X : nat -> nat -> bool) : Prop := forall r c, isSome (d r c) -> X r c.
Definition inv (o : nlp F) : Prop := okj o /\ okh o /\ [/\ sub (o_dg o) XJ, sub (o_d2f o) Xf & sub (o_d2g o) Xg].
Hypothesis hJ : forall a d r c, Qj a -> (isSome (d r c) -> XJ r c) -> isSome (dg_proc a (set_zero d) r c) = XJ r c.
Hypothesis vJ : forall a a' d d', Qj a -> Qj a' -> Rj a a' -> val (dg_proc a (set_zero d)) =2 val (dg_proc a' (set_zero d')).
Hypothesis uf : forall r c, Xf r c -> (r <= c)%N.
Hypothesis hf : forall x d r c, (isSome (d r c) -> Xf r c) -> isSome (d2f_proc x (set_zero d) r c) = Xf r c.
Hypothesis vf : forall x d d', val (d2f_proc x (set_zero d)) =2 val (d2f_proc x (set_zero d')).
Hypothesis ug : forall r c, Xg r c -> (r <= c)%N.
Hypothesis hg : forall a d r c, Qh a -> (isSome (d r c) -> Xg r c) -> isSome (d2g_proc a (set_zero d) r c) = Xg r c.
Hypothesis vg : forall a a' d d', Qh a -> Qh a' -> Rh a a' -> val (d2g_proc a (set_zero d)) =2 val (d2g_proc a' (set_zero d')).
Lemma inv_new : inv (@nlp_new F).
Proof. by []. Qed.
Lemma stable_call X1 X2 M a o : settles_with X1 X2 M -> mvlam o = a_l a -> stable X1 X2 o ->
  stable X1 X2 (M a o) /\ mvlam (M a o) = a_l a.
Proof. by move=> [_ h _] e st; have [-> _ h1 h2] := h a o e st; split=> // _ r c; rewrite h1 h2. Qed.
Lemma inv_jac o x : inv o -> inv (nlp_dg p Kmin Kmax lgr m o x).
Proof.
case=> [[[s1 s2 s3] e1 e2 e3]] [oh [g1 g2 g3]].
have [t1 f1] := @stable_call D1 D2 Mdyn (arg x (fun=> 0)) _ Sd e1 s1.
have [t2 f2] := @stable_call I1 I2 Mint (arg x (fun=> 0)) _ Si e2 s2.
have [t3 f3] := @stable_call C1 C2 Mcr (arg x (fun=> 0)) _ Sc e3 s3.
split; [by split|split=> //; split=> //].
by move=> r c; rewrite dg_procE hJ //; exact: g1.
Qed.
Lemma inv_hf o x : inv o -> inv (nlp_d2f p m o x).
Proof.
case=> oj [oh [g1 g2 g3]]; split=> //; split=> //; split=> //.
by move=> r c; rewrite d2f_procE hf //; exact: g2.
Qed.
Lemma inv_hg o x l : inv o -> inv (nlp_d2g p Kmin Kmax lgr m o x l).
Proof.
case=> oj [[s1 s2 s3] [g1 g2 g3]].
have [t1 _] := @stable_call D1 D2 Mdyn (arg x (fun r => l (_ + r)%N)) (with_lam (o_dyn2 o) l (dcon_B Nx Nq Ncr Nce m)) Sd erefl s1.
have [t2 _] := @stable_call I1 I2 Mint (arg x (fun r => l (_ + r)%N)) (with_lam (o_int2 o) l (qcon_B Nx Nq Ncr Nce m)) Si erefl s2.
have [t3 _] := @stable_call C1 C2 Mcr (arg x (fun r => l (_ + r)%N)) (with_lam (o_cr2 o) l (crcon_B Nx Nq Ncr Nce m)) Sc erefl s3.
split=> //; split=> //; split=> //.
by move=> r c; rewrite d2g_procE hg //; exact: g3.
Qed.
Lemma inv_ok jl ju : nlp_ok (ocp_problem jl ju) inv (fun x => val (o_dg (nlp_dg p Kmin Kmax lgr m (@nlp_new F) x)))
  (fun x => val (o_d2f (nlp_d2f p m (@nlp_new F) x))) (fun x l => val (o_d2g (nlp_d2g p Kmin Kmax lgr m (@nlp_new F) x l)))
  XJ (fun r c => Xf r c || Xg r c).
Proof.
split; cbn [p_n p_m p_rm p_f p_df p_g p_dg p_d2f p_d2g ocp_problem fst snd] => //.
- exact: inv_jac.
- exact: inv_hf.
- exact: inv_hg.
- by move=> o x r c [oj _] _ _; rewrite !dg_procE; apply: vJ.
- by move=> o x r c [oj [_ [h _ _]]] _ _; rewrite dg_procE hJ //; exact: h.
- by move=> o x r c _ _ _; rewrite !d2f_procE; apply: vf.
- by move=> o x l r c [_ [oh _]] _ _; rewrite !d2g_procE; apply: vg.
- by move=> o x r c [oj [_ [_ h _]]] _ _; rewrite d2f_procE hf => [->//|]; exact: h.
- by move=> o x l r c [_ [oh [_ _ h]]] _ _; rewrite d2g_procE hg // => [->//|]; [rewrite orbT|exact: h].
- move=> o o' r c [_ [_ [_ h _]]] [_ [oh [_ _ h']]] _ _.
  by rewrite d2f_procE d2g_procE hf ?hg //; [exact: h'|exact: h].
- by move=> r c /orP[/uf|/ug].
Qed.
End Inv.
End Cst.
Lemma ocp_ok jl ju : exists inv pJ pH, nlp_ok (ocp_problem jl ju) inv (fun x => val (o_dg (nlp_dg p Kmin Kmax lgr m (@nlp_new F) x)))
  (fun x => val (o_d2f (nlp_d2f p m (@nlp_new F) x))) (fun x l => val (o_d2g (nlp_d2g p Kmin Kmax lgr m (@nlp_new F) x l))) pJ pH /\
  inv (@nlp_new F).
Proof.
have [D1 [D2 Sd]] : settles Mdyn by exact: (settles_dyn _ (fx_ddyn fx) (fx_d2dyn fx)).
have [I1 [I2 Si]] : settles Mint by exact: (settles_int Nq _ (fx_dint fx) (fx_d2int fx)).
have [C1 [C2 Sc]] : settles Mcr by exact: (settles_eval Ncr _ (fx_dcr fx) (fx_d2cr fx)).
have [XJ _ [hJ vJ]] := cst_pat (cst_dg Sd Si Sc).
have [Xf uf [hf vf]] := cst_pat cst_d2f.
have [Xg ug [hg vg]] := cst_pat (cst_d2g Sd Si Sc).
exists (inv D1 D2 I1 I2 C1 C2 XJ Xf Xg), XJ, (fun r c => Xf r c || Xg r c); split=> //.
apply: inv_ok => //.
- by move=> r c; apply: uf.
- by move=> x d r c; apply: hf.
- by move=> x d d'; apply: vf.
- by move=> r c; apply: ug.
Qed.

(** * C70 for optimal control problems *)
Variable (kinc : nat -> F -> F -> nat).
Hypotheses (k0 : (0 < Kmin)%N) (km : (Kmin <= Kmax)%N).
Hypothesis rm : reachable Kmin Kmax kinc m.
Hypothesis hN : (\sum_(i < size m) N_colloc_ival m i < uint_mod)%N.
Hypothesis dd : ocp_derivs p.
Local Notation G o x := (o_g (nlp_g p Kmin Kmax lgr m o x)).
Variables (jl ju : nat -> ext F) (uh : bool) (H0 : smat F).
Local Notation P := (ocp_problem jl ju).
Local Notation info := (get_nlp_info P uh (Ist (@nlp_new F) H0)).
(** The triplets that IPOPT gets, after any calls, are the partial derivatives of the constraints (of any object o). *)
Theorem C70_ocp_jacobian h h' x o r c : calls_ok uh h -> calls_ok uh h' -> (r < mm)%N -> (c < n)%N ->
  let L := (eval_jac_s P (run P info.1 h)).2 in
  let V := (eval_jac_v P (run P info.1 h') x).2 in
  [/\ size L = info.2.1.2, size V = info.2.1.2 & partialn (fun x => G o x r) x c (trip L V r c)].
Proof.
move=> ch ch' hr hc L V; have [iv [pJ [pH [ok i0]]]] := ocp_ok jl ju.
have [e1 e2 _ e3] := C70_jacobian ok H0 i0 x ch ch'; split=> //.
by rewrite /L /V e3 //; exact: (C37_jacobian lgr k0 km rm hN).
Qed.
(** The entries of the Hessian of the Lagrangian sigma * f + sum lambda_r g_r that IPOPT gets, except for the products of
    q and x0 or xf. *)
Theorem C70_ocp_hessian_partial h h' x sg lam o a b : uh -> calls_ok uh h -> calls_ok uh h' -> (a <= b < n)%N ->
  ~~ cross Nx Nq m a b ->
  let L := (eval_h_s P (run P info.1 h)).2 in
  let V := (eval_h_v P (run P info.1 h') x sg lam).2 in
  [/\ size L = info.2.2, size V = info.2.2, forall p, p \in L -> (p.2 <= p.1 < n)%N &
    hessn (fun x => sg * nlp_f p m x + \sum_(r < mm) lam r * G o x r) x a b (trip L V b a)].
Proof.
move=> u ch ch' hab nc L V; have [iv [pJ [pH [ok i0]]]] := ocp_ok jl ju.
have [e1 e2 e4 e3] := C70_hessian ok H0 i0 x sg lam u ch ch'; split=> //.
rewrite /L /V e3 //; apply: hessn_add; first apply: hessn_scale.
  exact: (C38_objective_partial k0 km rm hN).
exact: (C38_lagrangian_partial lgr k0 km rm hN).
Qed.
End Ocp.
End Pat.
