(** More cases for the theorems on flattening, counterexamples, and assumptions. *)
From mathcomp Require Import all_ssreflect all_algebra.
From mathcomp.algebra_tactics Require Import ring.
From Verif Require Import Calc QpModel QpSpec FlatModel FlatSpec FlatFacts FlatProps FlatThms FlatThms2 FlatBern FlatThms3 FlatGroup FlatCases.
Set Implicit Arguments.
Unset Strict Implicit.
Unset Printing Implicit Defensive.
Import Order.TTheory GRing.Theory Num.Theory.
Local Open Scope ring_scope.

Section Bern.
Variable F : realFieldType.
(** Bernoulli numbers exist: the list of the first n of them. *)
Fixpoint bl (n : nat) : seq F := if n is m.+1 then
  rcons (bl m) (if m == 0%N then 1 else - (\sum_(k < m) 'C(m.+1, k)%:R * nth 0 (bl m) k) / m.+1%:R) else [::].
Definition bern (n : nat) : F := nth 0 (bl n.+1) n.
Lemma size_bl n : size (bl n) = n. Proof. by elim: n => //= n IH; rewrite size_rcons IH. Qed.
Lemma bl_nth n k : (k < n)%N -> nth 0 (bl n) k = bern k.
Proof.
elim: n => // n IH; rewrite ltnS leq_eqVlt => /orP[/eqP ->//|kn].
by rewrite /= nth_rcons size_bl kn IH.
Qed.
Lemma bern_ok : is_bernoulli bern.
Proof.
split=> [|n n0]; first by [].
rewrite big_ord_recr /= binSn /bern /= nth_rcons size_bl ltnn eqxx gtn_eqF //.
rewrite (eq_bigr (fun k : 'I_n => 'C(n.+1, k)%:R * nth 0 (bl n) k)); last by move=> k _; rewrite bl_nth //.
by rewrite mulrCA divff ?pnatr_eq0 // mulr1 subrr.
Qed.
Example ex_C69_table : nth 0 (kBn F) 22 = bern 22.
Proof. exact: (proj2 (C69_table bern_ok)). Qed.
Let i0 : 'I_3 := @Ordinal 3 0 isT.
Let i1 : 'I_3 := @Ordinal 3 1 isT.
Let i2 : 'I_3 := @Ordinal 3 2 isT.
Example ex_C69_inverse (w : 'cV[F]_3) := @C69_inverse F 3 (adH (delta_mx i0 0)) w
  (fun n h => Nil2_nil (@adHa F) (@adHn F) (delta_mx i0 0) w (leq_trans (isT : (2 <= 23)%N) h)).

(** Products of two additive coordinates are smooth. *)
Section Prod.
Variables (Y : Type) (n : nat) (plus : Y -> 'cV[F]_n -> Y) (p r : Y -> F) (kp kr : 'I_n).
Hypothesis hp : forall y a, p (plus y a) = p y + a kp 0.
Hypothesis hr : forall y a, r (plus y a) = r y + a kr 0.
Hypothesis pr : kp != kr.
Definition prodf : fn F Y n 1 := Fn (fun y => (p y * r y)%:M)
  (fun y => \matrix_(i, k) if k == kp then r y else if k == kr then p y else 0)
  (fun y i => \matrix_(a, b) if a == kp then (b == kr)%:R else if a == kr then (b == kp)%:R else 0).
Lemma prod1 : fn_ok1 plus prodf.
Proof.
move=> y i ep ep0; exists ep => // a ha.
rewrite [fval _ _ _ _]mxE [X in _ - X - _]mxE hp hr (ord1 i) eqxx !mulr1n.
rewrite (eq_bigr (fun k => (if k == kp then r y else if k == kr then p y else 0) * a k 0)); last first.
  by move=> k _; rewrite [fjac _ _ _ _]mxE.
rewrite (sel2 _ _ (fun k => a k 0) pr).
have -> : (p y + a kp 0) * (r y + a kr 0) - p y * r y - (r y * a kp 0 + p y * a kr 0) = a kp 0 * a kr 0 by ring.
rewrite normrM; apply: ler_pmul => //; rewrite (bigD1 kr) //= ler_addl; exact: sumr_ge0.
Qed.
Lemma prod2 : fn_ok2 plus prodf.
Proof.
move=> y i k ep ep0; exists ep => // a ha.
rewrite [fjac _ _ _ _]mxE [X in _ - X - _]mxE hp hr.
have -> : \sum_l fhess prodf y i k l * a l 0 = if k == kp then a kr 0 else if k == kr then a kp 0 else 0.
  have S l0 : \sum_(l < n) (l == l0)%:R * a l 0 = a l0 0.
    by rewrite (bigD1 l0) //= eqxx mul1r big1 ?addr0 // => l /negbTE ->; rewrite mul0r.
  rewrite (eq_bigr (fun l => (if k == kp then (l == kr)%:R else if k == kr then (l == kp)%:R else 0) * a l 0)); last first.
    by move=> l _; rewrite [fhess _ _ _ _ _]mxE.
  case: (k == kp); first exact: S.
  by case: (k == kr); [exact: S|rewrite big1 // => l _; rewrite mul0r].
have z (x : F) : x = 0 -> `|x| <= ep * \sum_l `|a l 0| by move=> ->; rewrite normr0 mulr_ge0 ?(ltW ep0) // sumr_ge0.
by apply: z; case: (k == kp); [|case: (k == kr)]; ring.
Qed.
End Prod.

(** C68 for the end cost xf0 q. *)
Local Notation H := (Heis F).
Let kf : 'I_(1 + (3 + (3 + 1))) := rshift 1 (rshift 3 (lshift 1 i0)).
Let kq : 'I_(1 + (3 + (3 + 1))) := rshift 1 (rshift 3 (rshift 3 0)).
Definition thH : fn F (F * (car H * (car H * 'cV[F]_1))) (1 + (3 + (3 + 1))) 1 :=
  prodf (fun y : F * ('cV[F]_3 * ('cV[F]_3 * 'cV[F]_1)) => y.2.2.1 i0 0) (fun y => y.2.2.2 0 0) kf kq.
Lemma plus_f (y : F * ('cV[F]_3 * ('cV[F]_3 * 'cV[F]_1))) (a : 'cV[F]_(1 + (3 + (3 + 1)))) :
  (@lplus F (Bendpt H 1) y a).2.2.1 i0 0 = y.2.2.1 i0 0 + a kf 0.
Proof. by rewrite /= !addE scE adHE /= mulr0 addr0 !mxE. Qed.
Lemma plus_q (y : F * ('cV[F]_3 * ('cV[F]_3 * 'cV[F]_1))) (a : 'cV[F]_(1 + (3 + (3 + 1)))) :
  (@lplus F (Bendpt H 1) y a).2.2.2 0 0 = y.2.2.2 0 0 + a kq 0.
Proof. by rewrite /= !addE !mxE. Qed.
Lemma thH1 : fn_ok1 (@lplus F (Bendpt H 1)) thH. Proof. by apply: (@prod1 _ _ (@lplus F (Bendpt H 1))); [exact: plus_f|exact: plus_q|]. Qed.
Lemma thH2 : fn_ok2 (@lplus F (Bendpt H 1)) thH. Proof. by apply: (@prod2 _ _ (@lplus F (Bendpt H 1))); [exact: plus_f|exact: plus_q]. Qed.
Example ex_C68_end_jac z k := @C68_end_jacobian F H _ 1 (@Heis_ok F) (xlH F) (@xlH_v F) 1 thH z 0 k thH1.
Example ex_C68_end_hess z a b := @C68_end_hessian F H _ 1 (@Heis_ok F) (xlH F) (@xlH_v F) 1 thH z 0 a b thH1 thH2 (@xlH_a F _).

(** C78 *)
Definition xlC : curve H := @Curve F H (fun _ => 0) (fun _ => 0).
Lemma velc (G : lie F) (D : 'cV[F]_(dof G) -> Prop) (x : car G) t : lie_ok D -> vel (@lplus F G) (fun _ => x) t 0.
Proof.
move=> o ep ep0; exists 1; first exact: ltr01.
move=> h _; exists 0; first by rewrite (ok_zero o).
by move=> k; rewrite mxE mulr0 subrr normr0 mulr_ge0 // ltW.
Qed.
Lemma xlC_v t : vel (@lplus F H) (cv xlC) t (dcv xlC t). Proof. exact: (@velc H (fun _ => True) (0 : 'cV[F]_3) t (@Heis_ok F)). Qed.
Definition fC : fn F (F * (car H * car (Rn F 1))) (1 + (dof H + dof (Rn F 1))) (dof H) :=
  @Fn F _ (1 + (3 + 1)) 3 (fun _ => delta_mx i1 0) (fun _ => 0) (fun _ _ => 0).
Example ex_C78 (t : F) (v : F -> 'cV[F]_1) (l : 'cV[F]_3) := @C78_multiplier F H (Rn F 1) _ (@Heis_ok F) (xlH F) (ulH F) (@xlH_v F) (fH' F)
  (fun s => s *: delta_mx i1 0) v t _ _ l I (derivv_line (delta_mx i1 0) t) (ok_vel (@Heis_ok F) (@xlH_v F t) (derivv_line (delta_mx i1 0) t)).

(** unflatten_ocpsol copies the multipliers of the dynamics. In the Heisenberg group, with the reference at the
    identity and a constant deviation (1, 0, 0), dynamics (0, 1, 0) and multiplier (0, 0, 1), the Lagrangian terms
    of the flattened and of the original dynamics differ. *)
Theorem C78_refuted : exists (X U : lie F) (D : 'cV[F]_(dof X) -> Prop) (xl : curve X) (ul : curve U) (nq ncr nce : nat)
    (o : gocp X U nq ncr nce) (s : gsol (Rn F (dof X)) (Rn F (dof U)) nq ncr nce) t w de,
  let s' := unflatten_ocpsol s (cv xl) (cv ul) in
  [/\ lie_ok D, forall t, vel (@lplus F X) (cv xl) t (dcv xl t), forall e, D e &
      derivv (g_x s) t de /\ vel (@lplus F X) (g_x s') t w] /\
  (g_ldyn s' t)^T *m (w - fval (o_f o) (t, (g_x s' t, g_u s' t))) !=
  (g_ldyn s t)^T *m (de - fval (o_f (flatten_ocp o xl ul)) (t, (g_x s t, g_u s t))).
Proof.
pose th : fn F (F * (car H * (car H * 'cV[F]_0))) (1 + (3 + (3 + 0))) 1 := Fn (fun _ => 0) (fun _ => 0) (fun _ _ => 0).
pose z : fn F (F * (car H * car (Rn F 1))) (1 + (3 + 1)) 0 := Fn (fun _ => 0) (fun _ => 0) (fun _ _ => 0).
pose z' : fn F (F * (car H * (car H * 'cV[F]_0))) (1 + (3 + (3 + 0))) 0 := Fn (fun _ => 0) (fun _ => 0) (fun _ _ => 0).
pose o : gocp H (Rn F 1) 0 0 0 := @Gocp F H (Rn F 1) 0 0 0 th fC z z (fun _ => @NegInf F) (fun _ => @PosInf F) z' (fun _ => @NegInf F) (fun _ => @PosInf F).
pose s : gsol (Rn F 3) (Rn F 1) 0 0 0 := @Gsol F (Rn F 3) (Rn F 1) 0 0 0 0 1 0 (fun _ => 0) (fun _ => delta_mx i0 0) 0 0 (fun _ => delta_mx i2 0) (fun _ => 0).
exists H, (Rn F 1), (fun _ => True), xlC, (ulH F), 0%N, 0%N, 0%N, o, s, 0, 0, 0; split.
  split=> //; [exact: Heis_ok|exact: xlC_v|split; first exact: derivv_const].
  exact: (@velc H (fun _ => True) (@lplus F H (0 : 'cV[F]_3) (delta_mx i0 0)) 0 (@Heis_ok F)).
have E (M : 'cV[F]_3) : ((delta_mx i2 0 : 'cV[F]_3)^T *m M) 0 0 = M i2 0 by rewrite trmx_delta -matrix.rowE mxE.
apply/eqP => /(congr1 (fun M : 'M[F]_1 => M 0 0)); rewrite /= !E /dyn_op /= subr0 mulmx0 addr0 !sub0r.
rewrite mulmxDl mul1mx -scalemxAl !oppE addE scE adHE /= !mxE /= !mulr1 mulr0 subr0 add0r => /eqP.
by rewrite eqr_opp eq_sym mulr1 invr_eq0 pnatr_eq0.
Qed.

(** The derivatives leave out the acceleration of the reference. For the reference t^2 on the line and f = 0, the
    flattened dynamics are -2 t, but the Jacobian says that they do not depend on t. *)
Local Notation L := (Rn F 1).
Definition xlA : curve L := @Curve F L (fun t => (t ^+ 2)%:M) (fun t => (t *+ 2)%:M).
Lemma xlA_v t : vel (@lplus F L) (cv xlA) t (dcv xlA t).
Proof.
apply/(velRn (n := 1)) => k; rewrite (ord1 k) !mxE eqxx mulr1n.
apply: (@deriv_ext _ (fun s => s * s)); first by move=> s; rewrite mxE eqxx mulr1n.
by apply: deriv_eq (deriv_mul (deriv_id t) (deriv_id t)); rewrite mul1r mulr1 mulr2n.
Qed.
Definition f0 : fn F (F * (car L * car L)) (1 + (1 + 1)) 1 := Fn (fun _ => 0) (fun _ => 0) (fun _ _ => 0).
Lemma f01 : fn_ok1 (@lplus F (Binner L L)) f0.
Proof.
move=> y i ep ep0; exists 1; first exact: ltr01.
move=> a _; rewrite /= !mxE big1; last by move=> k _; rewrite mxE mul0r.
by rewrite !subr0 normr0 mulr_ge0 ?(ltW ep0) // sumr_ge0.
Qed.
Theorem C77_accel_refuted : exists (X U : lie F) (D : 'cV[F]_(dof X) -> Prop) (D' : 'cV[F]_(dof U) -> Prop) (xl : curve X) (ul : curve U)
    (f : fn F (F * (car X * car U)) (1 + (dof X + dof U)) (dof X)) z j k d,
  [/\ lie_ok D, lie_ok D', forall t, vel (@lplus F X) (cv xl) t (dcv xl t), forall t, vel (@lplus F U) (cv ul) t (dcv ul t) &
      fn_ok1 (@lplus F (Binner X U)) f] /\
  partial (fun z => dyn_op f xl ul (vt z) (ve z) (vv z) j 0) z k d /\ dyn_jac f xl ul (vt z) (ve z) (vv z) j k != d.
Proof.
exists L, L, (fun _ => True), (fun _ => True), xlA, (ulH F), f0, 0, 0, (lshift 2 0), (- 2%:R); split.
  by split; [exact: Rn_ok|exact: Rn_ok|exact: xlA_v|exact: ulH_v|exact: f01].
split.
  rewrite /partial; apply: (@deriv_ext _ (fun s => - 2%:R * s)).
    move=> s; rewrite /dyn_op /= mul1mx mul0mx addr0 sub0r oppE mxE eqxx mulr1n /vt mxE eqxx mulNr mulrC.
    by rewrite mulr_natr.
  by rewrite -[X in deriv _ _ X]mulr1; apply: deriv_scale; exact: deriv_id.
rewrite /dyn_jac /= mulmx0 mul0mx add0r addE !row_mxEl !mxE addr0 eq_sym oppr_eq0.
by rewrite pnatr_eq0.
Qed.
(** Likewise the Hessian of a flattened cost x is 0 for the code, though x = t^2 + e. *)
Definition fx : fn F (F * (car L * car L)) (1 + (1 + 1)) 1 :=
  Fn (fun y : F * ('cV[F]_1 * 'cV[F]_1) => y.2.1) (fun _ => row_mx 0 (row_mx 1%:M 0)) (fun _ _ => 0).
Lemma fx1 : fn_ok1 (@lplus F (Binner L L)) fx.
Proof.
move=> y i ep ep0; exists 1; first exact: ltr01.
move=> a _; rewrite /= addE (@big_split_ord _ _ _ 1 2) /= big1 => [|k _]; last by rewrite row_mxEl mxE mul0r.
rewrite (@big_split_ord _ _ _ 1 1) /= [X in _ + (_ + X)]big1 => [|k _]; last by rewrite row_mxEr row_mxEr mxE mul0r.
rewrite big_ord1 row_mxEr row_mxEl (ord1 i) [1%:M _ _]mxE eqxx mul1r add0r addr0 [y.2.1 _ _ + _]addrC addrK !mxE subrr normr0.
by rewrite mulr_ge0 ?(ltW ep0) // sumr_ge0.
Qed.
Lemma fx2 : fn_ok2 (@lplus F (Binner L L)) fx.
Proof.
move=> y i k ep ep0; exists 1; first exact: ltr01.
move=> a _; rewrite /= subrr big1; last by move=> l _; rewrite mxE mul0r.
by rewrite subr0 normr0 mulr_ge0 ?(ltW ep0) // sumr_ge0.
Qed.
Lemma fog0 (m n p : nat) (Jf : 'M[F]_(m, n)) (Jg : 'M[F]_(n, p)) Hg j : (forall k, Hg k = 0) -> fog Jf (fun _ => 0) Jg Hg j = 0.
Proof. by move=> h; rewrite /fog mulmx0 mul0mx add0r big1 // => k _; rewrite h scaler0. Qed.
Theorem C68_accel_refuted : exists (X U : lie F) (D : 'cV[F]_(dof X) -> Prop) (D' : 'cV[F]_(dof U) -> Prop) (xl : curve X) (ul : curve U)
    (f : fn F (F * (car X * car U)) (1 + (dof X + dof U)) 1) z a b d,
  [/\ lie_ok D, lie_ok D', forall t, vel (@lplus F X) (cv xl) t (dcv xl t), forall t, vel (@lplus F U) (cv ul) t (dcv ul t) &
      fn_ok1 (@lplus F (Binner X U)) f /\ fn_ok2 (@lplus F (Binner X U)) f] /\
  hess (fun z => inner_op f xl ul (vt z) (ve z) (vv z) 0 0) z a b d /\ inner_hess f xl ul (vt z) (ve z) (vv z) 0 a b != d.
Proof.
exists L, L, (fun _ => True), (fun _ => True), xlA, (ulH F), fx, 0, (lshift 2 0), (lshift 2 0), 2%:R; split.
  by split; [exact: Rn_ok|exact: Rn_ok|exact: xlA_v|exact: ulH_v|split; [exact: fx1|exact: fx2]].
split.
  exists (fun w => 2%:R * w (lshift 2 0) 0).
    move=> w; rewrite /partial; apply: (@deriv_ext _ (fun s => s * s + w (rshift 1 (lshift 1 0)) 0)).
      by move=> s; rewrite /inner_op /= addE [X in _ = X + _]mxE eqxx mulr1n /vt /ve !mxE.
    apply: deriv_eq (deriv_add (deriv_mul (deriv_id _) (deriv_id _)) (deriv_const _ _)).
    by rewrite mul1r mulr1 addr0 -mulr2n mulr_natl.
  rewrite /partial -[X in deriv _ _ X]mulr1; apply: (@deriv_ext _ (fun s => 2%:R * s)); first by move=> s; rewrite mxE eqxx.
  by apply: deriv_scale; exact: deriv_id.
rewrite /inner_hess /= fog0 ?mxE 1?eq_sym ?pnatr_eq0 // => k.
rewrite /hoplus; case: (split k) => // {}k; case: (split k) => {}k; rewrite /dAdexp /= !mul0mx row0 row_mx0 block_mx0.
all: exact: block_mx0.
Qed.
End Bern.

Print Assumptions C67_dynamics.
Print Assumptions C67_problem.
Print Assumptions C67_optimal.
Print Assumptions C68_inner_jacobian.
Print Assumptions C68_inner_hessian.
Print Assumptions C68_end_jacobian.
Print Assumptions C68_end_hessian.
Print Assumptions C68_accel_refuted.
Print Assumptions C69_table.
Print Assumptions C69_inverse.
Print Assumptions C77_jacobian.
Print Assumptions C77_hessian_partial.
Print Assumptions C77_hessian.
Print Assumptions C77_accel_refuted.
Print Assumptions C78_multiplier.
Print Assumptions C78_refuted.
