(** C77: Jacobian and Hessian of the flattened dynamics. *)
From mathcomp Require Import all_ssreflect all_algebra.
From mathcomp.algebra_tactics Require Import ring.
From Verif Require Import Calc QpModel QpSpec FlatModel FlatSpec FlatFacts FlatProps FlatThms FlatBern.
Set Implicit Arguments.
Unset Strict Implicit.
Unset Printing Implicit Defensive.
Import Order.TTheory GRing.Theory Num.Theory.
Local Open Scope ring_scope.

Lemma addE (V : zmodType) m n (A B : 'M[V]_(m, n)) i j : (A + B) i j = A i j + B i j. Proof. by rewrite mxE. Qed.
Lemma oppE (V : zmodType) m n (A : 'M[V]_(m, n)) i j : (- A) i j = - A i j. Proof. by rewrite mxE. Qed.
Section Lad.
Variable F : realFieldType.
Variables (X : lie F) (DX : 'cV[F]_(dof X) -> Prop).
Hypothesis oX : lie_ok DX.
Let nx := dof X.
Lemma ladD (a b : 'cV[F]_nx) : lad (a + b) = lad a + lad b.
Proof. by have := ok_lin oX 1 a b; rewrite !scale1r. Qed.
Lemma ladZ (c : F) (a : 'cV[F]_nx) : lad (c *: a) = c *: lad a.
Proof. by have := ok_lin oX c a 0; rewrite (lad0 oX) !addr0. Qed.
Lemma lad_sum (I : Type) (r : seq I) (c : I -> F) (a : I -> 'cV[F]_nx) : lad (\sum_(i <- r) c i *: a i) = \sum_(i <- r) c i *: lad (a i).
Proof. by elim: r => [|i r IH]; rewrite ?big_nil ?(lad0 oX) // !big_cons (ok_lin oX) IH. Qed.
Lemma lad_basis (a : 'cV[F]_nx) : lad a = \sum_k a k 0 *: lad (delta_mx k 0 : 'cV[F]_nx).
Proof.
rewrite -lad_sum; congr lad; apply/matrixP => i j; rewrite (ord1 j) summxE (bigD1 i) //= big1.
  by rewrite !mxE !eqxx mulr1 addr0.
by move=> k ki; rewrite !mxE eq_sym (negbTE ki) mulr0.
Qed.
Lemma lad_deriv (e : F -> 'cV[F]_nx) s w i j : derivv e s w -> deriv (fun r => lad (e r) i j) s (lad w i j).
Proof.
move=> h; rewrite (lad_basis w) summxE.
apply: (@deriv_ext _ (fun r => \sum_k lad (delta_mx k 0 : 'cV[F]_nx) i j * e r k 0)).
  by move=> r; rewrite (lad_basis (e r)) summxE; apply: eq_bigr => k _; rewrite mxE mulrC.
rewrite (eq_bigr (fun k => lad (delta_mx k 0 : 'cV[F]_nx) i j * w k 0)); last by move=> k _; rewrite mxE mulrC.
by apply: deriv_sum => k _; exact: deriv_scale.
Qed.
(** Products with the reordered generators. *)
Lemma gens_reE p (A B : 'M[F]_(nx, p)) k a b : (A^T *m gens_re k *m B) a b = (lad (col a A) *m col b B) k 0.
Proof.
rewrite -mulmxA !mxE (lad_basis (col a A)).
rewrite [RHS](eq_bigr (fun c => \sum_i A i a * (gens i k c * B c b))); last first.
  by move=> c _; rewrite summxE mulr_suml; apply: eq_bigr => i _; rewrite !mxE mulrA.
rewrite exchange_big; apply: eq_bigr => i _; rewrite !mxE -mulr_sumr; congr (_ * _).
by apply: eq_bigr => c _; rewrite mxE.
Qed.
End Lad.

Section Dyn.
Variable F : realFieldType.
Variables (X U : lie F) (DX : 'cV[F]_(dof X) -> Prop) (DU : 'cV[F]_(dof U) -> Prop).
Hypotheses (oX : lie_ok DX) (oU : lie_ok DU).
Variables (xl : curve X) (ul : curve U).
Hypothesis xv : forall t, vel (@lplus F X) (cv xl) t (dcv xl t).
Hypothesis uv : forall t, vel (@lplus F U) (cv ul) t (dcv ul t).
Let nx := dof X.
Let nu := dof U.
Variables (f : fn F (F * (car X * car U)) (1 + (nx + nu)) nx).
Hypothesis f1 : fn_ok1 (@lplus F (Binner X U)) f.
(** The reference moves with constant velocity. *)
Hypothesis ax : forall t, derivv (dcv xl) t 0.

(** Directions of e. *)
Definition Esel : 'M[F]_(nx, 1 + (nx + nu)) := row_mx 0 (row_mx 1%:M 0).
Lemma EselE m (M : 'M[F]_(m, nx)) : row_mx 0 (row_mx M 0) = M *m Esel.
Proof. by rewrite /Esel !mul_mx_row !mulmx0 mulmx1. Qed.
Lemma EselT m (M : 'M[F]_(nx, m)) : col_mx 0 (col_mx M 0) = Esel^T *m M.
Proof. by rewrite /Esel !tr_row_mx !trmx0 trmx1 !mul_col_mx !mul0mx mul1mx. Qed.
Lemma Esel_col k : col k Esel = usubmx (dsubmx (delta_mx k 0)).
Proof.
rewrite -delta_col /Esel -{1}(vsubmxK (delta_mx k 0)) mul_row_col mul0mx add0r.
by rewrite -{1}(vsubmxK (dsubmx (delta_mx k 0))) mul_row_col mul0mx addr0 mul1mx.
Qed.
Lemma ve_deriv (z : 'cV[F]_(1 + (nx + nu))) k : derivv (fun s => ve (setc z k s)) (z k 0) (col k Esel).
Proof. rewrite Esel_col; exact: derivv_u (derivv_d (derivv_setc z k _)). Qed.
Lemma dxl_deriv (z : 'cV[F]_(1 + (nx + nu))) k i : deriv (fun s => dcv xl (vt (setc z k s)) i 0) (z k 0) 0.
Proof.
case: (split_ordP k) => {k} k ->.
  rewrite (ord1 k); have := ax (z (lshift _ 0) 0) i; rewrite mxE; apply: deriv_ext => s.
  by rewrite /vt mxE eqxx.
apply: deriv_ext (deriv_const (dcv xl (vt z) i 0) _) => s.
by rewrite /vt mxE eq_lrshift.
Qed.
Lemma dexpinv_deriv (z : 'cV[F]_(1 + (nx + nu))) k i j : DX (ve z) ->
  deriv (fun s => dexpinv (ve (setc z k s)) i j) (z k 0) (\sum_l d2expinv (ve z) i j l * Esel l k).
Proof.
move=> De; case: (split_ordP k) => {k} k ->.
  rewrite big1 => [|l _]; last by rewrite /Esel row_mxEl mxE mulr0.
  by apply: deriv_ext (deriv_const (dexpinv (ve z) i j) _) => s; rewrite /ve setc_dl.
case: (split_ordP k) => {k} k ->.
  rewrite (bigD1 k) //= big1 => [|l lk]; last by rewrite /Esel row_mxEr row_mxEl mxE (negbTE lk) mulr0.
  rewrite /Esel row_mxEr row_mxEl mxE eqxx mulr1 addr0.
  have := ok_d2i oX i j k De; rewrite /partial /ve !mxE; apply: deriv_ext => s.
  by rewrite setc_dr setc_ul.
rewrite big1 => [|l _]; last by rewrite /Esel !row_mxEr mxE mulr0.
by apply: deriv_ext (deriv_const (dexpinv (ve z) i j) _) => s; rewrite /ve setc_dr setc_ur.
Qed.
Lemma fval_deriv (z : 'cV[F]_(1 + (nx + nu))) k i :
  deriv (fun s => fval f (point (xul xl ul) (setc z k s)) i 0) (z k 0) ((fjac f (point (xul xl ul) z) *m Jp (xul xl ul) z) i k).
Proof. exact: (@gen_jac _ _ _ (pair_ok oX oU) (xul xl ul) (xul_v xv uv) _ f f1 z i k). Qed.

Theorem C77_jacobian z j k : DX (ve z) ->
  partial (fun z => dyn_op f xl ul (vt z) (ve z) (vv z) j 0) z k (dyn_jac f xl ul (vt z) (ve z) (vv z) j k).
Proof.
move=> De; rewrite /partial; pose y := point (xul xl ul).
have -> : dyn_jac f xl ul (vt z) (ve z) (vv z) j k =
  \sum_i ((\sum_l d2expinv (ve z) j i l * Esel l k) * (fval f (y (setc z k (z k 0))) i 0 - dcv xl (vt (setc z k (z k 0))) i 0) +
     dexpinv (ve (setc z k (z k 0))) j i * ((fjac f (y z) *m Jp (xul xl ul) z) i k - 0)) +
  \sum_i (lad (col k Esel) j i * dcv xl (vt (setc z k (z k 0))) i 0 + lad (ve (setc z k (z k 0))) j i * 0).
  rewrite setc_id /dyn_jac joplusE !EselE -/(y z) mxE [X in X + _]mxE -mulmxA; congr (_ + _).
    rewrite [X in X + _]mxE [X in _ + X]mxE addrC big_split /=; congr (_ + _); last first.
      by apply: eq_bigr => i _; rewrite subr0.
    rewrite [LHS](eq_bigr (fun l => \sum_i (fval f (y z) i 0 - dcv xl (vt z) i 0) * d2expinv (ve z) j i l * Esel l k)); last first.
      by move=> l _; rewrite mxE mulr_suml.
    rewrite exchange_big; apply: eq_bigr => i _; rewrite mulr_suml; apply: eq_bigr => l _; ring.
  rewrite mxE [LHS](eq_bigr (fun l => \sum_i dcv xl (vt z) i 0 * d_ad j i l * Esel l k)); last first.
    by move=> l _; rewrite mxE mulr_suml.
  rewrite exchange_big; apply: eq_bigr => i _; rewrite mulr0 addr0 (lad_basis oX (col k Esel)) summxE mulr_suml.
  apply: eq_bigr => l _; rewrite [d_ad _ _ _]mxE [in RHS]mxE [col _ _ _ _]mxE /gens.
  by move: (lad _ j i) (Esel l k) (dcv _ _ _ _) => a b c; ring.
apply: (@deriv_ext _ (fun s => \sum_i dexpinv (ve (setc z k s)) j i * (fval f (y (setc z k s)) i 0 - dcv xl (vt (setc z k s)) i 0) +
   \sum_i lad (ve (setc z k s)) j i * dcv xl (vt (setc z k s)) i 0)).
  by move=> s; rewrite /dyn_op mxE; congr (_ + _); rewrite mxE //; apply: eq_bigr => i _; rewrite !mxE.
apply: deriv_add; apply: deriv_sum => i _; apply: deriv_mul.
- exact: dexpinv_deriv.
- by apply: deriv_sub; [exact: fval_deriv|exact: dxl_deriv].
- by apply: lad_deriv; [exact: oX|exact: ve_deriv].
- exact: dxl_deriv.
Qed.

Hypothesis f2 : fn_ok2 (@lplus F (Binner X U)) f.
Hypothesis au : forall t, derivv (dcv ul) t 0.
Let y z := point (xul xl ul) z.
(** ad(e)^n (f - dxl), its derivatives and second derivatives. *)
Fixpoint Vn (n : nat) (z : 'cV[F]_(1 + (nx + nu))) : 'cV[F]_nx :=
  if n is n.+1 then lad (ve z) *m Vn n z else fval f (y z) - dcv xl (vt z).
Fixpoint Jn (n : nat) (z : 'cV[F]_(1 + (nx + nu))) : 'M[F]_(nx, 1 + (nx + nu)) :=
  if n is n.+1 then lad (ve z) *m Jn n z - lad (Vn n z) *m Esel else fjac f (y z) *m Jp (xul xl ul) z.
Fixpoint Hn (n : nat) (z : 'cV[F]_(1 + (nx + nu))) (k : 'I_nx) : 'M[F]_(1 + (nx + nu)) :=
  if n is n.+1 then (\sum_c lad (ve z) k c *: Hn n z c) + Esel^T *m gens_re k *m Jn n z - (Jn n z)^T *m gens_re k *m Esel
  else fog (fjac f (y z)) (fhess f (y z)) (Jp (xul xl ul) z) (Hp (xul xl ul) z) k.

Lemma Vn_deriv n z k : derivv (fun s => Vn n (setc z k s)) (z k 0) (col k (Jn n z)).
Proof.
elim: n => [|n IH] /=.
  move=> i; rewrite mxE; apply: (@deriv_ext _ (fun s => fval f (y (setc z k s)) i 0 - dcv xl (vt (setc z k s)) i 0)).
    by move=> s; rewrite !mxE.
  by rewrite -[X in deriv _ _ X]subr0; apply: deriv_sub; [exact: fval_deriv|exact: dxl_deriv].
have := derivv_mulA (fun i j => lad_deriv oX i j (ve_deriv z k)) IH; rewrite setc_id => h i.
apply: deriv_eq (h i); congr (_ i 0).
by rewrite (ok_anti oX) linearB /= -!delta_col -!mulmxA addrC.
Qed.
Lemma acc (z : 'cV[F]_(1 + (nx + nu))) : derivv (dcv (xul xl ul)) (vt z) 0.
Proof.
move=> k; rewrite mxE; case: (split_ordP k) => {k} k ->.
  by apply: deriv_ext (_ : deriv (fun s => dcv xl s k 0) _ _) => [s|]; [rewrite col_mxEu|have := ax (vt z) k; rewrite mxE].
by apply: deriv_ext (_ : deriv (fun s => dcv ul s k 0) _ _) => [s|]; [rewrite col_mxEd|have := au (vt z) k; rewrite mxE].
Qed.
Lemma Jn_deriv n z j a b : deriv (fun s => Jn n (setc z b s) j a) (z b 0) (Hn n z j a b).
Proof.
elim: n j a b => [|n IH] j a b /=.
  exact: (@gen_jac2 _ _ _ (pair_ok oX oU) (xul xl ul) (xul_v xv uv) _ f f2 z j a b (acc z)).
have IH' : derivv (fun s => col a (Jn n (setc z b s))) (z b 0) (\col_c Hn n z c a b).
  by move=> c; rewrite mxE; apply: deriv_ext (IH c a b) => s; rewrite mxE.
have h1 := derivv_mulA (fun i j => lad_deriv oX i j (ve_deriv z b)) IH' j.
have h2 := derivv_mulA (fun i j => lad_deriv oX i j (Vn_deriv n z b)) (derivv_const (col a Esel) (z b 0)) j.
have := deriv_sub h1 h2; rewrite setc_id mulmx0 addr0 => h.
apply: (@deriv_ext _ (fun s => (lad (ve (setc z b s)) *m col a (Jn n (setc z b s))) j 0 - (lad (Vn n (setc z b s)) *m col a Esel) j 0)).
  by move=> s; rewrite -!delta_col !mulmxA !delta_col !mxE.
apply: deriv_eq h; rewrite (ok_anti oX (col b (Jn n z))) (ok_anti oX (col b Esel)).
rewrite !(addE, oppE, summxE) !(gens_reE oX) opprK.
have -> : \sum_c (lad (ve z) j c *: Hn n z c) a b = (lad (ve z) *m (\col_c Hn n z c a b)) j 0.
  by rewrite mxE; apply: eq_bigr => c _; rewrite !mxE.
by rewrite -addrA addrC.
Qed.

(** The state of the loop after n rounds. *)
Let st0 z := @Hst F X U 1 (fval f (y z) - dcv xl (vt z)) (fjac f (y z) *m Jp (xul xl ul) z)
  (fog (fjac f (y z)) (fhess f (y z)) (Jp (xul xl ul) z) (hoplus (ve z) (vv z) (dcv xl (vt z)) (dcv ul (vt z)))) (fun _ => 0).
Definition ser (n : nat) : F := nth 0 (kBn F) n * ((-1) ^+ n / n`!%:R).
Lemma loop_inv z n : let s := foldl (hstep (ve z)) (st0 z) (iota 0 n) in
  [/\ h_coef s = (-1) ^+ n / n`!%:R, h_v s = Vn n z, h_j s = Jn n z, forall k, h_h s k = Hn n z k &
      forall k, h_H s k = \sum_(i < n) ser i *: Hn i z k].
Proof.
elim: n => [|n IH].
  split=> //=; first by rewrite expr0 fact0 divr1.
    by move=> k; apply: fog_eq => l; exact: hoplusE.
  by move=> k; rewrite big_ord0.
have -> : iota 0 n.+1 = iota 0 n ++ [:: n] by rewrite -[n.+1]addn1 iotaD.
rewrite foldl_cat; case: IH; move: (foldl _ _ (iota 0 n)) => s c v j h H; split=> /=.
- rewrite c exprS factS natrM; have n0 : n`!%:R != 0 :> F by rewrite pnatr_eq0 -lt0n fact_gt0.
  have n1 : (n.+1)%:R != 0 :> F by rewrite pnatr_eq0.
  by move: n0 n1; move: (n`!%:R) (n.+1%:R) ((-1) ^+ n) => a b d a0 b0; field; rewrite ?a0 ?b0.
- by rewrite v.
- by rewrite v j EselE.
- move=> k; rewrite j EselT EselE !mulmxA; congr (_ + _ - _).
  by apply: eq_bigr => i _; rewrite h.
- move=> k; rewrite big_ord_recr /= -H /ser; case: ifP => [|/negbFE/eqP ->]; last by rewrite mul0r scale0r addr0.
  by rewrite h c.
Qed.
Lemma dyn_hessE z k : dyn_hess f xl ul (vt z) (ve z) (vv z) k = \sum_(i < 23) ser i *: Hn i z k.
Proof.
rewrite /dyn_hess (_ : size (kBn F) = 23%N) // joplusE.
by have [_ _ _ _] := loop_inv z 23; apply.
Qed.
Lemma Vn_iter n z : Vn n z = iter n (mulmx (lad (ve z))) (fval f (y z) - dcv xl (vt z)).
Proof. by elim: n => //= n ->. Qed.

(** The Hessian is that of the first 23 terms of the series of dr_expinv, applied to f - dxl, and ad(e) dxl. *)
Theorem C77_hessian_partial z j a b :
  hess (fun z => (\sum_(n < 23) (nth 0 (kBn F) n * ((-1) ^+ n / n`!%:R)) *:
      iter n (mulmx (lad (ve z))) (fval f (vt z, (lplus (cv xl (vt z)) (ve z), lplus (cv ul (vt z)) (vv z))) - dcv xl (vt z)) +
      lad (ve z) *m dcv xl (vt z)) j 0)
    z a b (dyn_hess f xl ul (vt z) (ve z) (vv z) j a b).
Proof.
exists (fun z => \sum_(n < 23) ser n * Jn n z j a + (lad (col a Esel) *m dcv xl (vt z)) j 0).
  move=> w; apply: (@deriv_ext _ (fun s => \sum_(n < 23) ser n * Vn n (setc w a s) j 0 + (lad (ve (setc w a s)) *m dcv xl (vt (setc w a s))) j 0)).
    move=> s; rewrite [RHS]mxE summxE; congr (_ + _); apply: eq_bigr => n _; by rewrite [RHS]mxE -Vn_iter.
  apply: deriv_add.
    by apply: deriv_sum => n _; apply: deriv_scale; have := Vn_deriv n w a j; rewrite mxE.
  have hx : derivv (fun s => dcv xl (vt (setc w a s))) (w a 0) 0 by move=> i; rewrite mxE; exact: dxl_deriv.
  by have := derivv_mulA (fun i j => lad_deriv oX i j (ve_deriv w a)) hx j; rewrite mulmx0 addr0 setc_id.
rewrite /partial dyn_hessE summxE -[X in deriv _ _ X]addr0; apply: deriv_add.
  rewrite (eq_bigr (fun n : 'I_23 => ser n * Hn n z j a b)); last by move=> n _; rewrite mxE.
  by apply: deriv_sum => n _; apply: deriv_scale; exact: Jn_deriv.
have hx : derivv (fun s => dcv xl (vt (setc z b s))) (z b 0) 0 by move=> i; rewrite mxE; exact: dxl_deriv.
have hc i k : deriv (fun=> lad (col a Esel) i k) (z b 0) ((0 : 'M[F]_nx) i k) by rewrite mxE; exact: deriv_const.
by have := derivv_mulA hc hx j; rewrite mulmx0 mul0mx addr0 mxE.
Qed.

(** In a nilpotent group, where the series is finite, it is the Hessian of operator(). *)
Theorem C77_hessian z j a b : (forall e, DX e) ->
  (forall (e w : 'cV[F]_nx) n, (23 <= n)%N -> iter n (mulmx (lad e)) w = 0) ->
  (forall (e w : 'cV[F]_nx), dexp e *m w = \sum_(m < 23) ((-1) ^+ m / (m.+1)`!%:R) *: iter m (mulmx (lad e)) w) ->
  hess (fun z => dyn_op f xl ul (vt z) (ve z) (vv z) j 0) z a b (dyn_hess f xl ul (vt z) (ve z) (vv z) j a b).
Proof.
move=> dX nil ex; case: (C77_hessian_partial z j a b) => D D1 D2; exists D => // w.
apply: partial_ext (D1 w) => w'; rewrite /dyn_op; congr ((_ + _ : 'cV[F]_nx) j 0).
move: (fval _ _ - _) => u; have e1 : dexp (ve w') *m dexpinv (ve w') = 1%:M by apply: mulmx1C; exact: (ok_inv oX).
have -> : u = \sum_(m < 23) ((-1) ^+ m / (m.+1)`!%:R) *: iter m (mulmx (lad (ve w'))) (dexpinv (ve w') *m u).
  by rewrite -ex mulmxA e1 mul1mx.
rewrite (C69_inverse (fun n h => nil _ _ _ h)) -ex !mulmxA.
by rewrite (ok_inv oX) // mul1mx.
Qed.
End Dyn.
