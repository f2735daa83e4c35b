(** Derivatives over an arbitrary real field, by the epsilon-delta definition. *)
From mathcomp Require Import all_ssreflect all_algebra.
From mathcomp.algebra_tactics Require Import ring.
Set Implicit Arguments.
Unset Strict Implicit.
Unset Printing Implicit Defensive.
Import Order.TTheory GRing.Theory Num.Theory.
Local Open Scope ring_scope.

Section Calc.
Variable F : realFieldType.
Implicit Types (f g : F -> F) (x d : F).

(** d is the derivative of f at x. *)
Definition deriv f x d : Prop :=
  forall e, 0 < e -> exists2 dl, 0 < dl & forall h, `|h| <= dl -> `|f (x + h) - f x - d * h| <= e * `|h|.

Lemma deriv_ext f g x d : f =1 g -> deriv f x d -> deriv g x d.
Proof. by move=> fg df e e0; have [dl l0 h] := df e e0; exists dl => // k kd; rewrite -!fg h. Qed.
Lemma deriv_eq f x d d' : d = d' -> deriv f x d -> deriv f x d'. Proof. by move=> ->. Qed.
Lemma deriv_const (c : F) x : deriv (fun=> c) x 0.
Proof. by move=> e e0; exists 1 => // h _; rewrite subrr mul0r subr0 normr0 mulr_ge0 // ltW. Qed.
Lemma deriv_id x : deriv id x 1.
Proof. by move=> e e0; exists 1 => // h _; rewrite /= mul1r [x + h]addrC addrK subrr normr0 mulr_ge0 // ltW. Qed.
Lemma min_gt0 (a b : F) : 0 < a -> 0 < b -> 0 < Num.min a b.
Proof. by move=> *; rewrite lt_minr; apply/andP. Qed.
Lemma deriv_add f g x d d' : deriv f x d -> deriv g x d' -> deriv (fun s => f s + g s) x (d + d').
Proof.
move=> hf hg e e0; have e2 : 0 < e / 2%:R by rewrite divr_gt0 // ltr0n.
have [a a0 ha] := hf _ e2; have [b b0 hb] := hg _ e2; exists (Num.min a b); first exact: min_gt0.
move=> h; rewrite le_minr => /andP[/ha h1 /hb h2].
have -> : f (x + h) + g (x + h) - (f x + g x) - (d + d') * h =
  (f (x + h) - f x - d * h) + (g (x + h) - g x - d' * h) by ring.
apply: le_trans (ler_norm_add _ _) _; apply: le_trans (ler_add h1 h2) _.
by rewrite -mulrDl -splitr.
Qed.
Lemma deriv_scale f x d (c : F) : deriv f x d -> deriv (fun s => c * f s) x (c * d).
Proof.
move=> hf e e0; have c0 : 0 < 1 + `|c| by rewrite ltr_paddr.
have [a a0 ha] := hf _ (divr_gt0 e0 c0); exists a => // h /ha h1.
have -> : c * f (x + h) - c * f x - c * d * h = c * (f (x + h) - f x - d * h) by ring.
rewrite normrM; apply: le_trans (ler_wpmul2l (normr_ge0 c) h1) _.
rewrite mulrA ler_wpmul2r // mulrCA ler_pimulr ?(ltW e0) // ler_pdivr_mulr // mul1r ler_addr.
exact: ler01.
Qed.
Lemma deriv_opp f x d : deriv f x d -> deriv (fun s => - f s) x (- d).
Proof.
move=> hf; rewrite -mulN1r; apply: (deriv_ext (f := fun s => -1 * f s)); last exact: deriv_scale.
by move=> s; rewrite mulN1r.
Qed.
Lemma deriv_sub f g x d d' : deriv f x d -> deriv g x d' -> deriv (fun s => f s - g s) x (d - d').
Proof. by move=> hf hg; apply: deriv_add => //; exact: deriv_opp. Qed.
Lemma deriv_sum I (r : seq I) (P : pred I) (f : I -> F -> F) x (d : I -> F) :
  (forall i, P i -> deriv (f i) x (d i)) -> deriv (fun s => \sum_(i <- r | P i) f i s) x (\sum_(i <- r | P i) d i).
Proof.
move=> h; elim: r => [|i r IH].
  by rewrite big_nil; apply: deriv_ext (deriv_const 0 x) => s; rewrite big_nil.
rewrite big_cons; case E : (P i).
  apply: deriv_ext (deriv_add (h i E) IH) => s; by rewrite big_cons E.
by apply: deriv_ext IH => s; rewrite big_cons E.
Qed.
(** Lipschitz at x. *)
Lemma deriv_lip f x d : deriv f x d -> exists2 dl, 0 < dl & forall h, `|h| <= dl -> `|f (x + h) - f x| <= (1 + `|d|) * `|h|.
Proof.
move=> hf; have [a a0 ha] := hf 1 ltr01; exists a => // h /ha h1.
rewrite -[f _ - f x](subrK (d * h)); apply: le_trans (ler_norm_add _ _) _.
by rewrite mulrDl normrM ler_add2r.
Qed.
Lemma deriv_mul f g x d d' : deriv f x d -> deriv g x d' -> deriv (fun s => f s * g s) x (d * g x + f x * d').
Proof.
move=> hf hg e e0; have e3 : 0 < e / 3%:R by rewrite divr_gt0 // ltr0n.
have [b b0 hb] := deriv_lip hg.
pose L := 1 + `|d'|; have L0 : 0 < L by rewrite /L ltr_paddr.
pose G := 1 + `|g x|; have G0 : 0 < G by rewrite /G ltr_paddr.
pose K := 1 + `|f x|; have K0 : 0 < K by rewrite /K ltr_paddr.
pose D := 1 + `|d|; have D0 : 0 < D by rewrite /D ltr_paddr.
have [a a0 ha] := hf _ (divr_gt0 e3 G0); have [c c0 hc] := hg _ (divr_gt0 e3 K0).
exists (Num.min (Num.min a b) (Num.min (Num.min c L^-1) (e / 3%:R / (D * L)))).
  by rewrite !min_gt0 // ?invr_gt0 // divr_gt0 // mulr_gt0.
move=> h; rewrite !le_minr => /andP[/andP[/ha h1 /hb h2] /andP[/andP[/hc h3 h4] h5]].
have -> : f (x + h) * g (x + h) - f x * g x - (d * g x + f x * d') * h =
  (f (x + h) - f x - d * h) * g (x + h) + d * h * (g (x + h) - g x) + f x * (g (x + h) - g x - d' * h) by ring.
have gb : `|g (x + h)| <= G.
  rewrite -[g (x + h)](subrK (g x)); apply: le_trans (ler_norm_add _ _) _; rewrite ler_add2r.
  apply: le_trans h2 _; apply: le_trans (ler_wpmul2l (ltW L0) h4) _; by rewrite mulfV // gt_eqF.
apply: le_trans (ler_norm_add _ _) _; apply: le_trans (ler_add (ler_norm_add _ _) (lexx _)) _.
rewrite !normrM -[X in _ <= X * _](_ : e / 3%:R + e / 3%:R + e / 3%:R = _); last by field.
rewrite !mulrDl; apply: ler_add; first apply: ler_add.
- apply: le_trans (ler_pmul _ _ h1 gb) _ => //.
  by rewrite mulrAC mulfVK // gt_eqF.
- rewrite mulrAC ler_wpmul2r //.
  apply: le_trans (ler_wpmul2l (normr_ge0 d) h2) _.
  have : D * (L * `|h|) <= e / 3%:R by rewrite mulrA mulrC -ler_pdivl_mulr // mulr_gt0.
  apply: le_trans; rewrite ler_wpmul2r ?mulr_ge0 ?(ltW L0) // ler_addr; exact: ler01.
- apply: le_trans (ler_wpmul2l (normr_ge0 _) h3) _; rewrite mulrA ler_wpmul2r // mulrCA ler_pimulr ?(ltW e3) //.
  rewrite ler_pdivr_mulr // mul1r ler_addr; exact: ler01.
Qed.
(** Composition with an affine map. *)
Lemma deriv_aff f x d (a b : F) : deriv f (b + a * x) d -> deriv (fun s => f (b + a * s)) x (a * d).
Proof.
move=> hf e e0; have A0 : 0 < 1 + `|a| by rewrite ltr_paddr.
have [c c0 hc] := hf _ (divr_gt0 e0 A0); exists (c / (1 + `|a|)); first exact: divr_gt0.
move=> h; rewrite ler_pdivl_mulr // => hh.
have ah : `|a * h| <= `|h| * (1 + `|a|) by rewrite normrM mulrC ler_wpmul2l // ler_addr; exact: ler01.
have -> : b + a * (x + h) = b + a * x + a * h by ring.
have -> : a * d * h = d * (a * h) by ring.
apply: le_trans (hc _ (le_trans ah hh)) _; rewrite -mulrA ler_wpmul2l ?(ltW e0) //.
by rewrite ler_pdivr_mull // [X in _ <= X]mulrC.
Qed.
(** The derivative is unique. *)
Lemma deriv_uniq f x d d' : deriv f x d -> deriv f x d' -> d = d'.
Proof.
move=> h1 h2; apply/eqP; rewrite -subr_eq0 -normr_eq0; apply/negPn/negP => n0.
have e0 : 0 < `|d - d'| / 4%:R by rewrite divr_gt0 ?ltr0n // lt_def n0 normr_ge0.
have [a a0 ha] := h1 _ e0; have [b b0 hb] := h2 _ e0.
pose h := Num.min a b; have h0 : 0 < h by exact: min_gt0.
have nh : `|h| = h by exact: ger0_norm (ltW h0).
have hA : `|h| <= a by rewrite nh le_minl lexx.
have hB : `|h| <= b by rewrite nh le_minl lexx orbT.
have : `|(d - d') * h| <= `|d - d'| / 4%:R * `|h| + `|d - d'| / 4%:R * `|h|.
  have -> : (d - d') * h = (f (x + h) - f x - d' * h) - (f (x + h) - f x - d * h) by ring.
  by apply: le_trans (ler_norm_sub _ _) _; apply: ler_add; [exact: hb|exact: ha].
rewrite normrM nh -mulrDl ler_pmul2r //.
have -> : `|d - d'| / 4%:R + `|d - d'| / 4%:R = `|d - d'| / 2%:R by field.
rewrite ler_pdivl_mulr ?ltr0n // mulr_natr mulr2n ger_addl.
by rewrite leNgt lt_def n0 normr_ge0.
Qed.

(** Several variables: J is the gradient of phi at y. *)
Definition frechet n (phi : 'cV[F]_n -> F) (y : 'cV[F]_n) (J : 'I_n -> F) : Prop :=
  forall e, 0 < e -> exists2 dl, 0 < dl & forall h : 'cV[F]_n, (forall k, `|h k 0| <= dl) ->
    `|phi (y + h) - phi y - \sum_k J k * h k 0| <= e * \sum_k `|h k 0|.

Lemma unif n (P : 'I_n -> F -> Prop) : (forall k, exists2 dl, 0 < dl & forall h, `|h| <= dl -> P k h) ->
  exists2 dl, 0 < dl & forall h, `|h| <= dl -> forall k, P k h.
Proof.
move=> H; have : exists2 dl, 0 < dl & forall h, `|h| <= dl -> forall k, k \in enum 'I_n -> P k h.
  elim: (enum 'I_n) => [|k s [a a0 ha]]; first by exists 1.
  have [b b0 hb] := H k; exists (Num.min a b); first exact: min_gt0.
  by move=> h; rewrite le_minr => /andP[/ha h1 /hb h2] j; rewrite inE => /orP[/eqP ->|/h1].
by case=> dl l0 h; exists dl => // k hk i; apply: h => //; rewrite mem_enum.
Qed.
Lemma deriv_chain n (phi : 'cV[F]_n -> F) (c : F -> 'cV[F]_n) x (dc J : 'I_n -> F) :
  frechet phi (c x) J -> (forall k, deriv (fun s => c s k 0) x (dc k)) ->
  deriv (fun s => phi (c s)) x (\sum_k J k * dc k).
Proof.
move=> hp hc e e0; have e2 : 0 < e / 2%:R by rewrite divr_gt0 // ltr0n.
pose S := 1 + \sum_k (1 + `|dc k|); have S0 : 0 < S.
  by rewrite ltr_paddr // sumr_ge0 // => k _; rewrite addr_ge0.
pose T := 1 + \sum_k `|J k|; have T0 : 0 < T by rewrite ltr_paddr // sumr_ge0.
have [a a0 ha] := hp _ (divr_gt0 e2 S0).
have [b b0 hb] := unif (fun k => deriv_lip (hc k)).
have [g g0 hg] := unif (fun k => hc k _ (divr_gt0 e2 T0)).
exists (Num.min (Num.min b g) (a / S)); first by rewrite !min_gt0 // divr_gt0.
move=> h; rewrite !le_minr => /andP[/andP[/hb h1 /hg h2] h3].
pose D := c (x + h) - c x.
have DE k : D k 0 = c (x + h) k 0 - c x k 0 by rewrite !mxE.
have Da k : `|D k 0| <= a.
  rewrite DE; apply: le_trans (h1 k) _; move: h3; rewrite ler_pdivl_mulr // => h3.
  apply: le_trans h3; rewrite mulrC ler_wpmul2l // /S (bigD1 k) //=.
  rewrite addrCA ler_addl addr_ge0 // sumr_ge0 // => i _; by rewrite addr_ge0.
have := ha D Da; have -> : c x + D = c (x + h) by rewrite addrC subrK.
move=> h4.
have -> : phi (c (x + h)) - phi (c x) - (\sum_k J k * dc k) * h =
  (phi (c (x + h)) - phi (c x) - \sum_k J k * D k 0) + \sum_k J k * (D k 0 - dc k * h).
  rewrite -[in RHS]addrA; congr (_ + _); rewrite mulr_suml addrC -sumrB -sumrN; apply: eq_bigr => k _; ring.
apply: le_trans (ler_norm_add _ _) _; rewrite (splitr e) mulrDl; apply: ler_add.
  apply: le_trans h4 _; rewrite -mulrA ler_wpmul2l ?(ltW e2) // ler_pdivr_mull //.
  apply: (@le_trans _ _ (\sum_k (1 + `|dc k|) * `|h|)).
    by apply: ler_sum => k _; rewrite DE.
  by rewrite -mulr_suml ler_wpmul2r // ler_addr; exact: ler01.
apply: le_trans (ler_norm_sum _ _ _) _.
apply: (@le_trans _ _ (\sum_k `|J k| * (e / 2%:R / T * `|h|))).
  by apply: ler_sum => k _; rewrite normrM ler_wpmul2l // DE.
rewrite -mulr_suml mulrA ler_wpmul2r // mulrCA ler_pimulr ?(ltW e2) // ler_pdivr_mulr // mul1r ler_addr.
exact: ler01.
Qed.

(** Partial derivatives of functions of column vectors, and of vectors indexed by natural numbers. *)
Definition setc n (x : 'cV[F]_n) (k : 'I_n) (s : F) : 'cV[F]_n := \col_j if j == k then s else x j 0.
Definition partial n (phi : 'cV[F]_n -> F) (x : 'cV[F]_n) (k : 'I_n) (d : F) : Prop :=
  deriv (fun s => phi (setc x k s)) (x k 0) d.
(** h is the second derivative of phi at x in directions a and b. *)
Definition hess n (phi : 'cV[F]_n -> F) (x : 'cV[F]_n) (a b : 'I_n) (h : F) : Prop :=
  exists2 D : 'cV[F]_n -> F, forall w, partial phi w a (D w) & partial D x b h.
Definition setn (v : nat -> F) (k : nat) (s : F) : nat -> F := fun j => if j == k then s else v j.
Definition partialn (phi : (nat -> F) -> F) (v : nat -> F) (k : nat) (d : F) : Prop :=
  deriv (fun s => phi (setn v k s)) (v k) d.
Definition hessn (phi : (nat -> F) -> F) (v : nat -> F) (a b : nat) (h : F) : Prop :=
  exists2 D : (nat -> F) -> F, forall w, partialn phi w a (D w) & partialn D v b h.

Lemma setc_id n (x : 'cV[F]_n) k : setc x k (x k 0) = x.
Proof. by apply/matrixP => i j; rewrite (ord1 j) mxE; case: eqP => [->|]. Qed.
Lemma frechet_partial n (phi : 'cV[F]_n -> F) y J k : frechet phi y J -> partial phi y k (J k).
Proof.
move=> h; rewrite /partial; have -> : J k = \sum_i J i * (i == k)%:R.
  by rewrite (bigD1 k) //= eqxx mulr1 big1 ?addr0 // => i /negbTE ->; rewrite mulr0.
apply: deriv_chain; first by rewrite setc_id.
move=> i; case: (eqVneq i k) => [->|ne].
  by apply: deriv_ext (deriv_id _) => s; rewrite mxE eqxx.
by apply: deriv_ext (deriv_const (y i 0) _) => s; rewrite mxE (negbTE ne).
Qed.
Lemma frechet1 (p : F -> F) (y : 'cV[F]_1) d : deriv p (y 0 0) d -> frechet (fun w : 'cV[F]_1 => p (w 0 0)) y (fun _ => d).
Proof.
move=> h e e0; have [dl d0 H] := h e e0; exists dl => // k hk.
by rewrite !big_ord1 mxE; apply: H.
Qed.
End Calc.
