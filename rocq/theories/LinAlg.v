(** Symmetric, positive semidefinite and positive definite matrices over a real field. *)
From mathcomp Require Import all_ssreflect all_algebra.
From mathcomp.algebra_tactics Require Import ring.
Set Implicit Arguments.
Unset Strict Implicit.
Unset Printing Implicit Defensive.
Import Order.TTheory GRing.Theory Num.Theory.
Local Open Scope ring_scope.

Section LinAlg.
Variable F : realFieldType.

Definition symm n (M : 'M[F]_n) : Prop := M^T = M.
(** Quadratic form x' M x. *)
Definition qf n (M : 'M[F]_n) (x : 'cV[F]_n) : F := (x^T *m M *m x) 0 0.
Definition psd n (M : 'M[F]_n) : Prop := forall x, 0 <= qf M x.
Definition pd n (M : 'M[F]_n) : Prop := forall x, x != 0 -> 0 < qf M x.
(** Inner product of column vectors. *)
Definition dot n (x y : 'cV[F]_n) : F := (x^T *m y) 0 0.

Lemma qf0 n (M : 'M[F]_n) : qf M 0 = 0.
Proof. by rewrite /qf mulmx0 mxE. Qed.
Lemma pd_psd n (M : 'M[F]_n) : pd M -> psd M.
Proof.
move=> h x; case: (eqVneq x 0) => [->|n0]; first by rewrite qf0.
by rewrite ltW // h.
Qed.
Lemma qfD n (A B : 'M[F]_n) x : qf (A + B) x = qf A x + qf B x.
Proof. by rewrite /qf mulmxDr mulmxDl mxE. Qed.
Lemma qfB n (A B : 'M[F]_n) x : qf (A - B) x = qf A x - qf B x.
Proof. by rewrite /qf mulmxBr mulmxBl !mxE. Qed.
Lemma qfZ n a (A : 'M[F]_n) x : qf (a *: A) x = a * qf A x.
Proof. by rewrite /qf -scalemxAr -scalemxAl mxE. Qed.
Lemma qf_congr n m (A : 'M[F]_n) (B : 'M[F]_(n,m)) x : qf (B^T *m A *m B) x = qf A (B *m x).
Proof. by rewrite /qf trmx_mul !mulmxA. Qed.
Lemma qf_congrT n m (A : 'M[F]_n) (B : 'M[F]_(m,n)) x : qf (B *m A *m B^T) x = qf A (B^T *m x).
Proof. by rewrite -qf_congr trmxK. Qed.
Lemma mx11 (M : 'M[F]_1) : M = (M 0 0)%:M.
Proof. by apply/matrixP => i j; rewrite !mxE !ord1 eqxx mulr1n. Qed.
Lemma trmx11 (M : 'M[F]_1) : M^T = M.
Proof. by apply/matrixP => i j; rewrite !mxE !ord1. Qed.

Lemma psdD n (A B : 'M[F]_n) : psd A -> psd B -> psd (A + B).
Proof. by move=> a b x; rewrite qfD addr_ge0. Qed.
Lemma pd_psdD n (A B : 'M[F]_n) : pd A -> psd B -> pd (A + B).
Proof. by move=> a b x x0; rewrite qfD ltr_paddr // a. Qed.
Lemma psd_pdD n (A B : 'M[F]_n) : psd A -> pd B -> pd (A + B).
Proof. by move=> a b x x0; rewrite qfD ltr_paddl // b. Qed.
Lemma psdZ n a (A : 'M[F]_n) : 0 <= a -> psd A -> psd (a *: A).
Proof. by move=> a0 h x; rewrite qfZ mulr_ge0. Qed.
Lemma psd_congr n m (A : 'M[F]_n) (B : 'M[F]_(n,m)) : psd A -> psd (B^T *m A *m B).
Proof. by move=> h x; rewrite qf_congr. Qed.
Lemma psd_congrT n m (A : 'M[F]_n) (B : 'M[F]_(m,n)) : psd A -> psd (B *m A *m B^T).
Proof. by move=> h x; rewrite qf_congrT. Qed.

Lemma pd_unit n (M : 'M[F]_n) : pd M -> M \in unitmx.
Proof.
move=> h; rewrite unitmxE unitfE; apply/negP => /det0P [v v0 e].
have := h v^T; rewrite /qf trmxK e mul0mx mxE ltxx => H.
by have := H _; rewrite -(inj_eq trmx_inj) trmxK trmx0 => /(_ v0).
Qed.

Lemma symm_inv n (M : 'M[F]_n) : symm M -> symm (invmx M).
Proof. by rewrite /symm trmx_inv => ->. Qed.

Lemma pd_inv n (M : 'M[F]_n) : symm M -> pd M -> pd (invmx M).
Proof.
move=> s h x x0; have u := pd_unit h.
have E : invmx M = invmx M *m M *m (invmx M)^T.
  by rewrite mulVmx // mul1mx symm_inv.
rewrite E qf_congrT h // (symm_inv s); apply: contra x0 => /eqP e.
by rewrite -(mulKVmx u x) e mulmx0.
Qed.

Lemma symm_congr n m (A : 'M[F]_n) (B : 'M[F]_(n,m)) : symm A -> symm (B^T *m A *m B).
Proof. by rewrite /symm => s; rewrite !trmx_mul trmxK s mulmxA. Qed.
Lemma symm_congrT n m (A : 'M[F]_n) (B : 'M[F]_(m,n)) : symm A -> symm (B *m A *m B^T).
Proof. by rewrite /symm => s; rewrite !trmx_mul trmxK s mulmxA. Qed.
Lemma symmD n (A B : 'M[F]_n) : symm A -> symm B -> symm (A + B).
Proof. by rewrite /symm linearD /= => -> ->. Qed.
Lemma symmZ n a (A : 'M[F]_n) : symm A -> symm (a *: A).
Proof. by rewrite /symm linearZ /= => ->. Qed.
Lemma symm1 n : symm (1%:M : 'M[F]_n).
Proof. exact: trmx1. Qed.

(** dot *)
Lemma dotE n (x y : 'cV[F]_n) : dot x y = \sum_i x i 0 * y i 0.
Proof. by rewrite /dot mxE; apply: eq_bigr => i _; rewrite mxE. Qed.
Lemma dotC n (x y : 'cV[F]_n) : dot x y = dot y x.
Proof. by rewrite !dotE; apply: eq_bigr => i _; rewrite mulrC. Qed.
Lemma dotDl n (x y z : 'cV[F]_n) : dot (x + y) z = dot x z + dot y z.
Proof. by rewrite !dotE -big_split; apply: eq_bigr => i _; rewrite mxE mulrDl. Qed.
Lemma dotDr n (x y z : 'cV[F]_n) : dot x (y + z) = dot x y + dot x z.
Proof. by rewrite !(dotC x) dotDl. Qed.
Lemma dotNl n (x z : 'cV[F]_n) : dot (- x) z = - dot x z.
Proof. by rewrite !dotE -sumrN; apply: eq_bigr => i _; rewrite mxE mulNr. Qed.
Lemma dotNr n (x z : 'cV[F]_n) : dot x (- z) = - dot x z.
Proof. by rewrite !(dotC x) dotNl. Qed.
Lemma dotBl n (x y z : 'cV[F]_n) : dot (x - y) z = dot x z - dot y z.
Proof. by rewrite dotDl dotNl. Qed.
Lemma dotBr n (x y z : 'cV[F]_n) : dot x (y - z) = dot x y - dot x z.
Proof. by rewrite dotDr dotNr. Qed.
Lemma dotZl n a (x z : 'cV[F]_n) : dot (a *: x) z = a * dot x z.
Proof. by rewrite !dotE mulr_sumr; apply: eq_bigr => i _; rewrite mxE mulrA. Qed.
Lemma dotZr n a (x z : 'cV[F]_n) : dot x (a *: z) = a * dot x z.
Proof. by rewrite !(dotC x) dotZl. Qed.
Lemma dot0l n (z : 'cV[F]_n) : dot 0 z = 0.
Proof. by rewrite /dot trmx0 mul0mx mxE. Qed.
Lemma dot0r n (z : 'cV[F]_n) : dot z 0 = 0.
Proof. by rewrite /dot mulmx0 mxE. Qed.
Lemma dotMl n m (A : 'M[F]_(n,m)) x y : dot (A *m x) y = dot x (A^T *m y).
Proof. by rewrite /dot trmx_mul mulmxA. Qed.
Lemma dotMr n m (A : 'M[F]_(n,m)) x y : dot y (A *m x) = dot (A^T *m y) x.
Proof. by rewrite dotC dotMl dotC. Qed.
Lemma dot_ge0 n (x : 'cV[F]_n) : 0 <= dot x x.
Proof. by rewrite dotE sumr_ge0 // => i _; rewrite -expr2 sqr_ge0. Qed.
Lemma dot_eq0 n (x : 'cV[F]_n) : (dot x x == 0) = (x == 0).
Proof.
rewrite dotE psumr_eq0; last by move=> i _; rewrite -expr2 sqr_ge0.
apply/idP/eqP => [/allP h|->]; last by apply/allP => i _; rewrite mxE mul0r eqxx.
apply/matrixP => i j; rewrite (ord1 j) mxE.
by have:= h i; rewrite mem_index_enum mulf_eq0 orbb => /(_ isT)/eqP.
Qed.
Lemma dot_gt0 n (x : 'cV[F]_n) : x != 0 -> 0 < dot x x.
Proof. by move=> x0; rewrite lt_neqAle dot_ge0 andbT eq_sym dot_eq0. Qed.
Lemma qf_dot n (M : 'M[F]_n) x : qf M x = dot x (M *m x).
Proof. by rewrite /qf /dot mulmxA. Qed.
Lemma pd1 n : pd (1%:M : 'M[F]_n).
Proof. by move=> x x0; rewrite qf_dot mul1mx dot_gt0. Qed.
Lemma psd0 n : psd (0 : 'M[F]_n).
Proof. by move=> x; rewrite /qf mulmx0 mul0mx mxE. Qed.

(** Expansion of a quadratic form of a symmetric matrix. *)
Lemma qf_add n (M : 'M[F]_n) x y :
  symm M -> qf M (x + y) = qf M x + 2%:R * dot x (M *m y) + qf M y.
Proof.
move=> s; rewrite !qf_dot mulmxDr dotDl !dotDr (dotMr M x y) s (dotC (M *m y)).
rewrite mulrDl mul1r; by rewrite !addrA.
Qed.

Lemma qf_scale n (M : 'M[F]_n) a x : qf M (a *: x) = a ^+ 2 * qf M x.
Proof. by rewrite !qf_dot -scalemxAr dotZl dotZr mulrA. Qed.

(** Cauchy-Schwarz inequality for a positive definite form. *)
Lemma pd_cauchy n (M : 'M[F]_n) x y :
  symm M -> pd M -> dot x (M *m y) ^+ 2 <= qf M x * qf M y.
Proof.
move=> s h; case: (eqVneq y 0) => [->|y0].
  by rewrite mulmx0 dot0r qf0 mulr0 expr0n.
have q0 := h y y0; have q0' : qf M y != 0 by rewrite gt_eqF.
set a := dot x (M *m y); set q := qf M y in q0 q0' *.
have := pd_psd h (x + (- (a / q)) *: y).
rewrite qf_add // qf_scale -scalemxAr dotZr -/a -/q => H.
rewrite -subr_ge0; have -> : qf M x * q - a ^+ 2 =
  q * (qf M x + 2%:R * (- (a / q) * a) + (- (a / q)) ^+ 2 * q) by field.
by rewrite mulr_ge0 // ltW.
Qed.

(** A positive definite matrix dominates a multiple of the identity. *)
Lemma pd_dom n (M : 'M[F]_n) x :
  symm M -> pd M -> dot x x <= \tr (invmx M) * qf M x.
Proof.
move=> s h; rewrite dotE /mxtrace mulr_suml; apply: ler_sum => i _.
set e : 'cV[F]_n := delta_mx i 0.
have xi : x i 0 = dot (invmx M *m e) (M *m x).
  rewrite dotMl (symm_inv s) mulmxA mulVmx ?pd_unit // mul1mx.
  rewrite dotE (bigD1 i) //= big1 ?addr0 ?mxE ?eqxx ?mul1r // => j ji.
  by rewrite mxE (negbTE ji) mul0r.
rewrite -expr2 {1}xi (le_trans (pd_cauchy _ _ s h)) //.
have -> : qf M (invmx M *m e) = invmx M i i; last exact: lexx.
rewrite qf_dot mulmxA mulmxV ?pd_unit // mul1mx dotE (bigD1 i) //= big1 ?addr0.
  rewrite [X in _ * X]mxE !eqxx mulr1 mxE (bigD1 i) //= big1 ?addr0 => [|j ji].
    by rewrite !mxE !eqxx mulr1.
  by rewrite !mxE (negbTE ji) mulr0.
by move=> j ji; rewrite [X in _ * X]mxE (negbTE ji) mulr0.
Qed.

Lemma qf_bound n (B : 'M[F]_n) x : `|qf B x| <= (\sum_i \sum_j `|B i j|) * dot x x.
Proof.
have -> : qf B x = \sum_i \sum_j x i 0 * B i j * x j 0.
  rewrite qf_dot dotE; apply: eq_bigr => i _; rewrite mxE mulr_sumr.
  by apply: eq_bigr => j _; rewrite mulrA.
rewrite (le_trans (ler_norm_sum _ _ _)) // mulr_suml; apply: ler_sum => i _.
rewrite (le_trans (ler_norm_sum _ _ _)) // mulr_suml; apply: ler_sum => j _.
rewrite mulrAC mulrC normrM ler_wpmul2l // ler_norml.
have sq k : x k 0 ^+ 2 <= dot x x.
  by rewrite dotE (bigD1 k) //= -expr2 ler_addl sumr_ge0 // => l _; rewrite -expr2 sqr_ge0.
have:= sq i; have:= sq j; move: (dot x x) (x i 0) (x j 0) => D a b; rewrite -subr_ge0 => h1; rewrite -subr_ge0 => h2.
have two : 0 < 2%:R :> F by rewrite ltr0n.
apply/andP; split; rewrite -subr_ge0 -(pmulr_rge0 _ two).
  have -> : 2%:R * (a * b - - D) = (D - a ^+ 2) + (D - b ^+ 2) + (a + b) ^+ 2 by ring.
  by rewrite addr_ge0 ?sqr_ge0 // addr_ge0.
have -> : 2%:R * (D - a * b) = (D - a ^+ 2) + (D - b ^+ 2) + (a - b) ^+ 2 by ring.
by rewrite addr_ge0 ?sqr_ge0 // addr_ge0.
Qed.

(** A small perturbation of a positive definite matrix is positive definite. *)
Lemma pd_perturb n (M B : 'M[F]_n) :
  symm M -> pd M -> exists2 h0, 0 < h0 & forall h, 0 <= h -> h <= h0 -> pd (M + h *: B).
Proof.
move=> s p; set b := \sum_i \sum_j `|B i j|; set t := \tr (invmx M).
have b0 : 0 <= b by apply: sumr_ge0 => i _; apply: sumr_ge0.
have t0 : 0 <= t.
  rewrite /t /mxtrace sumr_ge0 // => i _.
  have := pd_psd (pd_inv s p) (delta_mx i 0); rewrite qf_dot dotE (bigD1 i) //= big1 ?addr0 => [|j ji].
    rewrite mxE !eqxx mul1r mxE (bigD1 i) //= big1 ?addr0 => [|j ji].
      by rewrite mxE !eqxx mulr1.
    by rewrite mxE (negbTE ji) mulr0.
  by rewrite mxE (negbTE ji) mul0r.
exists ((b * t + 1)^-1); first by rewrite invr_gt0 ltr_paddl ?mulr_ge0.
move=> h h0 hle x x0; rewrite qfD qfZ.
have q0 := p x x0.
have B1 : - (b * (t * qf M x)) <= qf B x.
  have := qf_bound B x; rewrite ler_norml -/b => /andP [l _]; apply: le_trans l.
  by rewrite ler_opp2 ler_wpmul2l // pd_dom.
have hb : h * (b * t) < 1.
  have d0 : 0 < b * t + 1 by rewrite ltr_paddl ?mulr_ge0.
  case: (eqVneq h 0) => [->|hn]; first by rewrite mul0r ltr01.
  have hp : 0 < h by rewrite lt_neqAle eq_sym hn.
  have: h * (b * t + 1) <= 1 by rewrite -ler_pdivl_mulr // mul1r.
  by rewrite mulrDr mulr1; apply: lt_le_trans; rewrite ltr_addl.
have : h * - (b * (t * qf M x)) <= h * qf B x by rewrite ler_wpmul2l.
move=> H; apply: lt_le_trans (_ : qf M x + h * - (b * (t * qf M x)) <= _); last by rewrite ler_add2l.
have -> : qf M x + h * - (b * (t * qf M x)) = (1 - h * (b * t)) * qf M x.
  by rewrite mulrBl mul1r mulrN !mulrA.
by rewrite mulr_gt0 // subr_gt0.
Qed.
End LinAlg.
