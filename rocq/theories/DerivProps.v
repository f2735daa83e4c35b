(** C90: what an answer of test_ocp_derivatives means. *)
From mathcomp Require Import all_ssreflect all_algebra.
From Verif Require Import DerivModel.
Set Implicit Arguments. Unset Strict Implicit. Unset Printing Implicit Defensive.
Import Order.TTheory GRing.Theory Num.Theory.
Local Open Scope ring_scope.

Section Props.
Variable F : realFieldType.
Notation tol := ((10%:R ^+ 4)^-1 : F).

(** Two matrices have the same size and are equal at every position. *)
Definition same_mx (a b : dmat F) : Prop :=
  [/\ drows a = drows b, dcols a = dcols b & forall i j, (i < drows a)%N -> (j < dcols a)%N -> dent a i j = dent b i j].
(** Same size, and every entry is within eps, or the error is at most 1e-4 of the norm of either matrix. *)
Definition close_mx (eps : F) (a b : dmat F) : Prop :=
  [/\ drows a = drows b, dcols a = dcols b &
      (forall i j, (i < drows a)%N -> (j < dcols a)%N -> `|dent a i j - dent b i j| < eps) \/
      (forall c, c = a \/ c = b ->
        \sum_(i < drows a) \sum_(j < dcols a) (dent a i j - dent b i j) ^+ 2 <=
        tol ^+ 2 * \sum_(i < drows c) \sum_(j < dcols c) dent c i j ^+ 2)].
(** Every derivative that the user defined is related by R to the derivative it is compared with, at the argument a. *)
Definition fn_ok A (R : dmat F -> dmat F -> Prop) (h : fn F A) (a : A) : Prop :=
  (forall d, an1 h = Some d -> R (d a) (dt1 h a)) /\ (forall d, an2 h = Some d -> R (d a) (dt2 h a)).
Definition ocp_ok E Z (R : dmat F -> dmat F -> Prop) (p : docp F E Z) (ez : E * Z) : Prop :=
  [/\ fn_ok R (d_theta p) ez.1, fn_ok R (d_ce p) ez.1, fn_ok R (d_f p) ez.2, fn_ok R (d_g p) ez.2 & fn_ok R (d_cr p) ez.2].

Lemma bigmax_ltE n (f : 'I_n -> F) t : (\big[Num.max/0]_i f i < t) = (0 < t) && [forall i, f i < t].
Proof.
apply/idP/andP => [h|[t0 /forallP h]].
  have H : forall i, f i <= \big[Num.max/0]_i f i.
    move=> i; have := mem_index_enum i; elim: (index_enum _) => // a r IH; rewrite inE big_cons.
    by case/orP => [/eqP <-|/IH h']; rewrite le_maxr ?lexx // h' orbT.
  have H0 : 0 <= \big[Num.max/0]_i f i by elim/big_rec: _ => // i x _ hx; rewrite le_maxr hx orbT.
  by split; [exact: le_lt_trans H0 h|apply/forallP => i; exact: le_lt_trans (H i) h].
by elim/big_rec: _ => // i x _ hx; rewrite lt_maxl h hx.
Qed.
Lemma maxabs_ltE r c (m : nat -> nat -> F) eps : 0 < eps ->
  (maxabs r c m < eps) <-> (forall i j, (i < r)%N -> (j < c)%N -> `|m i j| < eps).
Proof.
move=> h0; rewrite /maxabs bigmax_ltE h0 /=; split.
  move=> /forallP h i j hi hj; have := h (Ordinal hi); rewrite bigmax_ltE h0 => /forallP /(_ (Ordinal hj)); exact.
by move=> h; apply/forallP => i; rewrite bigmax_ltE h0; apply/forallP => j; apply: h.
Qed.
Lemma cmp_iff eps a b : 0 < eps -> cmp eps a b <-> close_mx eps a b.
Proof.
move=> he; split.
  case/and3P=> /eqP hc /eqP hr /orP [h|h]; split=> //.
    right=> c; move: h; rewrite /is_approx /sqsum.
    have ht : 0 <= tol ^+ 2 by rewrite exprn_ge0 // invr_ge0 exprn_ge0 // ler0n.
    move=> h [] ->; apply: le_trans h _; apply: ler_wpmul2l => //; rewrite le_minl lexx ?orbT //.
  by left; apply/maxabs_ltE.
case=> hr hc h; apply/and3P; split; [by rewrite hc|by rewrite hr|apply/orP].
case: h => h; first by right; apply/maxabs_ltE.
left; rewrite /is_approx /sqsum.
by case: (leP (\sum_(i < drows a) \sum_(j < dcols a) dent a i j ^+ 2)) => _; apply: h; [left|right].
Qed.
Lemma cmp_same eps a b : same_mx a b -> cmp eps a b.
Proof.
case=> hr hc h; apply/and3P; split; [by rewrite hc|by rewrite hr|apply/orP; left].
rewrite /is_approx {1}/sqsum big1 => [|i _]; last first.
  by rewrite big1 // => j _; rewrite h // subrr expr0n.
apply: mulr_ge0; first by rewrite exprn_ge0 // invr_ge0 exprn_ge0 // ler0n.
by rewrite le_minr !sumr_ge0 // => i _; apply: sumr_ge0 => j _; apply: sqr_ge0.
Qed.

Lemma checkE A eps an dt (a : A) s : check eps an dt a s = s && (if an is Some d then cmp (F:=F) eps (d a) (dt a) else true).
Proof. by rewrite /check; case: an => [d|]; [case: cmp; case: s|rewrite andbT]. Qed.
Definition fnb A eps (h : fn F A) (a : A) : bool :=
  (if an1 h is Some d then cmp eps (d a) (dt1 h a) else true) && (if an2 h is Some d then cmp eps (d a) (dt2 h a) else true).
Lemma check_fnE A eps (h : fn F A) (a : A) s : check_fn eps h a s = s && fnb eps h a.
Proof. by rewrite /check_fn !checkE -andbA. Qed.
Definition ocpb E Z eps (p : docp F E Z) (ez : E * Z) : bool :=
  [&& fnb eps (d_theta p) ez.1, fnb eps (d_ce p) ez.1, fnb eps (d_f p) ez.2, fnb eps (d_g p) ez.2 & fnb eps (d_cr p) ez.2].
Lemma testE E Z (p : docp F E Z) pts eps : test_ocp_derivatives p pts eps = all (ocpb eps p) pts.
Proof.
rewrite /test_ocp_derivatives -[RHS]andTb; elim: pts true => [|ez pts ih] s /=; first by rewrite andbT.
by rewrite ih /trial !check_fnE -!andbA.
Qed.
Lemma fnb_iff A (R : dmat F -> dmat F -> Prop) eps (h : fn F A) (a : A) : (forall x y, cmp eps x y <-> R x y) -> fnb eps h a <-> fn_ok R h a.
Proof.
move=> hR; rewrite /fnb /fn_ok; split.
  case/andP=> h1 h2; split=> d e; apply/hR; [by move: h1; rewrite e|by move: h2; rewrite e].
case=> h1 h2; apply/andP; split; [case e: (an1 h) => [d|] //|case e: (an2 h) => [d|] //]; apply/hR; [exact: h1|exact: h2].
Qed.

(** The test succeeds exactly if at every one of its points every derivative that the user defined is close to the one it is
    compared with. *)
Theorem C90_test E Z (p : docp F E Z) (pts : seq (E * Z)) eps : 0 < eps ->
  test_ocp_derivatives p pts eps <-> (forall z k, (k < size pts)%N -> ocp_ok (close_mx eps) p (nth z pts k)).
Proof.
move=> he; rewrite testE; have R := fun A (h : fn F A) a => @fnb_iff A _ eps h a (fun x y => @cmp_iff eps x y he).
have Re ez : ocpb eps p ez <-> ocp_ok (close_mx eps) p ez.
  split.
    by case/and5P=> h1 h2 h3 h4 h5; split; apply/R.
  by case=> h1 h2 h3 h4 h5; apply/and5P; split; apply/R.
split.
  by move=> h z k hk; apply/Re; move/(all_nthP z): h; apply.
by case: pts => [|z pts] // h; apply/(all_nthP z) => k hk; apply/Re; apply: h.
Qed.

(** Correct derivatives are never rejected, whatever eps is: a failure shows that some derivative at some point differs from
    the one it is compared with. *)
Theorem C90_correct E Z (p : docp F E Z) (pts : seq (E * Z)) eps :
  (forall z k, (k < size pts)%N -> ocp_ok same_mx p (nth z pts k)) -> test_ocp_derivatives p pts eps.
Proof.
move=> h; rewrite testE; case: pts h => [|z pts] // h; apply/(all_nthP z) => k hk.
have hf A (g : fn F A) a : fn_ok same_mx g a -> fnb eps g a.
  case=> h1 h2; apply/andP; split; [case e: (an1 g) => [d|] //|case e: (an2 g) => [d|] //]; apply: cmp_same; [exact: h1|exact: h2].
case: (h z k hk).
by move=> *; apply/and5P; split; apply: hf.
Qed.

(** The statement in which eps is the tolerance of the comparison: it is false.  A Jacobian that is wrong by one passes with
    eps = 1e-4, because the comparison is relative as soon as the entries are large. *)
Definition within (eps : F) (a b : dmat F) : Prop :=
  [/\ drows a = drows b, dcols a = dcols b & forall i j, (i < drows a)%N -> (j < dcols a)%N -> `|dent a i j - dent b i j| <= eps].
Definition mx1 (v : F) : dmat F := Dmat 1 1 (fun _ _ => v).
Definition fn0 A : fn F A := Fn None None (fun=> mx1 0) (fun=> mx1 0).
Theorem C90_eps_refuted : exists (p : docp F unit unit) (pts : seq (unit * unit)) (eps : F),
  [/\ 0 < eps, eps <= tol, test_ocp_derivatives p pts eps & ~ (forall ez, ez \in pts -> ocp_ok (within eps) p ez)].
Proof.
pose h : fn F unit := Fn (Some (fun=> mx1 (10%:R ^+ 4 + 1))) None (fun=> mx1 (10%:R ^+ 4)) (fun=> mx1 0).
exists (Docp (fn0 _) h (fn0 _) (fn0 _) (fn0 _)), [:: (tt, tt)], tol.
have t0 : (0 : F) < 10%:R ^+ 4 by rewrite exprn_gt0 // ltr0n.
have tp : 0 < tol by rewrite invr_gt0.
have e1 : 10%:R ^+ 4 + 1 - 10%:R ^+ 4 = 1 :> F by rewrite addrAC subrr add0r.
split=> //.
  apply/(C90_test _ _ tp) => z [|k] // _; split; try by split=> d //.
  split=> d // [] <-; split=> //; right=> c hc.
  have e2 : tol ^+ 2 * (10%:R ^+ 4) ^+ 2 = 1 :> F by rewrite -exprMn mulVf ?expr1n // gt_eqF.
  case: hc => ->; rewrite !big_ord1 /= e1 expr1n -[X in X <= _]e2 //.
  apply: ler_wpmul2l; first by rewrite exprn_ge0 // ltW.
  by rewrite ler_pexpn2r // ?nnegrE ?ler_addl ?ler01 ?addr_ge0 ?ler01 // ltW.
move=> /(_ (tt, tt)); rewrite inE eqxx => /(_ isT) [_ _ [h1 _] _ _].
case: (h1 _ erefl) => _ _ /(_ 0%N 0%N isT isT); rewrite /= e1 normr1 leNgt invf_lt1 // => /negP; apply.
by rewrite exprn_egt1 // ltr1n.
Qed.

(** A case that meets the hypotheses: a correct and a slightly wrong Jacobian. *)
Definition fnc (v : F) : fn F unit := Fn (Some (fun=> mx1 v)) None (fun=> mx1 1) (fun=> mx1 0).
Example C90_case : test_ocp_derivatives (Docp (fn0 unit) (fnc 1) (fn0 _) (fn0 _) (fn0 unit)) [:: (tt, tt)] tol /\
  ~~ test_ocp_derivatives (Docp (fn0 unit) (fnc 2%:R) (fn0 _) (fn0 _) (fn0 unit)) [:: (tt, tt)] tol.
Proof.
have t0 : (1 : F) < 10%:R ^+ 4 by rewrite exprn_egt1 // ltr1n.
have tp : 0 < tol by rewrite invr_gt0 (lt_trans ltr01).
have t1 : tol < 1 by rewrite invf_lt1 // (lt_trans ltr01).
have e1 : 2%:R - 1 = 1 :> F by rewrite mulr2n addrK.
split.
  by apply: C90_correct => z [|k] // _; split; split=> d //= [] <-; split=> // i j; rewrite !ltnS !leqn0 => /eqP -> /eqP ->.
apply/negP=> /(C90_test _ _ tp) /(_ (tt, tt) 0%N isT) [_ _ [h1 _] _ _].
case: (h1 _ erefl) => _ _ [/(_ 0%N 0%N isT isT)|/(_ (mx1 1) (or_intror erefl))].
  by rewrite /= e1 normr1 ltNge (ltW t1).
rewrite !big_ord1 /= e1 expr1n mulr1 expr2 leNgt => /negP; apply.
by rewrite -expr2 exprn_ilt1 // ltW.
Qed.
End Props.
