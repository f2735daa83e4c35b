(** Lagrange interpolation and integrals of polynomials. *)
From mathcomp Require Import all_ssreflect all_algebra.
From mathcomp.algebra_tactics Require Import ring.
From Verif Require Import MeshModel MeshSpec.
Set Implicit Arguments.
Unset Strict Implicit.
Unset Printing Implicit Defensive.
Import Order.TTheory GRing.Theory Num.Theory.
Local Open Scope ring_scope.

Section PolyFacts.
Variable F : realFieldType.
Implicit Types (p q : {poly F}) (xs : seq F).

Lemma prim_deriv p : (prim p)^`() = p.
Proof.
apply/polyP => i; rewrite coef_deriv coef_poly /= ltnS.
case: ltnP => h; last by rewrite mul0rn nth_default.
by rewrite -mulr_natr mulfVK // pnatr_eq0.
Qed.

Lemma deriv0_const p : p^`() = 0 -> p = (p.[0])%:P.
Proof.
move=> h; apply/polyP => i; rewrite coefC horner_coef0; case: i => [//|i] /=.
have := congr1 (fun q : {poly F} => q`_i) h; rewrite coef_deriv coef0 => /eqP.
by rewrite mulrn_eq0 => /orP [|/eqP].
Qed.

Lemma prim_unique p q a b : q^`() = p -> q.[b] - q.[a] = integ p a b.
Proof.
move=> h; have: (q - prim p)^`() = 0 by rewrite derivB h prim_deriv subrr.
move/deriv0_const; set c := (_).[0] => e.
have -> : q = prim p + c%:P by rewrite -e addrC subrK.
by rewrite !hornerD !hornerC /integ opprD addrACA subrr addr0.
Qed.

Lemma integ_chasles p a b c : integ p a b + integ p b c = integ p a c.
Proof. by rewrite /integ addrC addrA subrK. Qed.

Lemma integ_affine p al be a b :
  al * integ (p \Po (al *: 'X + be%:P)) a b = integ p (al * a + be) (al * b + be).
Proof.
set L := al *: 'X + be%:P.
have LE x : L.[x] = al * x + be by rewrite /L hornerD hornerZ hornerX hornerC.
have H := @prim_unique (al *: (p \Po L)) (prim p \Po L) a b.
have D : (prim p \Po L)^`() = al *: (p \Po L).
  by rewrite deriv_comp prim_deriv derivD derivZ derivX derivC addr0 alg_polyC mulrC mul_polyC.
have := H D; rewrite !horner_comp !LE => E.
rewrite /integ in E *; rewrite E.
have := @prim_unique (al *: (p \Po L)) (al *: prim (p \Po L)) a b.
by rewrite derivZ prim_deriv /integ !hornerZ -mulrBr => ->.
Qed.

(** Lagrange polynomials *)
Lemma size_others xs j : (j < size xs)%N -> size (others xs j) = (size xs).-1.
Proof.
by move=> h; rewrite size_cat size_take size_drop h; case: (size xs) h => // n h; rewrite subSS subnKC.
Qed.
Lemma size_lagrange xs j : (j < size xs)%N -> (size (lagrange xs j) <= size xs)%N.
Proof.
move=> h; rewrite (leq_trans (size_scale_leq _ _)) // size_prod_XsubC size_others //.
by case: (size xs) h.
Qed.
Lemma mem_others xs i j : uniq xs -> (i < size xs)%N -> (j < size xs)%N ->
  (nth 0 xs i \in others xs j) = (i != j).
Proof.
move=> u hi hj.
have E : xs = take j xs ++ nth 0 xs j :: drop j.+1 xs by rewrite -drop_nth // cat_take_drop.
case: (eqVneq i j) => [->|ne].
  move: u; rewrite {1}E -cat1s uniq_catCA cat1s cons_uniq => /andP [n _]; exact: negbTE.
have: nth 0 xs i \in xs by rewrite mem_nth.
rewrite {2}E mem_cat inE => /orP [h|/orP [|h]]; first by rewrite mem_cat h.
  by rewrite nth_uniq // (negbTE ne).
by rewrite mem_cat h orbT.
Qed.
Lemma lagrange_node xs i j : uniq xs -> (i < size xs)%N -> (j < size xs)%N ->
  (lagrange xs j).[nth 0 xs i] = (i == j)%:R.
Proof.
move=> u hi hj; rewrite hornerZ.
case: (eqVneq i j) => [->|ne].
  rewrite horner_prod; under [X in _ * X]eq_bigr do rewrite hornerXsubC.
  rewrite mulVf // prodf_seq_neq0; apply/allP => x xi; rewrite /= subr_eq0.
  by apply: contraL xi => /eqP <-; rewrite mem_others ?eqxx.
have: root (\prod_(x <- others xs j) ('X - x%:P)) (nth 0 xs i) by rewrite root_prod_XsubC mem_others.
by move/rootP => ->; rewrite mulr0.
Qed.

(** A polynomial of degree < n is determined by its values at n distinct nodes. *)
Lemma poly_eq_nodes p q xs : uniq xs -> (size p <= size xs)%N -> (size q <= size xs)%N ->
  (forall x, x \in xs -> p.[x] = q.[x]) -> p = q.
Proof.
move=> u sp sq h; apply/eqP; rewrite -subr_eq0; apply/eqP.
apply: (roots_geq_poly_eq0 (rs := xs)) => //.
  by apply/allP => x xi; rewrite rootE hornerD hornerN h // subrr.
by rewrite (leq_trans (size_add _ _)) // size_opp geq_max sp sq.
Qed.

Definition interp xs (v : nat -> F) : {poly F} := \sum_(j < size xs) v j *: lagrange xs j.
Lemma size_interp xs v : (size (interp xs v) <= size xs)%N.
Proof.
rewrite (leq_trans (size_sum _ _ _)) //; apply/bigmax_leqP => j _.
by rewrite (leq_trans (size_scale_leq _ _)) // size_lagrange.
Qed.
Lemma interp_node xs v i : uniq xs -> (i < size xs)%N -> (interp xs v).[nth 0 xs i] = v i.
Proof.
move=> u h; rewrite horner_sum (bigD1 (Ordinal h)) //= hornerZ lagrange_node // eqxx mulr1.
rewrite big1 ?addr0 // => j ne; rewrite hornerZ lagrange_node //.
by rewrite eq_sym (negbTE (_ : (j : nat) != i)) ?mulr0 //; apply: contra ne => /eqP e; apply/eqP/val_inj.
Qed.
Lemma interp_poly xs p : uniq xs -> (size p <= size xs)%N ->
  interp xs (fun j => p.[nth 0 xs j]) = p.
Proof.
move=> u s; apply: (poly_eq_nodes u) => //; first exact: size_interp.
by move=> x /(nthP 0) [i h <-]; rewrite interp_node.
Qed.
Lemma derivn_interp xs v k x :
  ((interp xs v)^`(k)).[x] = \sum_(j < size xs) v j * ((lagrange xs j)^`(k)).[x].
Proof.
rewrite /interp linear_sum horner_sum; apply: eq_bigr => j _.
by rewrite linearZ hornerZ.
Qed.
End PolyFacts.
