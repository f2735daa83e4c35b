(** The second loop of mesh_dyn. *)
From mathcomp Require Import all_ssreflect all_algebra zify.
From mathcomp.algebra_tactics Require Import ring.
From Verif Require Import Calc MeshModel SparseModel SparseFacts MeshFunModel MeshFunFacts MeshFunLoops.
Set Implicit Arguments.
Unset Strict Implicit.
Unset Printing Implicit Defensive.
Import Order.TTheory GRing.Theory Num.Theory.
Local Open Scope ring_scope.
Local Arguments muln : simpl never.
Local Arguments dyn_add : simpl never.

Section Second.
Variable F : realFieldType.
Variables (nx N nI : nat) (Ks : nat -> nat) (iw : nat -> seq F) (alpha : nat -> F) (Dus : nat -> nat -> nat -> F).
Variable xs : nat -> nat -> F.
Definition nb (I : nat) : nat := (\sum_(k < I) Ks k)%N.
Hypotheses (nI0 : (0 < nI)%N) (K0 : forall I, (I < nI)%N -> (0 < Ks I)%N) (EN : N = nb nI).

Lemma nbS I : nb I.+1 = (nb I + Ks I)%N. Proof. by rewrite /nb big_ord_recr. Qed.
Lemma nb_le I J : (I <= J)%N -> (nb I <= nb J)%N.
Proof using Type. clear nI0 K0 EN; by elim: J => [|J IH]; [case: I|rewrite leq_eqVlt => /orP[/eqP -> //|h]; rewrite nbS; have := IH h; lia]. Qed.
Lemma nb_inj I J i j : (i < Ks I)%N -> (j < Ks J)%N -> (nb I + i = nb J + j)%N -> I = J /\ i = j.
Proof using Type.
clear nI0 K0 EN; move=> hi hj e; case: (ltngtP I J) => h; last by split=> //; move: e; rewrite h; lia.
  by have := nb_le h; rewrite nbS; lia.
by have := nb_le h; rewrite nbS; lia.
Qed.
Lemma nb_find k : (k < N)%N -> exists I j, [/\ (I < nI)%N, (j < Ks I)%N & k = (nb I + j)%N].
Proof using EN.
clear nI0 K0; rewrite EN; elim: {1 3}nI (leqnn nI) => [|n IH] hn; first by rewrite /nb big_ord0.
rewrite nbS => h; case: (ltnP k (nb n)) => h'.
  by have [I [j [a b c]]] := IH (ltnW hn) h'; exists I, j; split=> //; lia.
by exists n, (k - nb n)%N; split=> //; lia.
Qed.

Definition dl (n : nat) : seq (nat * nat) := flatten [seq [seq (I, (nb I + a)%N) | a <- iota 0 (Ks I).+1] | I <- iota 0 n].
Definition addp (out : mval F) (p : nat * nat) : mval F := dyn_add nx xs iw alpha Dus p.1 (nb p.1) (Ks p.1) p.2 out.
Local Notation step2 := (dyn_step2 nx N xs nI Ks iw alpha Dus).
Lemma dlS n : dl n.+1 = dl n ++ [seq (n, (nb n + a)%N) | a <- iota 0 (Ks n).+1].
Proof using Type. by rewrite /dl -[n.+1]addn1 iotaD map_cat flatten_cat /= cats0. Qed.
Lemma iota_rcons n : iota 0 n.+1 = rcons (iota 0 n) n.
Proof using Type. by rewrite -[n.+1]addn1 iotaD cats1. Qed.

Lemma dyn2_mid I out st a : (I < nI)%N -> (0 < a <= Ks I)%N ->
  foldl step2 st (iota 0 (nb I + 1)) = (I, nb I, Ks I, foldl addp out (dl I ++ [:: (I, nb I)])) ->
  foldl step2 st (iota 0 (nb I + a)) = (I, nb I, Ks I, foldl addp out (dl I ++ [seq (I, (nb I + b)%N) | b <- iota 0 a])).
Proof.
move=> hI ha h; elim: a ha => [//|[|a] IH] /andP[_ ha]; first by rewrite h /= addn0.
rewrite addnS iota_rcons foldl_rcons (IH _); last lia.
rewrite {1}/dyn_step2; have -> : (nb I + a.+1 == nb I + Ks I)%N = false by lia.
have -> : (nb I + a.+1 < N)%N by rewrite EN; have := nb_le hI; rewrite nbS; lia.
by congr (_, _, _, _); rewrite [in RHS]iota_rcons map_rcons -cats1 [in RHS]catA [in RHS]foldl_cat.
Qed.
Lemma dyn2_start I out : (I < nI)%N ->
  foldl step2 (0%N, 0%N, Ks 0%N, out) (iota 0 (nb I + 1)) = (I, nb I, Ks I, foldl addp out (dl I ++ [:: (I, nb I)])).
Proof.
elim: I => [|I IH] hI.
  have h0 : nb 0 = 0%N by rewrite /nb big_ord0.
  rewrite h0 /= ; have -> : (0 == 0 + Ks 0)%N = false by have := K0 hI; lia.
  by rewrite EN (_ : (0 < nb nI)%N = true) ?/addp /= ?h0 //; have := nb_le nI0; rewrite nbS; have := K0 nI0; lia.
have hI' : (I < nI)%N by lia.
rewrite addn1 iota_rcons foldl_rcons nbS (dyn2_mid (out := out) hI') ?K0 ?leqnn ?IH //.
rewrite {1}/dyn_step2 eqxx hI; have -> : (nb I + Ks I < N)%N.
  by rewrite EN -nbS; have := nb_le hI; rewrite nbS; have := K0 hI; lia.
rewrite -nbS; congr (_, _, _, _); rewrite dlS iota_rcons map_rcons -cats1 -!catA !foldl_cat /= {3}/addp /= -nbS.
by rewrite /addp /= nbS.
Qed.
Lemma dyn2E out : (foldl step2 (0%N, 0%N, Ks 0%N, out) (iota 0 (N + 1))).2 = foldl addp out (dl nI).
Proof.
have [n en] : exists n, nI = n.+1 by exists nI.-1; lia.
have hn : (n < nI)%N by lia.
have -> : iota 0 (N + 1) = rcons (iota 0 (nb n + Ks n)) (nb n + Ks n)%N by rewrite EN en nbS addn1 iota_rcons.
rewrite foldl_rcons (dyn2_mid (out := out) hn) ?K0 ?leqnn ?dyn2_start //.
rewrite {1}/dyn_step2 eqxx; have -> : (n.+1 < nI)%N = false by lia.
have -> : (nb n + Ks n < N)%N = false by rewrite EN en nbS; lia.
rewrite en dlS [(_, _).2]/= [in RHS]iota_rcons map_rcons -cats1 !foldl_cat.
by [].
Qed.

(** Effect of the additions. *)
Definition coef (I a j : nat) : F := - nth 0 (iw I) j * alpha I * Dus I a j.
Lemma addpE out I a : let o := addp out (I, (nb I + a)%N) in
  [/\ mvlam o = mvlam out, mvd2F o = mvd2F out,
   forall r, mvF o r = mvF out r + \sum_(j < Ks I) (if inr (nx * (nb I + j)) nx r then coef I a j * xs (nb I + a) (r - nx * (nb I + j))%N else 0) &
   forall r c, val (mvdF o) r c = val (mvdF out) r c +
     \sum_(j < Ks I) (if inr (nx * (nb I + j)) nx r && (2 + nx * (nb I + a) + (r - nx * (nb I + j)) == c)%N then coef I a j else 0)].
Proof using Type.
rewrite /addp /dyn_add /= addKn; elim: (Ks I) => [|n [IH1 IH2 IH3 IH4]].
  by split=> // *; rewrite /= big_ord0 addr0.
rewrite iota_rcons foldl_rcons /=; split=> // [r|r c]; rewrite big_ord_recr /= addrA.
  by rewrite /seg_add (mulnC (_ + n)%N) -inrE IH3; case: ifP => _; rewrite ?addr0.
by rewrite add_identityE IH4 (mulnC (_ + n)%N).
Qed.
Lemma addpsE out : let o := foldl addp out (dl nI) in
  [/\ mvlam o = mvlam out, mvd2F o = mvd2F out,
   forall r, mvF o r = mvF out r + \sum_(I < nI) \sum_(a < (Ks I).+1) \sum_(j < Ks I)
      (if inr (nx * (nb I + j)) nx r then coef I a j * xs (nb I + a) (r - nx * (nb I + j))%N else 0) &
   forall r c, val (mvdF o) r c = val (mvdF out) r c + \sum_(I < nI) \sum_(a < (Ks I).+1) \sum_(j < Ks I)
     (if inr (nx * (nb I + j)) nx r && (2 + nx * (nb I + a) + (r - nx * (nb I + j)) == c)%N then coef I a j else 0)].
Proof using Type.
elim: nI => [|n [IH1 IH2 IH3 IH4]]; first by split=> // *; rewrite /= big_ord0 addr0.
rewrite dlS foldl_cat; move: (foldl addp out (dl n)) IH1 IH2 IH3 IH4 => o IH1 IH2 IH3 IH4.
have G m : let o' := foldl addp o [seq (n, (nb n + a)%N) | a <- iota 0 m] in
  [/\ mvlam o' = mvlam o, mvd2F o' = mvd2F o,
   forall r, mvF o' r = mvF o r + \sum_(a < m) \sum_(j < Ks n)
      (if inr (nx * (nb n + j)) nx r then coef n a j * xs (nb n + a) (r - nx * (nb n + j))%N else 0) &
   forall r c, val (mvdF o') r c = val (mvdF o) r c + \sum_(a < m) \sum_(j < Ks n)
     (if inr (nx * (nb n + j)) nx r && (2 + nx * (nb n + a) + (r - nx * (nb n + j)) == c)%N then coef n a j else 0)].
  elim: m => [|m [G1 G2 G3 G4]]; first by split=> // *; rewrite /= big_ord0 addr0.
  rewrite iota_rcons map_rcons foldl_rcons.
  have [A1 A2 A3 A4] := addpE (foldl addp o [seq (n, (nb n + a)%N) | a <- iota 0 m]) n m.
  split; first by rewrite A1.
  - by rewrite A2.
  - by move=> r; rewrite A3 G3 big_ord_recr addrA.
  - by move=> r c; rewrite A4 G4 big_ord_recr addrA.
have [G1 G2 G3 G4] := G (Ks n).+1.
split; first by rewrite G1.
- by rewrite G2.
- by move=> r; rewrite G3 IH3 [in RHS]big_ord_recr addrA.
- by move=> r c; rewrite G4 IH4 [in RHS]big_ord_recr addrA.
Qed.
Lemma pick2 I j k (g : nat -> nat -> nat -> F) : (I < nI)%N -> (j < Ks I)%N -> (k < nx)%N ->
  \sum_(I' < nI) \sum_(a < (Ks I').+1) \sum_(j' < Ks I') (if inr (nx * (nb I' + j')) nx (nx * (nb I + j) + k) then g I' a j' else 0) =
  \sum_(a < (Ks I).+1) g I a j.
Proof using Type.
clear nI0 K0 EN; move=> hI hj hk; rewrite (bigD1 (Ordinal hI)) //= [X in _ + X]big1 ?addr0.
  apply: eq_bigr => a _; rewrite (bigD1 (Ordinal hj)) //= inr_row // eqxx big1 ?addr0 // => j'.
  by rewrite -val_eqE /= inr_row // eqn_add2l => /negbTE ->.
move=> I'; rewrite -val_eqE /= => ne; rewrite big1 // => a _; rewrite big1 // => j' _; rewrite inr_row //.
case: eqP => // e; have [eI _] := nb_inj (ltn_ord j') hj e.
by rewrite eI eqxx in ne.
Qed.
End Second.
