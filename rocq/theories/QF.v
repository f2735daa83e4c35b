(** Rational constants in an arbitrary ordered field, computed with QArith.  Used for concrete cases only. *)
From Coq Require Import ZArith QArith.
From mathcomp Require Import all_ssreflect all_algebra ssrZ zify.
From mathcomp.algebra_tactics Require Import ring.
Set Implicit Arguments.
Unset Strict Implicit.
Unset Printing Implicit Defensive.
Import Order.TTheory GRing.Theory Num.Theory.
Local Open Scope ring_scope.

Section Rationals.
Variable F : realFieldType.
Definition z2f (z : Z) : F := (int_of_Z z)%:~R.
Lemma int_of_ZD a b : int_of_Z (Z.add a b) = int_of_Z a + int_of_Z b.
Proof. by apply: (can_inj Z_of_intK); rewrite int_of_ZK; move: (int_of_ZK a) (int_of_ZK b); move: (int_of_Z a) (int_of_Z b) => x y; lia. Qed.
Lemma int_of_ZM a b : int_of_Z (Z.mul a b) = int_of_Z a * int_of_Z b.
Proof. by apply: (can_inj Z_of_intK); rewrite int_of_ZK; move: (int_of_ZK a) (int_of_ZK b); move: (int_of_Z a) (int_of_Z b) => x y; nia. Qed.
Lemma int_of_ZN a : int_of_Z (Z.opp a) = - int_of_Z a.
Proof. by apply: (can_inj Z_of_intK); rewrite int_of_ZK; move: (int_of_ZK a); move: (int_of_Z a) => x; lia. Qed.
Lemma int_of_Z_le a b : (int_of_Z a <= int_of_Z b) = Z.leb a b.
Proof. by move: (int_of_ZK a) (int_of_ZK b); move: (int_of_Z a) (int_of_Z b) => x y <- <-; lia. Qed.
Lemma z2fD a b : z2f (Z.add a b) = z2f a + z2f b.
Proof. by rewrite /z2f int_of_ZD rmorphD. Qed.
Lemma z2fM a b : z2f (Z.mul a b) = z2f a * z2f b.
Proof. by rewrite /z2f int_of_ZM rmorphM. Qed.
Lemma z2fN a : z2f (Z.opp a) = - z2f a.
Proof. by rewrite /z2f int_of_ZN rmorphN. Qed.
Lemma z2f_le a b : (z2f a <= z2f b) = Z.leb a b.
Proof. by rewrite /z2f ler_int int_of_Z_le. Qed.
Lemma z2f1 : z2f 1 = 1. Proof. by []. Qed.
Lemma z2f0 : z2f 0 = 0. Proof. by []. Qed.
Lemma z2f_pos d : 0 < z2f (Zpos d).
Proof. by rewrite lt_neqAle -z2f0 z2f_le andbT; apply/eqP => h; have := z2f_le (Zpos d) 0; rewrite -h lexx. Qed.
Lemma z2f_nat k : z2f (Z.of_nat k) = k%:R.
Proof. by rewrite /z2f; have -> : int_of_Z (Z.of_nat k) = k by lia. Qed.

Definition q2f (q : Q) : F := z2f (Qnum q) / z2f (Zpos (Qden q)).
Let dn d : z2f (Zpos d) != 0. Proof. by rewrite gt_eqF ?z2f_pos. Qed.
Lemma q2fD a b : q2f (Qplus a b) = q2f a + q2f b.
Proof. by case: a b => [n d] [n' d']; rewrite /q2f /= Pos2Z.inj_mul z2fD !z2fM; field; rewrite !dn. Qed.
Lemma q2fM a b : q2f (Qmult a b) = q2f a * q2f b.
Proof. by case: a b => [n d] [n' d']; rewrite /q2f /= Pos2Z.inj_mul !z2fM; field; rewrite !dn. Qed.
Lemma q2fN a : q2f (Qopp a) = - q2f a.
Proof. by case: a => [n d]; rewrite /q2f /= z2fN mulNr. Qed.
Lemma q2fB a b : q2f (Qminus a b) = q2f a - q2f b.
Proof. by rewrite /Qminus q2fD q2fN. Qed.
Lemma q2fV a : q2f (Qinv a) = (q2f a)^-1.
Proof.
case: a => [[|n|n] d]; rewrite /q2f /Qinv /= ?z2f0 ?mul0r ?invr0 // invf_div //.
by rewrite -[Zneg d]/(Z.opp (Zpos d)) -[Zneg n]/(Z.opp (Zpos n)) !z2fN invrN mulrN mulNr.
Qed.
Lemma q2f_div a b : q2f (Qdiv a b) = q2f a / q2f b.
Proof. by rewrite /Qdiv q2fM q2fV. Qed.
Lemma q2f_le a b : (q2f a <= q2f b) = Qle_bool a b.
Proof.
case: a b => [n d] [n' d']; rewrite /q2f /Qle_bool /= ler_pdivr_mulr ?z2f_pos // mulrAC ler_pdivl_mulr ?z2f_pos //.
by rewrite -!z2fM z2f_le.
Qed.
Lemma q2f_lt a b : (q2f a < q2f b) = ~~ Qle_bool b a.
Proof. by rewrite ltNge q2f_le. Qed.
Lemma q2f_eq a b : Qeq_bool a b -> q2f a = q2f b.
Proof.
case: a b => [n d] [n' d'] /Qeq_bool_iff; rewrite /Qeq /q2f /= => h.
by apply/eqP; rewrite eqr_div ?dn // -!z2fM h Z.mul_comm.
Qed.
Lemma q2f_nat k : k%:R = q2f (Qmake (Z.of_nat k) 1).
Proof. by rewrite /q2f /= z2f_nat z2f1 divr1. Qed.
Lemma q2f0 : q2f (Qmake 0 1) = 0. Proof. by rewrite /q2f /= mul0r. Qed.
Lemma q2f1 : q2f (Qmake 1 1) = 1. Proof. by rewrite /q2f /= divr1. Qed.
Definition qabs (a : Q) : Q := if Qle_bool (Qmake 0 1) a then a else Qopp a.
Definition qmax (a b : Q) : Q := if Qle_bool b a then a else b.
Definition qmin (a b : Q) : Q := if Qle_bool a b then a else b.
Lemma q2f_abs a : `|q2f a| = q2f (qabs a).
Proof.
rewrite /qabs -q2f_le q2f0; case: ifP => [h|/negbT]; first by rewrite ger0_norm.
by rewrite -ltNge => h; rewrite ltr0_norm // q2fN.
Qed.
Lemma q2f_max a b : Num.max (q2f a) (q2f b) = q2f (qmax a b).
Proof. by rewrite /qmax -q2f_le maxEle le_eqVlt; case: (ltgtP (q2f a) (q2f b)) => //= ->; case: ifP. Qed.
Lemma q2f_min a b : Num.min (q2f a) (q2f b) = q2f (qmin a b).
Proof. by rewrite /qmin -q2f_le minEle; case: ifP. Qed.
Fixpoint qpow (a : Q) (k : nat) : Q := if k is k'.+1 then Qred (Qmult a (qpow a k')) else Qmake 1 1.
Lemma q2f_red a : q2f (Qred a) = q2f a.
Proof. by apply: q2f_eq; apply/Qeq_bool_iff; exact: Qred_correct. Qed.
Lemma q2fX a k : (q2f a) ^+ k = q2f (qpow a k).
Proof. by elim: k => [|k IH]; [rewrite expr0 q2f1|rewrite exprS IH -q2fM -q2f_red]. Qed.
End Rationals.
Arguments q2f : simpl never.
