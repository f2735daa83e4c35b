(** C69: the table kBn holds the Bernoulli numbers, and its series inverts that of dr_exp. *)
From Coq Require Import NArith ZArith.
From mathcomp Require Import all_ssreflect all_algebra.
From mathcomp.algebra_tactics Require Import ring.
From mathcomp Require Import zify ssrZ.
From Verif Require Import Calc QpModel QpSpec FlatModel FlatSpec.
Set Implicit Arguments.
Unset Strict Implicit.
Unset Printing Implicit Defensive.
Import Order.TTheory GRing.Theory Num.Theory.
Local Open Scope ring_scope.

Delimit Scope Z_scope with BZ.
Section Bern.
Variable F : realFieldType.
(** Integers in binary. *)
Definition zr (z : Z) : F := (int_of_Z z)%:~R.
Lemma zrD a b : zr (a + b)%BZ = zr a + zr b. Proof. by rewrite /zr -intrD -[int_of_Z a + _]rmorphD. Qed.
Lemma zrM a b : zr (a * b)%BZ = zr a * zr b. Proof. by rewrite /zr -intrM -[int_of_Z a * _]rmorphM. Qed.
Lemma zr0 : zr 0%BZ = 0. Proof. by []. Qed.
Lemma zr1 : zr 1%BZ = 1. Proof. by []. Qed.
Lemma zrN a : zr (- a)%BZ = - zr a. Proof. by apply/eqP; rewrite -subr_eq0 opprK -zrD Z.add_opp_diag_l; exact: eqxx. Qed.
Lemma numE n : num F n = zr (Z.of_N n).
Proof.
rewrite /num /zr; case: n => [|p] //=; rewrite -pmulrn; congr (_%:R).
by elim: p => [p IH|p IH|] //=; rewrite IH ?Pos2Nat.inj_xI ?Pos2Nat.inj_xO NatTrec.doubleE; lia.
Qed.
Lemma zr_neq0 a : (a =? 0)%BZ = false -> zr a != 0.
Proof.
move=> h; rewrite /zr intr_eq0; apply/eqP => h0; have := congr1 Z_of_int h0.
by rewrite int_of_ZK /=; lia.
Qed.

(** Binomials by Pascal's rule. *)
Fixpoint pasc (p : Z) (r : seq Z) : seq Z := if r is a :: r' then (p + a)%BZ :: pasc a r' else [:: p].
Definition rowZ (n : nat) : seq Z := iter n (pasc 0%BZ) [:: 1%BZ].
Lemma nth_pasc p r k : nth 0%BZ (pasc p r) k = ((if k is j.+1 then nth 0%BZ r j else p) + nth 0%BZ r k)%BZ.
Proof.
elim: r p k => [|a r IH] p [|k] //=; first by lia.
  by rewrite nth_nil; case: k => [|k] /=; rewrite ?nth_nil; lia.
rewrite IH; by case: k.
Qed.
Lemma rowE n k : zr (nth 0%BZ (rowZ n) k) = 'C(n, k)%:R.
Proof.
elim: n k => [|n IH] k; first by case: k => [|k] //=; rewrite nth_nil.
rewrite /rowZ iterS nth_pasc zrD -/(rowZ n) IH; case: k => [|k]; first by rewrite bin0 zr0 add0r bin0.
by rewrite IH binS natrD addrC.
Qed.

(** A common denominator L, and the numerators. *)
Definition Ld : Z := (2 * 3 * 5 * 7 * 11 * 13 * 17 * 19 * 23)%BZ.
Definition quo (p : Z) (q : N) : Z := (p * (Ld / Z.of_N q))%BZ.
Definition numer : seq Z := [:: quo 1 1; quo (-1) 2; quo 1 6; 0; quo (-1) 30; 0; quo 1 42; 0; quo (-1) 30; 0; quo 5 66; 0;
  quo (-691) 2730; 0; quo 7 6; 0; quo (-3617) 510; 0; quo 43867 798; 0; quo (-174611) 330; 0; quo 854513 138]%BZ.
Lemma L0 : zr Ld != 0. Proof. exact: zr_neq0. Qed.
Lemma quoE p q : (Z.of_N q =? 0)%BZ = false -> (Ld =? Z.of_N q * (Ld / Z.of_N q))%BZ = true -> zr p / num F q = zr (quo p q) / zr Ld.
Proof.
move=> q0 /Z.eqb_eq d; rewrite numE /quo zrM; have h := zr_neq0 q0; have hL := L0.
move: (Ld / Z.of_N q)%BZ d => w d; rewrite d zrM in hL *; rewrite mulf_eq0 negb_or in hL.
by case/andP: hL => h1 h2; field; rewrite h1 h2.
Qed.
Lemma quoN p q : (Z.of_N q =? 0)%BZ = false -> (Ld =? Z.of_N q * (Ld / Z.of_N q))%BZ = true -> - (zr p / num F q) = zr (quo (- p) q) / zr Ld.
Proof. by move=> h1 h2; rewrite -mulNr -zrN; exact: quoE. Qed.
Lemma kBnE : kBn F = [seq zr z / zr Ld | z <- numer].
Proof.
have h0 : 0 = zr 0%BZ / zr Ld by rewrite zr0 mul0r.
have qE p q := @quoE (Z.of_N p) q; have qN p q := @quoN (Z.of_N p) q.
rewrite /kBn /numer; do !(congr cons => //); rewrite ?h0 // ?(numE 1) ?(numE 5) ?(numE 691) ?(numE 7) ?(numE 3617) ?(numE 43867) ?(numE 174611) ?(numE 854513).
by rewrite -[LHS]divr1 -[X in _ / X]/(num F 1); exact: (qE 1%num).
all: by [exact: quoE|exact: quoN].
Qed.
Lemma tableE k : nth 0 (kBn F) k = zr (nth 0%BZ numer k) / zr Ld.
Proof.
rewrite kBnE; case: (ltnP k 23) => h; first by rewrite (nth_map 0%BZ).
by rewrite !nth_default // zr0 mul0r.
Qed.

Lemma sum_foldr (n : nat) (g : nat -> Z) (h : nat -> F) : (forall k, zr (g k) = h k) ->
  \sum_(k < n) h k = zr (foldr (fun k s => (g k + s)%BZ) 0%BZ (iota 0 n)).
Proof.
move=> gh; rewrite -(big_mkord xpredT h) /index_iota subn0; elim: (iota 0 n) => [|k l IH]; first by rewrite big_nil.
by rewrite big_cons IH /= zrD gh.
Qed.
Lemma table_rec n : (0 < n < 23)%N -> \sum_(k < n.+1) 'C(n.+1, k)%:R * nth 0 (kBn F) k = 0.
Proof.
move=> hn; pose g k := (nth 0 (rowZ n.+1) k * nth 0 numer k)%BZ.
rewrite (eq_bigr (fun k : 'I_n.+1 => zr (g k) / zr Ld)); last first.
  by move=> k _; rewrite tableE mulrA -rowE -zrM.
rewrite -mulr_suml (sum_foldr (g := g) (h := fun k => zr (g k)) n.+1) //.
have : all (fun n => (foldr (fun k s => (nth 0%BZ (rowZ n.+1) k * nth 0%BZ numer k + s)%BZ) 0%BZ (iota 0 n.+1) =? 0)%BZ) (iota 1 22) by vm_compute.
move=> /allP /(_ n); rewrite mem_iota => /(_ _)/Z.eqb_eq; rewrite -/g => -> //.
by rewrite zr0 mul0r.
Qed.

(** Every entry of the table is the Bernoulli number of its index. *)
Theorem C69_table (B : nat -> F) : is_bernoulli B -> size (kBn F) = 23%N /\ forall n, (n < 23)%N -> nth 0 (kBn F) n = B n.
Proof.
case=> b0 br; split=> // n; elim/ltn_ind: n => -[|n] IH hn; first by rewrite b0.
have := table_rec (n := n.+1) hn; rewrite big_ord_recr /= binSn => e2.
have := br n.+1 isT; rewrite big_ord_recr /= binSn => e1.
have e3 : \sum_(k < n.+1) 'C(n.+2, k)%:R * nth 0 (kBn F) k = \sum_(k < n.+1) 'C(n.+2, k)%:R * B k.
  by apply: eq_bigr => k _; rewrite IH // (ltn_trans _ hn) // ltnS ltnW.
have n0 : (n.+2)%:R != 0 :> F by rewrite pnatr_eq0.
apply: (mulfI n0); apply: (addrI (\sum_(k < n.+1) 'C(n.+2, k)%:R * B k)).
by rewrite e1 -e3 e2.
Qed.

(** Sums along diagonals. *)
Lemma sum_diag (V : zmodType) (g : nat -> nat -> V) N :
  \sum_(n < N) \sum_(m < N - n) g n m = \sum_(s < N) \sum_(n < s.+1) g n (s - n)%N.
Proof.
elim: N => [|N IH]; first by rewrite !big_ord0.
rewrite [RHS]big_ord_recr /= -IH.
rewrite (eq_bigr (fun n : 'I_N.+1 => \sum_(m < N - n) g n m + g n (N - n)%N)); last first.
  by move=> n _; rewrite subSn ?big_ord_recr //= -ltnS.
rewrite big_split /=; congr (_ + _).
by rewrite big_ord_recr /= subnn big_ord0 addr0.
Qed.

Section Inverse.
Variables (p : nat) (A : 'M[F]_p).
Local Notation pw n := (iter n (mulmx A)).
Lemma pwD n m (w : 'cV[F]_p) : pw n (pw m w) = pw (n + m) w. Proof. by rewrite iterD. Qed.
Lemma pw_lin n (c : F) (a b : 'cV[F]_p) : pw n (c *: a + b) = c *: pw n a + pw n b.
Proof. by elim: n => //= n ->; rewrite mulmxDr -scalemxAr. Qed.
Lemma pw0 n : pw n (0 : 'cV[F]_p) = 0. Proof. by elim: n => //= n ->; rewrite mulmx0. Qed.
Lemma pw_sum n (I : Type) (r : seq I) (c : I -> F) (a : I -> 'cV[F]_p) :
  pw n (\sum_(i <- r) c i *: a i) = \sum_(i <- r) c i *: pw n (a i).
Proof. by elim: r => [|i r IH]; rewrite ?big_nil ?pw0 // !big_cons pw_lin IH. Qed.

(** For a nilpotent matrix A, the series with the coefficients of the table inverts the series of dr_exp. *)
Theorem C69_inverse (w : 'cV[F]_p) : (forall n, (23 <= n)%N -> pw n w = 0) ->
  \sum_(n < 23) (nth 0 (kBn F) n * ((-1) ^+ n / n`!%:R)) *:
    pw n (\sum_(m < 23) ((-1) ^+ m / (m.+1)`!%:R) *: pw m w) = w.
Proof.
move=> nil; pose c n : F := nth 0 (kBn F) n * ((-1) ^+ n / n`!%:R).
pose d m : F := (-1) ^+ m / (m.+1)`!%:R.
rewrite (eq_bigr (fun n : 'I_23 => \sum_(m < 23 - n) (c n * d m) *: pw (n + m) w)); last first.
  move=> n _; rewrite pw_sum scaler_sumr.
  rewrite -(big_mkord xpredT (fun m => c n *: (d m *: pw n (pw m w)))) -(big_mkord xpredT (fun m => (c n * d m) *: pw (n + m) w)).
  rewrite (@big_cat_nat _ _ _ (23 - n)) ?leq_subr //= [X in _ + X]big1_seq ?addr0; last first.
    move=> m; rewrite mem_index_iota => /andP[_ /andP[h _]]; rewrite pwD nil ?scaler0 //.
    by move: h; rewrite leq_subLR.
  by apply: eq_bigr => m _; rewrite scalerA pwD.
rewrite (sum_diag (fun n m => (c n * d m) *: pw (n + m) w)).
rewrite (eq_bigr (fun s : 'I_23 => (s == 0%N :> nat)%:R *: pw s w)).
  by rewrite big_ord_recl /= scale1r big1 ?addr0 // => i _; rewrite scale0r.
move=> s _; rewrite (eq_bigr (fun n : 'I_s.+1 => (c n * d (s - n)%N) *: pw s w)); last first.
  by move=> n _; rewrite subnKC // -ltnS.
rewrite -scaler_suml; congr (_ *: _).
have f0 n : n`!%:R != 0 :> F by rewrite pnatr_eq0 -lt0n fact_gt0.
rewrite (eq_bigr (fun n : 'I_s.+1 => (-1) ^+ s / (s.+1)`!%:R * ('C(s.+1, n)%:R * nth 0 (kBn F) n))); last first.
  move=> n _; have ns : (n <= s)%N by rewrite -ltnS.
  rewrite /c /d; move: (nat_of_ord n) ns => {}n ns; move: (nat_of_ord s) ns => {}s ns.
  have -> : (-1) ^+ s = (-1) ^+ n * (-1) ^+ (s - n) :> F by rewrite -exprD subnKC.
  rewrite -(bin_fact (n := s.+1) (m := n)) ?(leqW ns) // subSn // (natrM _ 'C(s.+1, n)) (natrM _ n`!).
  have b0 : 'C(s.+1, n)%:R != 0 :> F by rewrite pnatr_eq0 -lt0n bin_gt0 leqW.
  move: (f0 n) (f0 (s - n).+1) b0; move: (n`!%:R) ((s - n).+1`!%:R) ('C(_, _)%:R) ((-1) ^+ _) ((-1) ^+ (s - n)) (nth _ _ _) => a b e x y z a0 b0 e0.
  by field; rewrite ?a0 ?b0 ?e0.
rewrite -mulr_sumr; case: (posnP s) => s0; last by rewrite table_rec ?mulr0 ?(gtn_eqF s0) // s0 ltn_ord.
rewrite s0 big_ord1 bin0 expr0 factS fact0 muln1 invr1 !mul1r.
by [].
Qed.
End Inverse.
End Bern.
