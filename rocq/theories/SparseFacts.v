(** Entries of the results of the sparse matrix utilities. *)
From mathcomp Require Import all_ssreflect all_algebra zify.
From mathcomp.algebra_tactics Require Import ring.
From Verif Require Import SparseModel.
Set Implicit Arguments.
Unset Strict Implicit.
Unset Printing Implicit Defensive.
Import Order.TTheory GRing.Theory Num.Theory.
Local Open Scope ring_scope.

Section Facts.
Variable F : realFieldType.
Implicit Types (d m : smat F) (s : src F).

(** (r, c) is in the block addressed by (r0, c0) and written there. *)
Definition inb (r0 c0 rows cols : nat) (up : bool) (r c : nat) : bool :=
  [&& (r0 <= r < r0 + rows)%N, (c0 <= c < c0 + cols)%N & ~~ up || (r <= c)%N].
Definition srcval s (r c : nat) : F := odflt 0 (ent s r c).

Lemma mem_pos rows cols r c : ((r, c) \in [seq (r, c) | c <- iota 0 cols, r <- iota 0 rows]) = (r < rows)%N && (c < cols)%N.
Proof.
apply/allpairsP/andP => [[[c' r'] [/=]]|[h1 h2]].
  by rewrite !mem_iota => ? ? [-> ->].
by exists (c, r); rewrite /= !mem_iota.
Qed.
Lemma uniq_pos rows cols : uniq [seq (r, c) | c <- iota 0 cols, r <- iota 0 rows].
Proof. by apply: allpairs_uniq; rewrite ?iota_uniq // => -[a b] [a' b'] _ _ [-> ->]. Qed.

(** Any order of visiting the entries once gives the same matrix. *)
Lemma block_foldE g r0 c0 up (en : nat -> nat -> option F) (l : seq (nat * nat)) d r c : uniq l ->
  foldl (block_step g r0 c0 up en) d l r c =
  if [&& (r0 <= r)%N, (c0 <= c)%N, (r - r0, c - c0)%N \in l & ~~ up || (r <= c)%N] then
    if en (r - r0)%N (c - c0)%N is Some v then Some (g (val d r c) v) else d r c
  else d r c.
Proof.
elim: l d => [|[a b] l IH] d; first by rewrite in_nil andFb !andbF.
move=> /= /andP[al ul]; rewrite IH // inE.
have [E|E] := boolP [&& (r == r0 + a)%N & (c == c0 + b)%N].
  move: E => /andP[/eqP -> /eqP ->]; rewrite !leq_addr !addKn (negbTE al) eqxx /=.
  rewrite /block_step /=; case: (en a b) => [v|] /=; last by case: ifP.
  case: ifP => // _; by rewrite /upd !eqxx.
have st : block_step g r0 c0 up en d (a, b) r c = d r c.
  rewrite /block_step /=; case: (en a b) => // v; case: ifP => // _; by rewrite /upd (negbTE E).
have -> : [&& (r0 <= r)%N, (c0 <= c)%N, ((r - r0, c - c0)%N == (a, b)) || ((r - r0, c - c0)%N \in l) & ~~ up || (r <= c)%N]
   = [&& (r0 <= r)%N, (c0 <= c)%N, (r - r0, c - c0)%N \in l & ~~ up || (r <= c)%N].
  case: (leqP r0 r) => //= h1; case: (leqP c0 c) => //= h2; have -> // : ((r - r0, c - c0)%N == (a, b)) = false.
  apply/negbTE; apply: contra E => /eqP[<- <-]; by rewrite !subnKC ?eqxx.
by rewrite /val st.
Qed.
Lemma block_opE g d r0 c0 s up r c : block_op g d r0 c0 s up r c =
  if inb r0 c0 (rows s) (cols s) up r c then
    if ent s (r - r0) (c - c0) is Some v then Some (g (val d r c) v) else d r c
  else d r c.
Proof.
rewrite /block_op block_foldE ?uniq_pos // mem_pos /inb.
congr (if _ then _ else _); case: (leqP r0 r) => //= h1; case: (leqP c0 c) => //= h2; lia.
Qed.
Lemma val_block_add d r0 c0 s k up r c : val (block_add d r0 c0 s k up) r c =
  val d r c + (if inb r0 c0 (rows s) (cols s) up r c then k * srcval s (r - r0) (c - c0) else 0).
Proof.
rewrite /val /block_add block_opE /srcval; case: ifP => _; last by rewrite addr0.
by case: (ent _ _ _) => [v|] //=; rewrite mulr0 addr0.
Qed.
Lemma isSome_block_op g d r0 c0 s up r c : isSome (block_op g d r0 c0 s up r c) =
  isSome (d r c) || inb r0 c0 (rows s) (cols s) up r c && isSome (ent s (r - r0) (c - c0)).
Proof. by rewrite block_opE; case: ifP => _; case: (ent _ _ _) => [v|]; rewrite ?orbT ?orbF. Qed.

Lemma val_upd d r c v r' c' : val (upd d r c v) r' c' = if (r' == r) && (c' == c) then v else val d r' c'.
Proof. by rewrite /val /upd; case: ifP. Qed.
Lemma add_identityE n d r0 c0 k r c : val (block_add_identity d r0 c0 n k) r c =
  val d r c + (if (r0 <= r < r0 + n)%N && (c0 + (r - r0) == c)%N then k else 0).
Proof.
rewrite /block_add_identity; elim: n r c => [|n IH] r c; first by rewrite /= (_ : (_ && _) = false) ?addr0 //; lia.
rewrite -addn1 iotaD foldl_cat /= add0n val_upd.
case: ifP => [/andP[/eqP -> /eqP ->]|h]; rewrite IH.
  by rewrite ltnn andbF /= addr0 leq_addr ltn_add2l addn1 ltnSn addKn eqxx.
congr (_ + _); congr (if _ then _ else _); apply/idP/idP; lia.
Qed.
Lemma write_identityE n d r0 c0 k r c : block_write_identity d r0 c0 n k r c =
  if (r0 <= r < r0 + n)%N && (c0 + (r - r0) == c)%N then Some k else d r c.
Proof.
rewrite /block_write_identity; elim: n => [|n IH]; first by rewrite /= (_ : (_ && _) = false) //; lia.
rewrite -addn1 iotaD foldl_cat /= add0n {1}/upd.
case: ifP => [/andP[/eqP -> /eqP ->]|h]; first by rewrite leq_addr ltn_add2l addn1 ltnSn addKn eqxx.
rewrite IH; congr (if _ then _ else _); apply/idP/idP; lia.
Qed.

(** A sequence of additions. *)
Definition contrib (o : bop F) (r c : nat) : F :=
  if inb (b_r o) (b_c o) (rows (b_s o)) (cols (b_s o)) (b_up o) r c then b_k o * srcval (b_s o) (r - b_r o) (c - b_c o) else 0.
Lemma val_bexec d l r c : val (bexec d l) r c = val d r c + \sum_(o <- l) contrib o r c.
Proof.
rewrite /bexec; elim: l d => [|o l IH] d /=; first by rewrite big_nil addr0.
by rewrite IH val_block_add big_cons addrA.
Qed.
(** A loop that adds blocks in every round. *)
Lemma val_loop (I : Type) (l : seq I) (b : smat F -> I -> smat F) (g : I -> nat -> nat -> F) d r c :
  (forall d i r c, val (b d i) r c = val d r c + g i r c) ->
  val (foldl b d l) r c = val d r c + \sum_(i <- l) g i r c.
Proof.
move=> h; elim: l d => [|i l IH] d /=; first by rewrite big_nil addr0.
by rewrite IH h big_cons addrA.
Qed.
Lemma val_set_zero d r c : val (set_zero d) r c = 0.
Proof. by rewrite /val /set_zero; case: (d r c). Qed.

(** d2r_fog. *)
Lemma val_d2r_fog No Ny Nx (out Jf Hf Jg Hg : smat F) r0 c0 a b no : (a < Nx)%N -> (b < Nx)%N -> (no < No)%N ->
  val (d2r_fog No Ny Nx out Jf Hf Jg Hg r0 c0) (r0 + a) (c0 + no * Nx + b) = val out (r0 + a) (c0 + no * Nx + b) +
  \sum_(k < Ny) \sum_(l < Ny) val Jg k a * val Hf k (no * Ny + l) * val Jg l b +
  \sum_(k < Ny) val Jf no k * val Hg a (k * Nx + b).
Proof.
move=> aN bN nN; rewrite /d2r_fog.
have blk i : (c0 + i * Nx <= c0 + no * Nx + b < c0 + i * Nx + Nx)%N = (i == no).
  apply/idP/eqP => [/andP[h1 h2]|->]; nia.
rewrite (@val_loop _ _ _ (fun rc r c => contrib (Bop r0 (c0 + rc.1 * Nx) (block Hg 0 (rc.2 * Nx) Nx Nx) (val Jf rc.1 rc.2) false) r c)); last first.
  move=> d [i j] r c /=; rewrite {1}/val /val; case E : (Jf i j) => [v|].
    by rewrite -/(val _ r c) val_block_add.
  by rewrite /contrib /= mul0r; case: ifP; rewrite addr0.
rewrite (@val_loop _ _ _ (fun i r c => contrib (Bop r0 (c0 + i * Nx) (prod_src Ny Nx Jg Hf (i * Ny)) 1 false) r c)); last first.
  by move=> d i r c /=; rewrite val_block_add.
congr (_ + _ + _).
  rewrite (bigD1_seq no) ?mem_iota ?iota_uniq //= big1 ?addr0.
    rewrite /contrib /inb /= blk eqxx leq_addr ltn_add2l aN mul1r /srcval /=.
    rewrite !addKn; case: ifP => //= /hasPn h; apply/esym; apply: big1 => k _; apply: big1 => l _.
    have := h k; rewrite mem_iota ltn_ord => /(_ isT) /hasPn /(_ l); rewrite mem_iota ltn_ord => /(_ isT).
    by rewrite /val; case: (Jg k a) => [?|] /=; case: (Hf _ _) => [?|] /=; case: (Jg l b) => [?|] //=; rewrite ?(mul0r, mulr0).
  by move=> i ni; rewrite /contrib /inb /= blk (negbTE ni) andbF.
rewrite big_allpairs_dep /= -[X in iota 0 X]subn0 -/(index_iota 0 Ny) big_mkord; apply: eq_bigr => k _.
rewrite (bigD1_seq no) ?mem_iota ?iota_uniq //= big1 ?addr0.
  by rewrite /contrib /inb /= blk eqxx leq_addr ltn_add2l aN /srcval /= !addKn add0n.
by move=> i ni; rewrite /contrib /inb /= blk (negbTE ni) andbF.
Qed.
End Facts.
