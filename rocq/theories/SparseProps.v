(** C32-C34, C73: the sparse matrix utilities. *)
From mathcomp Require Import all_ssreflect all_algebra zify.
From mathcomp.algebra_tactics Require Import ring.
From Verif Require Import Calc SparseModel SparseFacts.
Set Implicit Arguments.
Unset Strict Implicit.
Unset Printing Implicit Defensive.
Import Order.TTheory GRing.Theory Num.Theory.
Local Open Scope ring_scope.

Section Props.
Variable F : realFieldType.
Implicit Types (d : smat F) (s : src F).

Lemma inb_ex r0 c0 nr nc up r c :
  (forall i j, (i < nr)%N -> (j < nc)%N -> up = false \/ (r0 + i <= c0 + j)%N -> (r, c) <> (r0 + i, c0 + j)%N) ->
  inb r0 c0 nr nc up r c -> False.
Proof.
move=> h /and3P[/andP[r1 r2] /andP[c1 c2] hu]; apply: (h (r - r0)%N (c - c0)%N); rewrite ?subnKC //.
- lia.
- lia.
- by case: up hu {h} => /= hu; [right|left].
Qed.

(** * C32 *)
(** Entry (i, j) of the block gets scale * source(i, j), everything else is unchanged.  Entries become
    stored only where the source has a stored entry. *)
Theorem C32_block_add d r0 c0 s k up :
  (forall i j, (i < rows s)%N -> (j < cols s)%N -> up = false \/ (r0 + i <= c0 + j)%N ->
     val (block_add d r0 c0 s k up) (r0 + i) (c0 + j) = val d (r0 + i) (c0 + j) + k * odflt 0 (ent s i j)) /\
  (forall r c, (forall i j, (i < rows s)%N -> (j < cols s)%N -> up = false \/ (r0 + i <= c0 + j)%N -> (r, c) <> (r0 + i, c0 + j)%N) ->
     block_add d r0 c0 s k up r c = d r c) /\
  (forall r c, isSome (d r c) -> isSome (block_add d r0 c0 s k up r c)).
Proof.
split; [|split] => [i j ir jc hu|r c h|r c h].
- rewrite val_block_add /inb !leq_addr !ltn_add2l ir jc /= (_ : ~~ up || _ = true) ?addKn //.
  by case: hu => [->|->]; rewrite ?orbT.
- rewrite /block_add block_opE; by case: ifP => // /(inb_ex h).
- by rewrite /block_add isSome_block_op h.
Qed.
Theorem C32_block_add_identity d r0 c0 n k r c : val (block_add_identity d r0 c0 n k) r c =
  val d r c + (if [exists i : 'I_n, (r == r0 + i)%N && (c == c0 + i)%N] then k else 0).
Proof.
rewrite add_identityE; congr (_ + _); congr (if _ then _ else _); apply/idP/existsP => [h|[i h]].
  have hi : (r - r0 < n)%N by lia.
  by exists (Ordinal hi) => /=; lia.
have := ltn_ord i; lia.
Qed.
Theorem C32_set_zero d r c : val (set_zero d) r c = 0 /\ isSome (set_zero d r c) = isSome (d r c).
Proof. by rewrite val_set_zero /set_zero; case: (d r c). Qed.

(** * C33 *)
(** Full statement: after block_write every entry of the block equals scale * source.  False: entries the
    source does not store keep their old value. *)
Theorem C33_refuted : exists d s k, ~ (forall i j, (i < rows s)%N -> (j < cols s)%N ->
  val (block_write d 0 0 s k false) i j = k * odflt 0 (ent s i j)).
Proof.
exists (fun _ _ => Some 1), (Src 1 1 (fun _ _ => None)), 1 => /(_ 0%N 0%N isT isT).
by rewrite /block_write /val block_opE /= mulr0 => /eqP; rewrite oner_eq0.
Qed.
(** Holds where the source stores the entry (in particular for dense sources) or the destination is zero;
    and nothing outside of the block changes. *)
Theorem C33_block_write_partial d r0 c0 s k up :
  (forall i j, (i < rows s)%N -> (j < cols s)%N -> up = false \/ (r0 + i <= c0 + j)%N ->
     isSome (ent s i j) \/ val d (r0 + i) (c0 + j) = 0 ->
     val (block_write d r0 c0 s k up) (r0 + i) (c0 + j) = k * odflt 0 (ent s i j)) /\
  (forall r c, (forall i j, (i < rows s)%N -> (j < cols s)%N -> up = false \/ (r0 + i <= c0 + j)%N -> (r, c) <> (r0 + i, c0 + j)%N) ->
     block_write d r0 c0 s k up r c = d r c).
Proof.
split=> [i j ir jc hu hs|r c h].
  rewrite /block_write /val block_opE /inb !leq_addr !ltn_add2l ir jc /= !addKn (_ : ~~ up || _ = true).
    case E : (ent s i j) hs => [v|] //= [//|]; by rewrite /val mulr0.
  by case: hu => [->|->]; rewrite ?orbT.
rewrite /block_write block_opE; by case: ifP => // /(inb_ex h).
Qed.
Theorem C33_dense d r0 c0 nr nc (g : nat -> nat -> F) k i j : (i < nr)%N -> (j < nc)%N ->
  val (block_write d r0 c0 (dense nr nc g) k false) (r0 + i) (c0 + j) = k * g i j.
Proof. by move=> hi hj; apply: (C33_block_write_partial _ _ _ _ _ _).1 => //; left. Qed.
Theorem C33_write_identity d r0 c0 n k :
  (forall i, (i < n)%N -> val (block_write_identity d r0 c0 n k) (r0 + i) (c0 + i) = k) /\
  (forall r c, (forall i, (i < n)%N -> (r, c) <> (r0 + i, c0 + i)%N) -> block_write_identity d r0 c0 n k r c = d r c).
Proof.
split=> [i hi|r c h]; rewrite /val write_identityE.
  by rewrite leq_addr ltn_add2l hi addKn eqxx.
case: ifP => // /andP[/andP[h1 h2] /eqP h3]; exfalso; apply: (h (r - r0)%N); first lia.
by rewrite -h3 subnKC.
Qed.

(** * C34 *)
Section Fog.
Variables (No Ny Nx : nat) (f : 'I_No -> 'cV[F]_Ny -> F) (g : 'I_Ny -> 'cV[F]_Nx -> F).
Definition gvec (x : 'cV[F]_Nx) : 'cV[F]_Ny := \col_k g k x.
(** Jf, Hf, Jg, Hg are the derivatives of f and g, in the layout of the library: column no * Ny + l of row
    k of Hf is d2 f_no / dy_k dy_l. *)
Variables (Jf Hf : 'cV[F]_Ny -> smat F) (Jg Hg : 'cV[F]_Nx -> smat F).
Hypothesis f1 : forall no y, frechet (f no) y (fun k => val (Jf y) no k).
Hypothesis f2 : forall (no : 'I_No) (k : 'I_Ny) y, frechet (fun y => val (Jf y) no (nat_of_ord k)) y (fun l : 'I_Ny => val (Hf y) k (no * Ny + l)).
Hypothesis g1 : forall (k : 'I_Ny) x (a : 'I_Nx), partial (g k) x a (val (Jg x) k a).
Hypothesis g2 : forall (k : 'I_Ny) x (a b : 'I_Nx), partial (fun x => val (Jg x) (nat_of_ord k) (nat_of_ord a)) x b (val (Hg x) a (k * Nx + b)).

(** Added to an output that is zero there, the result is the Hessian of every f_no(g(x)). *)
Theorem C34_hessian out x r0 c0 (no : 'I_No) (a b : 'I_Nx) : val out (r0 + a) (c0 + no * Nx + b) = 0 ->
  hess (fun x => f no (gvec x)) x a b
    (val (d2r_fog No Ny Nx out (Jf (gvec x)) (Hf (gvec x)) (Jg x) (Hg x) r0 c0) (r0 + a) (c0 + no * Nx + b)).
Proof.
move=> z; rewrite val_d2r_fog // z add0r.
exists (fun w => \sum_(k < Ny) val (Jf (gvec w)) no k * val (Jg w) k a).
  move=> w; rewrite /partial; apply: (@deriv_chain F Ny (f no) (fun t => gvec (setc w a t)) (w a 0) (fun k => val (Jg w) k a) (fun k => val (Jf (gvec w)) no k)).
    by rewrite setc_id.
  by move=> k; apply: deriv_ext (g1 k w a) => s; rewrite mxE.
rewrite /partial.
have -> : \sum_(k < Ny) \sum_(l < Ny) val (Jg x) k a * val (Hf (gvec x)) k (no * Ny + l) * val (Jg x) l b +
  \sum_(k < Ny) val (Jf (gvec x)) no k * val (Hg x) a (k * Nx + b) =
  \sum_(k < Ny) ((\sum_(l < Ny) val (Hf (gvec x)) k (no * Ny + l) * val (Jg x) l b) * val (Jg (setc x b (x b 0))) k a +
    val (Jf (gvec (setc x b (x b 0)))) no k * val (Hg x) a (k * Nx + b)).
  rewrite setc_id -big_split; apply: eq_bigr => k _; congr (_ + _); rewrite mulr_suml; apply: eq_bigr => l _; ring.
apply: deriv_sum => k _; apply: deriv_mul; last exact: g2.
apply: (@deriv_chain F Ny (fun y => val (Jf y) no k) (fun t => gvec (setc x b t)) (x b 0) (fun l => val (Jg x) l b)
  (fun l => val (Hf (gvec x)) k (no * Ny + l))); first by rewrite setc_id; exact: f2.
by move=> l; apply: deriv_ext (g1 l x b) => s; rewrite mxE.
Qed.
End Fog.

(** * C73 *)
Lemma mark_fold (l : seq (nat * nat)) s (m : nat -> nat -> F) r c : uniq l ->
  foldl (fun (m : nat -> nat -> F) rc => if ent s rc.1 rc.2 is Some v then
      fun r c => if (r == rc.1) && (c == rc.2) then (if v == 0 then 9%:R else 1) else m r c else m) m l r c =
  if (r, c) \in l then (if ent s r c is Some v then (if v == 0 then 9%:R else 1) else m r c) else m r c.
Proof.
elim: l m => [|[a b] l IH] m //= /andP[al ul]; rewrite IH // inE xpair_eqE.
case E : ((r == a) && (c == b)) => /=.
  move: E => /andP[/eqP -> /eqP ->]; rewrite (negbTE al); case: (ent s a b) => // v; by rewrite !eqxx.
by case: (ent s a b) => // v; rewrite E.
Qed.
(** 0 for implicit zeros, 1 for stored non-zeros, 9 for stored zeros; and the count is the number of 9s. *)
Theorem C73_mark s r c : (r < rows s)%N -> (c < cols s)%N ->
  mark_explicit_zeros s r c = match ent s r c with None => 0 | Some v => if v == 0 then 9%:R else 1 end.
Proof. by move=> hr hc; rewrite /mark_explicit_zeros mark_fold ?uniq_pos // mem_pos hr hc. Qed.
Theorem C73_count s : count_explicit_zeros s =
  (\sum_(r < rows s) \sum_(c < cols s) (mark_explicit_zeros s r c == 9%:R))%N.
Proof.
rewrite /count_explicit_zeros.
have G (l : seq (nat * nat)) k :
  foldl (fun n rc => if ent s rc.1 rc.2 is Some v then (if v == 0 then n.+1 else n) else n) k l =
  (k + \sum_(rc <- l) (ent s rc.1 rc.2 == Some 0%R))%N.
  elim: l k => [|rc l IH] k /=; first by rewrite big_nil addn0.
  rewrite IH big_cons; case: (ent s rc.1 rc.2) => [v|] //.
  have -> : (Some v == Some 0) = (v == 0) by [].
  by case: ifP; rewrite ?addSnnS // add1n.
rewrite G add0n big_allpairs_dep /= -[X in iota 0 X]subn0 -/(index_iota 0 (cols s)) big_mkord exchange_big /=.
rewrite -[X in iota 0 X]subn0 -/(index_iota 0 (rows s)) big_mkord; apply: eq_bigr => r _; apply: eq_bigr => c _.
rewrite C73_mark //; case: (ent s r c) => [v|] /=; last by rewrite eq_sym pnatr_eq0.
have -> : (Some v == Some 0) = (v == 0) by [].
by case: ifP => _; rewrite ?eqxx // -[1]/(1%:R) eqr_nat.
Qed.
End Props.

(** * Concrete cases *)
Section Cases.
Local Notation Q := [realFieldType of rat].
Let e2 : smat Q := fun r c => if (r == 0%N) && (c == 1%N) then Some 5%:R else None.
Let s2 : src Q := Src 2 2 (fun i j => if i == j then Some (i + 1)%:R else None).
(** A 2x2 sparse diagonal block added at (0, 1): (0, 1) is 5 + 3 * 1, (1, 2) is 3 * 2. *)
Example C32_case : (val (block_add e2 0%N 1%N s2 3%:R false) 0%N 1%N = 8%:R) /\ (val (block_add e2 0%N 1%N s2 3%:R false) 1%N 2%N = 6%:R)
  /\ block_add e2 0%N 1%N s2 3%:R false 1%N 1%N = None /\ val (block_add_identity e2 0%N 1%N 2%N 4%:R) 0%N 1%N = 9%:R /\ set_zero e2 0%N 1%N = Some 0.
Proof.
split; first by rewrite val_block_add /inb /= /val /e2 /srcval /=; apply/eqP.
split; first by rewrite val_block_add /inb /= /val /e2 /srcval /=; apply/eqP.
split; first by rewrite /block_add block_opE.
by split; first by rewrite add_identityE /val /=; apply/eqP.
Qed.
(** The same block written: (0, 1) is 3, but (0, 2), not stored by the source, keeps its value. *)
Example C33_case : val (block_write (fun _ _ => Some 5%:R) 0%N 1%N s2 3%:R false) 0%N 1%N = 3%:R /\
  val (block_write (fun _ _ => Some 5%:R) 0%N 1%N s2 3%:R false) 0%N 2%N = 5%:R :> Q.
Proof. by split; rewrite /val /block_write block_opE /=. Qed.
Example C33_dense_case : val (block_write e2 0%N 1%N (dense 2 2 (fun i j => (i + j)%:R)) 3%:R false) 0%N 2%N = 3%:R.
Proof. by rewrite -[(0%N)]addn0 -[2%N]/(1 + 1)%N C33_dense // mulr1. Qed.
Example C33_identity_case : val (block_write_identity e2 0%N 1%N 2%N 7%:R) 0%N 1%N = 7%:R.
Proof. exact: ((C33_write_identity e2 0%N 1%N 2%N 7%:R).1 0%N). Qed.

Section C34.
Variable F : realFieldType.
(** f(y) = y^2, g(x) = x0 * x1: the mixed second derivative of x0^2 x1^2 is 4 x0 x1. *)
Let Jf (y : 'cV[F]_1) : smat F := fun _ _ => Some (2%:R * y 0 0).
Let Hf (y : 'cV[F]_1) : smat F := fun _ _ => Some 2%:R.
Let Jg (x : 'cV[F]_2) : smat F := fun _ a => Some (if a == 0%N then x 1 0 else x 0 0).
Let Hg (x : 'cV[F]_2) : smat F := fun a b => if a == b then None else Some 1.
Example C34_case (x : 'cV[F]_2) :
  hess (fun x : 'cV[F]_2 => (x 0 0 * x 1 0) * (x 0 0 * x 1 0)) x 0 1 (4%:R * (x 0 0 * x 1 0)).
Proof.
have hf1 (no : 'I_1) y : frechet (fun y : 'cV[F]_1 => y 0 0 * y 0 0) y (fun k => val (Jf y) no k).
  rewrite /val /=; apply: (@frechet1 _ (fun t => t * t)).
  by apply: deriv_eq (deriv_mul (deriv_id _) (deriv_id _)); rewrite /=; ring.
have hf2 (no : 'I_1) (k : 'I_1) y : frechet (fun y => val (Jf y) no k) y (fun l : 'I_1 => val (Hf y) k (no * 1 + l)).
  rewrite /val /=; apply: (@frechet1 _ (fun t => 2%:R * t)).
  by apply: deriv_eq (deriv_scale _ (deriv_id _)); ring.
have p (w : 'cV[F]_2) (i a : 'I_2) : deriv (fun t => setc w a t i 0) (w a 0) (i == a)%:R.
  case: (eqVneq i a) => [->|ne].
    by apply: deriv_ext (deriv_id _) => t; rewrite mxE eqxx.
  by apply: deriv_ext (deriv_const (w i 0) _) => t; rewrite mxE (negbTE ne).
have hg1 (k : 'I_1) w (a : 'I_2) : partial (fun x : 'cV[F]_2 => x 0 0 * x 1 0) w a (val (Jg w) k a).
  rewrite /partial; apply: deriv_eq (deriv_mul (p w 0 a) (p w 1 a)); rewrite !setc_id /val /Jg.
  by case: a => [[|[|//]]] i; rewrite -!val_eqE /=; ring.
have hg2 (k : 'I_1) w (a b : 'I_2) : partial (fun x => val (Jg x) k a) w b (val (Hg w) a (k * 2 + b)).
  rewrite (ord1 k) mul0n add0n /partial /val /Jg /Hg /=.
  case: a => [[|[|//]]] i /=; [apply: deriv_eq (p w 1 b)|apply: deriv_eq (p w 0 b)];
    by case: b => [[|[|//]]] j; rewrite -!val_eqE /=.
have := @C34_hessian F 1 1 2 (fun _ y => y 0 0 * y 0 0) (fun _ x => x 0 0 * x 1 0) Jf Hf Jg Hg hf1 hf2 hg1 hg2
  (@empty F) x 0%N 0%N 0 0 1 erefl.
rewrite val_d2r_fog // /val /= !big_ord1 /Jg /Hf /Jf /Hg /= !mxE => -[D h1 h2]; exists D.
  by move=> w; apply: deriv_ext (h1 w) => t; rewrite !mxE.
by apply: deriv_eq h2; ring.
Qed.
End C34.
(** One stored zero and one stored non-zero. *)
Example C73_case : count_explicit_zeros (Src 1 3 (fun _ c => if c == 0%N then Some 0 else if c == 1%N then Some 5%:R else None) : src Q) = 1%N.
Proof. by []. Qed.
End Cases.

Print Assumptions C32_block_add.
Print Assumptions C32_block_add_identity.
Print Assumptions C32_set_zero.
Print Assumptions C33_refuted.
Print Assumptions C33_block_write_partial.
Print Assumptions C33_dense.
Print Assumptions C33_write_identity.
Print Assumptions C34_hessian.
Print Assumptions C73_mark.
Print Assumptions C73_count.
