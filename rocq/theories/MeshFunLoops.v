(** The loops of the mesh functions: closed forms of the results and derivatives of the node arguments. *)
From mathcomp Require Import all_ssreflect all_algebra zify.
From mathcomp.algebra_tactics Require Import ring.
From Verif Require Import Calc MeshModel SparseModel SparseFacts MeshFunModel MeshFunFacts.
Set Implicit Arguments.
Unset Strict Implicit.
Unset Printing Implicit Defensive.
Import Order.TTheory GRing.Theory Num.Theory.
Local Open Scope ring_scope.

Local Arguments bexec : simpl never.
Local Arguments muln : simpl never.
Section Sums.
Variable F : realFieldType.
Lemma sum_iota n (g : nat -> F) : \sum_(i <- iota 0 n) g i = \sum_(i < n) g i.
Proof. by rewrite -[X in iota 0 X]subn0 -/(index_iota 0 n) big_mkord. Qed.
Lemma sum_block nf N (g : nat -> F) : \sum_(r < nf * N) g r = \sum_(i < N) \sum_(j < nf) g (nf * i + j)%N.
Proof.
elim: N => [|N IH]; first by rewrite muln0 !big_ord0.
by rewrite big_ord_recr /= -IH mulnS addnC big_split_ord.
Qed.
Lemma inr_row nf i k j : (j < nf)%N -> inr (nf * i) nf (nf * k + j) = (i == k).
Proof.
move=> h; rewrite inrE; case: (ltngtP i k) => [lt|lt|->].
- apply/negbTE/negP => /andP[_]; have : (nf * i.+1 <= nf * k)%N by rewrite leq_mul2l lt orbT.
  rewrite mulnS; lia.
- apply/negbTE/negP => /andP[+ _]; have : (nf * k.+1 <= nf * i)%N by rewrite leq_mul2l lt orbT.
  rewrite mulnS; lia.
- by rewrite leq_addr ltn_add2l h.
Qed.
Lemma pick_row nf N k j (g : nat -> F) : (k < N)%N -> (j < nf)%N ->
  \sum_(i <- iota 0 N) (if inr (nf * i) nf (nf * k + j) then g i else 0) = g k.
Proof.
move=> hk hj; rewrite sum_iota (bigD1 (Ordinal hk)) //= inr_row // eqxx big1 ?addr0 // => i.
by rewrite -val_eqE /= inr_row // => /negbTE ->.
Qed.
End Sums.

Section Loops.
Variable F : realFieldType.
Variables nx nu nf : nat.
Local Notation nz := (1 + nx + nu)%N.
Variables (fv : 'cV[F]_nz -> nat -> F) (df d2f : 'cV[F]_nz -> smat F).
Variables (N : nat) (taus ws : seq F).

(** The layout of the variables. *)
Definition xs_of (v : nat -> F) (i k : nat) : F := v (2 + nx * i + k)%N.
Definition us_of (v : nat -> F) (i k : nat) : F := v (2 + nx * (N + 1) + nu * i + k)%N.
Definition zof (v : nat -> F) (i : nat) : 'cV[F]_nz := zarg nx nu (v 0%N) (v 1%N) (xs_of v) (us_of v) (tau_at taus i) i.
Local Notation X0 i := (2 + nx * i)%N.
Local Notation U0 i := (2 + nx * (N + 1) + nu * i)%N.
Lemma X0_2 i : (2 <= X0 i)%N. Proof. lia. Qed.
Lemma U0_X0 i : (i < N)%N -> (X0 i + nx <= U0 i)%N. Proof. nia. Qed.
Local Notation arg i := (argn nx nu (X0 i) (U0 i)).
Local Notation cof i := (cofn nx nu (X0 i) (U0 i) (tau_at taus i)).

(** Changing one variable changes one argument of f at node i. *)
Lemma zstep v i c s (a : 'I_nz) : (i < N)%N -> a = arg i c :> nat ->
  zof (setn v c s) i = setc (zof v i) a (zof v i a 0 + cof i c * (s - v c)).
Proof.
move=> iN ea; apply/matrixP => b k; rewrite (ord1 k) {k} /zof !mxE -(inj_eq val_inj) /= ea.
have bz := ltn_ord b.
rewrite /xs_of /us_of /setn; set t := tau_at taus i.
move: (X0_2 i) (U0_X0 iN); move: (X0 i) (U0 i) => X U hX hU; clear ea a iN.
case: (@clsP _ nx nu _ _ t hX hU c) => [->|->|hc|hc|hc1 hc2 hc3] /=.
- case: (nat_of_ord b) => [|n] /=; first by rewrite /setn /=; ring.
  by case: ifP => _; rewrite ?subSS (_ : (_ == _) = false) //; lia.
- case: (nat_of_ord b) => [|n] /=; first by rewrite /setn /=; ring.
  by case: ifP => _; rewrite ?subSS (_ : (_ == _) = false) //; lia.
- have -> : (0%N == c) = false by lia.
  have -> : (1%N == c) = false by lia.
  case: (eqVneq (nat_of_ord b) 0%N) => [->|b0]; first by rewrite (_ : (0 == _)%N = false) //; lia.
  case: (leqP b nx) => bx.
    case: (eqVneq (nat_of_ord b) (1 + (c - X))%N) => [e|ne].
      rewrite (_ : (_ <= nx)%N = true) ?e; last lia.
      have -> : (X + (1 + (c - X) - 1) = c)%N by lia.
      by rewrite eqxx; ring.
    by rewrite (_ : (_ == c)%N = false) //; lia.
  rewrite (_ : (nat_of_ord b == _) = false); last by lia.
  by rewrite (_ : (_ == c)%N = false) //; lia.
- have -> : (0%N == c) = false by lia.
  have -> : (1%N == c) = false by lia.
  case: (eqVneq (nat_of_ord b) 0%N) => [->|b0]; first by rewrite (_ : (0 == _)%N = false) //; lia.
  case: (leqP b nx) => bx.
    rewrite (_ : (nat_of_ord b == _) = false); last by lia.
    by rewrite (_ : (_ == c)%N = false) //; lia.
  case: (eqVneq (nat_of_ord b) (1 + nx + (c - U))%N) => [e|ne].
    rewrite (_ : (_ <= nx)%N = false) ?e; last lia.
    have -> : (U + (1 + nx + (c - U) - (1 + nx)) = c)%N by lia.
    by rewrite eqxx; ring.
  by rewrite (_ : (_ == c)%N = false) //; lia.
- have -> : (0%N == c) = false by lia.
  have -> : (1%N == c) = false by lia.
  case: (eqVneq (nat_of_ord b) 0%N) => [_|b0]; first by rewrite mul0r addr0.
  case: (leqP b nx) => bx; by rewrite (_ : (_ == c)%N = false) //; lia.
Qed.

Lemma deriv_node (phi : 'cV[F]_nz -> F) v i c d : (i < N)%N ->
  (forall a : 'I_nz, a = arg i c :> nat -> partial phi (zof v i) a d) ->
  partialn (fun v => phi (zof v i)) v c (cof i c * d).
Proof.
move=> iN h; have aP := @argn_lt F nx nu _ _ (tau_at taus i) (X0_2 i) (U0_X0 iN) c.
pose a : 'I_nz := Ordinal aP; have := h a erefl; rewrite /partial => hd.
pose g := fun s => phi (setc (zof v i) a s).
apply: (deriv_ext (f := fun s => g ((zof v i a 0 - cof i c * v c) + cof i c * s))).
  move=> s; rewrite /g (zstep v s iN (a := a) erefl); congr (phi (setc _ _ _)); ring.
by apply: deriv_aff; apply: deriv_eq (erefl _) _; rewrite subrK.
Qed.
Lemma deriv_T v c : partialn (fun v => v 1%N - v 0%N) v c (dTn F c).
Proof.
have p k : deriv (fun s => setn v c s k) (v c) (c == k)%:R.
  rewrite /setn eq_sym; case: (eqVneq c k) => [->|ne]; first by apply: deriv_ext (deriv_id _) => s.
  exact: deriv_const.
exact: deriv_sub.
Qed.

(** Rounds of a loop that add to F, dF and d2F. *)
Lemma loopR (step : mval F -> nat -> mval F) (lam : nat -> F) gJ gH (l : seq nat) out :
  mvlam out = lam ->
  (forall o i, i \in l -> mvlam o = lam -> [/\ mvlam (step o i) = lam,
     forall r c, val (mvdF (step o i)) r c = val (mvdF o) r c + gJ i r c &
     forall r c, val (mvd2F (step o i)) r c = val (mvd2F o) r c + gH i r c]) ->
  [/\ mvlam (foldl step out l) = lam,
     forall r c, val (mvdF (foldl step out l)) r c = val (mvdF out) r c + \sum_(i <- l) gJ i r c &
     forall r c, val (mvd2F (foldl step out l)) r c = val (mvd2F out) r c + \sum_(i <- l) gH i r c].
Proof.
elim: l out => [|i l IH] out hl h /=; first by split=> // r c; rewrite big_nil addr0.
have [h1 h2 h3] := h out i (mem_head _ _) hl.
have [|e1 e2 e3] := IH (step out i) h1; first by move=> o k kl; apply: h; rewrite inE kl orbT.
by split=> // r c; rewrite ?e2 ?e3 big_cons ?h2 ?h3 addrA.
Qed.
(** Rounds that add to F. *)
Lemma loopF (step : mval F -> nat -> mval F) gF (l : seq nat) out :
  (forall o i, i \in l -> forall r, mvF (step o i) r = mvF o r + gF i r) ->
  forall r, mvF (foldl step out l) r = mvF out r + \sum_(i <- l) gF i r.
Proof.
elim: l out => [|i l IH] out h r /=; first by rewrite big_nil addr0.
rewrite IH; last by move=> o k kl; apply: h; rewrite inE kl orbT.
by rewrite (h out i (mem_head _ _)) big_cons addrA.
Qed.
Lemma prep_dF (out : mval F) r c : val (mvdF (mprep out)) r c = 0. Proof. exact: val_set_zero. Qed.
Lemma prep_d2F (out : mval F) r c : val (mvd2F (mprep out)) r c = 0. Proof. exact: val_set_zero. Qed.

(** * mesh_eval *)
Section Eval.
Variable scale : bool.
Local Notation wt i := (if scale then w_at ws i else 1).
Local Notation ev v out := (eval_loop nf fv df d2f N taus ws (v 0%N) (v 1%N) (xs_of v) (us_of v) scale out).
Lemma evalR v out : [/\ mvlam (ev v out) = mvlam out,
  forall r c, val (mvdF (ev v out)) r c = \sum_(i < N)
    (if inr (nf * i) nf r then wt i * (cof i c * val (df (zof v i)) (r - nf * i) (arg i c)) else 0) &
  forall r c, val (mvd2F (ev v out)) r c = \sum_(i < N) \sum_(j < nf)
    (if (r <= c)%N then wt i * mvlam out (nf * i + j)%N * (cof i r * cof i c * val (d2f (zof v i)) (arg i r) (nz * j + arg i c)) else 0)].
Proof.
have hlam : mvlam (mprep out) = mvlam out by [].
have [|e1 e2 e3] := @loopR (eval_step nf fv df d2f N taus ws (v 0%N) (v 1%N) (xs_of v) (us_of v) scale) (mvlam out)
  (fun i r c => if inr (nf * i) nf r then wt i * (cof i c * val (df (zof v i)) (r - nf * i) (arg i c)) else 0)
  (fun i r c => \sum_(j < nf) (if (r <= c)%N then wt i * mvlam out (nf * i + j)%N * (cof i r * cof i c * val (d2f (zof v i)) (arg i r) (nz * j + arg i c)) else 0))
  (iota 0 N) (mprep out) hlam.
  move=> o i; rewrite mem_iota add0n => /andP[_ iN] hl; split=> // r c; rewrite /eval_step /=.
    by rewrite val_bexec -(@jac_eval F nx nu _ _ (tau_at taus i) (X0_2 i) (U0_X0 iN)) (mulnC i nx).
  rewrite (@val_loop F _ _ _ (fun j r c => if (r <= c)%N then wt i * mvlam out (nf * i + j)%N * (cof i r * cof i c * val (d2f (zof v i)) (arg i r) (nz * j + arg i c)) else 0)).
    by rewrite sum_iota.
  move=> d j r' c'; rewrite val_bexec -(@hess_eval F nx nu _ _ (tau_at taus i) (X0_2 i) (U0_X0 iN)) hl (mulnC i nx) (mulnC i nu) (mulnC (N + 1)%N nx).
  by [].
rewrite -/(eval_loop _ _ _ _ _ _ _ _ _ _ _ _ _) in e1 e2 e3.
split=> // r c; rewrite /eval_loop ?e2 ?e3 ?prep_dF ?prep_d2F add0r (sum_iota _ (fun i => _)) //.
Qed.
Lemma evalF v out i j : (i < N)%N -> (j < nf)%N -> mvF (ev v out) (nf * i + j) = wt i * fv (zof v i) j.
Proof.
move=> iN hj; rewrite /eval_loop.
have G n : (i < n)%N -> mvF (foldl (eval_step nf fv df d2f N taus ws (v 0%N) (v 1%N) (xs_of v) (us_of v) scale) (mprep out) (iota 0 n)) (nf * i + j) =
  wt i * fv (zof v i) j.
  elim: n => [//|n IH]; rewrite ltnS => hi; rewrite -[n.+1]addn1 iotaD foldl_cat /= add0n /seg_set -inrE (mulnC n) inr_row //.
  case: (eqVneq n i) => [->|ne]; first by rewrite addKn.
  by apply: IH; lia.
exact: G.
Qed.
End Eval.

(** * mesh_integrate *)
Local Notation T v := (v 1%N - v 0%N).
Local Notation jacT v i w j c := (w * (dTn F c * fv (zof v i) j + T v * (cof i c * val (df (zof v i)) j (arg i c)))).
Local Notation hessT v i wl j r c := (wl * (T v * (cof i r * cof i c * val (d2f (zof v i)) (arg i r) (nz * j + arg i c)) +
     dTn F r * (cof i c * val (df (zof v i)) j (arg i c)) + dTn F c * (cof i r * val (df (zof v i)) j (arg i r)))).
Local Notation it v out := (int_loop nf fv df d2f N taus ws (v 0%N) (v 1%N) (xs_of v) (us_of v) out).
Lemma intR v out : [/\ mvlam (it v out) = mvlam out,
  forall r c, val (mvdF (it v out)) r c = \sum_(i < N) (if inr 0 nf r then jacT v i (w_at ws i) r c else 0) &
  forall r c, val (mvd2F (it v out)) r c = \sum_(i < N) \sum_(j < nf)
    (if (r <= c)%N then hessT v i (w_at ws i * mvlam out j) j r c else 0)].
Proof.
have hlam : mvlam (mprep out) = mvlam out by [].
have [|e1 e2 e3] := @loopR (int_step nf fv df d2f N taus ws (v 0%N) (v 1%N) (xs_of v) (us_of v)) (mvlam out)
  (fun i r c => if inr 0 nf r then jacT v i (w_at ws i) r c else 0)
  (fun i r c => \sum_(j < nf) (if (r <= c)%N then hessT v i (w_at ws i * mvlam out j) j r c else 0))
  (iota 0 N) (mprep out) hlam.
  move=> o i; rewrite mem_iota add0n => /andP[_ iN] hl; split=> // r c; rewrite /int_step /=.
    have := @jac_int F nx nu _ _ (tau_at taus i) (X0_2 i) (U0_X0 iN) (df (zof v i)) nf 0 (w_at ws i) (T v) (fv (zof v i)) r c.
    by rewrite subn0 => <-; rewrite val_bexec (mulnC i nx).
  rewrite (@val_loop F _ _ _ (fun j r c => if (r <= c)%N then hessT v i (w_at ws i * mvlam out j) j r c else 0)).
    by rewrite sum_iota.
  by move=> d j r' c'; rewrite val_bexec -(@hess_int F nx nu _ _ (tau_at taus i) (X0_2 i) (U0_X0 iN)) hl.
by split=> // r c; rewrite /int_loop ?e2 ?e3 ?prep_dF ?prep_d2F add0r (sum_iota _ (fun i => _)).
Qed.
Lemma intF v out j : (j < nf)%N -> mvF (it v out) j = \sum_(i < N) w_at ws i * T v * fv (zof v i) j.
Proof.
move=> hj; rewrite (@loopF _ (fun i r => if inr 0 nf r then w_at ws i * T v * fv (zof v i) r else 0)).
  by rewrite add0r (sum_iota _ (fun i => _)); apply: eq_bigr => i _; rewrite inrE hj.
move=> o i _ r; rewrite /= /seg_add -inrE; case: ifP => _; rewrite ?addr0 //.
by rewrite subn0.
Qed.
End Loops.

(** * mesh_dyn, first loop *)
Section Dyn.
Variable F : realFieldType.
Variables nx nu : nat.
Local Notation nz := (1 + nx + nu)%N.
Variables (fv : 'cV[F]_nz -> nat -> F) (df d2f : 'cV[F]_nz -> smat F).
Variables (N : nat) (taus ws : seq F).
Local Notation xs_of := (@xs_of F nx).
Local Notation us_of := (@us_of F nx nu N).
Local Notation zof := (@zof F nx nu N taus).
Local Notation X0 i := (2 + nx * i)%N.
Local Notation U0 i := (2 + nx * (N + 1) + nu * i)%N.
Local Notation arg i := (argn nx nu (X0 i) (U0 i)).
Local Notation cof i := (cofn nx nu (X0 i) (U0 i) (tau_at taus i)).
Local Notation T v := (v 1%N - v 0%N).
Local Notation jacT v i w j c := (w * (dTn F c * fv (zof v i) j + T v * (cof i c * val (df (zof v i)) j (arg i c)))).
Local Notation hessT v i wl j r c := (wl * (T v * (cof i r * cof i c * val (d2f (zof v i)) (arg i r) (nz * j + arg i c)) +
     dTn F r * (cof i c * val (df (zof v i)) j (arg i c)) + dTn F c * (cof i r * val (df (zof v i)) j (arg i r)))).
Local Notation dn v out := (foldl (dyn_step fv df d2f N taus ws (v 0%N) (v 1%N) (xs_of v) (us_of v)) (mprep out) (iota 0 N)).
Lemma dynR v out : [/\ mvlam (dn v out) = mvlam out,
  forall r c, val (mvdF (dn v out)) r c = \sum_(i < N) (if inr (nx * i) nx r then jacT v i (w_at ws i) (r - nx * i)%N c else 0) &
  forall r c, val (mvd2F (dn v out)) r c = \sum_(i < N) \sum_(j < nx)
    (if (r <= c)%N then hessT v i (w_at ws i * mvlam out (nx * i + j)%N) j r c else 0)].
Proof.
have hlam : mvlam (mprep out) = mvlam out by [].
have [|e1 e2 e3] := @loopR F (dyn_step fv df d2f N taus ws (v 0%N) (v 1%N) (xs_of v) (us_of v)) (mvlam out)
  (fun i r c => if inr (nx * i) nx r then jacT v i (w_at ws i) (r - nx * i)%N c else 0)
  (fun i r c => \sum_(j < nx) (if (r <= c)%N then hessT v i (w_at ws i * mvlam out (nx * i + j)%N) j r c else 0))
  (iota 0 N) (mprep out) hlam.
  move=> o i; rewrite mem_iota add0n => /andP[_ iN] hl; split=> // r c; rewrite /dyn_step /=.
    have := @jac_dyn F nx nu _ _ (tau_at taus i) (X0_2 nx i) (U0_X0 nx nu iN) (df (zof v i)) nx (nx * i) (w_at ws i) (T v) (fv (zof v i)) r c.
    by move=> <-; rewrite val_bexec.
  rewrite (@val_loop F _ _ _ (fun j r c => if (r <= c)%N then hessT v i (w_at ws i * mvlam out (nx * i + j)%N) j r c else 0)).
    by rewrite sum_iota.
  by move=> d j r' c'; rewrite val_bexec -(@hess_int F nx nu _ _ (tau_at taus i) (X0_2 nx i) (U0_X0 nx nu iN)) hl.
by split=> // r c; rewrite ?e2 ?e3 ?prep_dF ?prep_d2F add0r (sum_iota _ (fun i => _)).
Qed.
Lemma dynF v out r : mvF (dn v out) r = \sum_(i < N) (if inr (nx * i) nx r then w_at ws i * T v * fv (zof v i) (r - nx * i)%N else 0).
Proof.
rewrite (@loopF F _ (fun i r => if inr (nx * i) nx r then w_at ws i * T v * fv (zof v i) (r - nx * i)%N else 0)).
  by rewrite add0r (sum_iota _ (fun i => _)).
by move=> o i _ r'; rewrite /= /seg_add -inrE; case: ifP => _; rewrite ?addr0.
Qed.
End Dyn.
