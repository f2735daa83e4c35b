(** Facts about velocities and derivatives on groups, and about products of groups. *)
From mathcomp Require Import all_ssreflect all_algebra.
From mathcomp.algebra_tactics Require Import ring.
From Verif Require Import Calc QpModel QpSpec FlatModel FlatSpec.
Set Implicit Arguments.
Unset Strict Implicit.
Unset Printing Implicit Defensive.
Import Order.TTheory GRing.Theory Num.Theory.
Local Open Scope ring_scope.

Section Facts.
Variable F : realFieldType.

Section One.
Variables (X : Type) (n : nat) (plus : X -> 'cV[F]_n -> X).
(** Near s, the increment of a curve with a velocity is small. *)
Lemma vel_chain (phi : X -> F) (c : F -> X) s (w : 'cV[F]_n) J :
  rdiff plus phi (c s) J -> vel plus c s w -> deriv (fun r => phi (c r)) s (\sum_k J k * w k 0).
Proof.
move=> hp hc e e0; have e2 : 0 < e / 2%:R by rewrite divr_gt0 // ltr0n.
pose S := 1 + \sum_k (1 + `|w k 0|); have S0 : 0 < S.
  by rewrite ltr_paddr // sumr_ge0 // => k _; rewrite addr_ge0.
pose T := 1 + \sum_k `|J k|; have T0 : 0 < T by rewrite ltr_paddr // sumr_ge0.
have [a a0 ha] := hp _ (divr_gt0 e2 S0).
have r0 : 0 < Num.min 1 (e / 2%:R / T) by rewrite min_gt0 // divr_gt0.
have [b b0 hb] := hc _ r0.
exists (Num.min b (a / S)); first by rewrite min_gt0 // divr_gt0.
move=> h; rewrite !le_minr => /andP[/hb [D cD DD] h3].
have D1 k : `|D k 0| <= (1 + `|w k 0|) * `|h|.
  rewrite -[D k 0](subrK (h * w k 0)); apply: le_trans (ler_norm_add _ _) _.
  rewrite mulrDl mul1r normrM [`|h| * _]mulrC ler_add2r.
  by apply: le_trans (DD k) _; rewrite ler_pimull // le_minl lexx.
have Da k : `|D k 0| <= a.
  apply: le_trans (D1 k) _; move: h3; rewrite ler_pdivl_mulr // => h3.
  apply: le_trans h3; rewrite mulrC ler_wpmul2l // /S (bigD1 k) //=.
  rewrite addrCA ler_addl addr_ge0 // sumr_ge0 // => i _; by rewrite addr_ge0.
have := ha D Da; rewrite -cD => h4.
have -> : phi (c (s + h)) - phi (c s) - (\sum_k J k * w k 0) * h =
  (phi (c (s + h)) - phi (c s) - \sum_k J k * D k 0) + \sum_k J k * (D k 0 - h * w k 0).
  rewrite -[in RHS]addrA; congr (_ + _); rewrite mulr_suml addrC -sumrB -sumrN; apply: eq_bigr => k _; ring.
apply: le_trans (ler_norm_add _ _) _; rewrite (splitr e) mulrDl; apply: ler_add.
  apply: le_trans h4 _; rewrite -mulrA ler_wpmul2l ?(ltW e2) // ler_pdivr_mull //.
  apply: (@le_trans _ _ (\sum_k (1 + `|w k 0|) * `|h|)); first exact: ler_sum.
  by rewrite -mulr_suml ler_wpmul2r // ler_addr; exact: ler01.
apply: le_trans (ler_norm_sum _ _ _) _.
apply: (@le_trans _ _ (\sum_k `|J k| * (e / 2%:R / T * `|h|))).
  apply: ler_sum => k _; rewrite normrM ler_wpmul2l //; apply: le_trans (DD k) _.
  by rewrite ler_wpmul2r // le_minl lexx orbT.
rewrite -mulr_suml mulrA ler_wpmul2r // mulrCA ler_pimulr ?(ltW e2) // ler_pdivr_mulr // mul1r ler_addr.
exact: ler01.
Qed.

Lemma vel_ext (x y : F -> X) s w : x =1 y -> vel plus x s w -> vel plus y s w.
Proof. by move=> xy h ep ep0; have [dl d0 H] := h ep ep0; exists dl => // r rd; rewrite -!xy; exact: H. Qed.
Lemma vel_eq (x : F -> X) s w w' : w = w' -> vel plus x s w -> vel plus x s w'. Proof. by move=> ->. Qed.

(** Velocities are unique if (+) is locally one to one. *)
Lemma vel_uniq (x : F -> X) s w w' :
  (exists2 r, 0 < r & forall a b : 'cV[F]_n, (forall k, `|a k 0| <= r) -> (forall k, `|b k 0| <= r) -> plus (x s) a = plus (x s) b -> a = b) ->
  vel plus x s w -> vel plus x s w' -> w = w'.
Proof.
case=> r r0 inj h1 h2.
pose S := 1 + \sum_k (`|w k 0| + `|w' k 0|); have S0 : 0 < S.
  by rewrite ltr_paddr // sumr_ge0 // => k _; rewrite addr_ge0.
have Sw k : 1 + `|w k 0| <= S.
  by rewrite ler_add2l (bigD1 k) //= -addrA ler_addl addr_ge0 // sumr_ge0 // => i _; rewrite addr_ge0.
have Sw' k : 1 + `|w' k 0| <= S.
  by rewrite ler_add2l (bigD1 k) //= addrAC [X in _ <= X]addrC ler_addl addr_ge0 // sumr_ge0 // => i _; rewrite addr_ge0.
apply/matrixP => k j; rewrite (ord1 j) {j}; apply/eqP; rewrite -subr_eq0 -normr_eq0; apply/negPn/negP => n0.
have nn0 : 0 < `|w k 0 - w' k 0| by rewrite lt_def n0 normr_ge0.
pose ep := Num.min 1 (`|w k 0 - w' k 0| / 4%:R).
have e0 : 0 < ep by rewrite min_gt0 // divr_gt0 // ltr0n.
have [b b0 hb] := h1 _ e0; have [c c0 hc] := h2 _ e0.
pose h := Num.min (Num.min b c) (r / S).
have h0 : 0 < h by rewrite !min_gt0 // divr_gt0.
have nh : `|h| = h by exact: ger0_norm (ltW h0).
have hB : `|h| <= b by rewrite nh !le_minl lexx.
have hC : `|h| <= c by rewrite nh !le_minl lexx orbT.
have hr : h * S <= r by rewrite -ler_pdivl_mulr // le_minl lexx orbT.
have [a1 E1 A1] := hb _ hB; have [a2 E2 A2] := hc _ hC.
have sm (a v : 'cV[F]_n) : (forall k, 1 + `|v k 0| <= S) -> (forall k, `|a k 0 - h * v k 0| <= ep * `|h|) -> forall k, `|a k 0| <= r.
  move=> hS hv i; apply: le_trans hr; rewrite -[a i 0](subrK (h * v i 0)); apply: le_trans (ler_norm_add _ _) _.
  apply: le_trans (_ : h * (1 + `|v i 0|) <= _); last by rewrite ler_wpmul2l // ltW.
  rewrite mulrDr mulr1 normrM nh ler_add2r; apply: le_trans (hv i) _.
  by rewrite nh ler_pimull ?(ltW h0) // le_minl lexx.
have a12 : a1 = a2 by apply: inj; [exact: sm Sw A1|exact: sm Sw' A2|rewrite -E1 E2].
have : `|h * (w k 0 - w' k 0)| <= ep * h + ep * h.
  have -> : h * (w k 0 - w' k 0) = (a2 k 0 - h * w' k 0) - (a1 k 0 - h * w k 0) by rewrite a12; ring.
  by apply: le_trans (ler_norm_sub _ _) _; apply: ler_add; [have := A2 k|have := A1 k]; rewrite nh.
rewrite normrM nh -mulrDl mulrC ler_pmul2r // => H.
have : `|w k 0 - w' k 0| <= `|w k 0 - w' k 0| / 4%:R + `|w k 0 - w' k 0| / 4%:R.
  by apply: le_trans H _; apply: ler_add; rewrite le_minl lexx orbT.
have -> : `|w k 0 - w' k 0| / 4%:R + `|w k 0 - w' k 0| / 4%:R = `|w k 0 - w' k 0| / 2%:R by field.
rewrite ler_pdivl_mulr ?ltr0n // mulr_natr mulr2n ger_addl.
by rewrite leNgt nn0.
Qed.
End One.

(** Velocity in R^n is the derivative. *)
Lemma velRn n (x : F -> 'cV[F]_n) s w : vel (@lplus F (Rn F n)) x s w <-> derivv x s w.
Proof.
split=> [h k ep ep0|h ep ep0].
  have [dl d0 H] := h ep ep0; exists dl => // r rd; have [a ea ha] := H r rd.
  rewrite ea /= mxE; have -> : x s k 0 + a k 0 - x s k 0 - w k 0 * r = a k 0 - r * w k 0 by ring.
  exact: ha.
have [dl d0 H] := unif (fun k => h k ep ep0); exists dl => // r rd; exists (x (s + r) - x s).
  by rewrite /= [x s + _]addrC subrK.
by move=> k; have := H r rd k; rewrite !mxE [r * _]mulrC.
Qed.
Lemma velR1 (x : F -> F) s (d : F) (w : 'cV[F]_1) : w 0 0 = d -> vel (@lplus F (R1 F)) x s w <-> deriv x s d.
Proof.
move=> <-; split=> [h ep ep0|h ep ep0].
  have [dl d0 H] := h ep ep0; exists dl => // r rd; have [a ea ha] := H r rd.
  rewrite ea /=; have -> : x s + a 0 0 - x s - w 0 0 * r = a 0 0 - r * w 0 0 by ring.
  exact: ha.
have [dl d0 H] := h ep ep0; exists dl => // r rd; exists (\col_(_ < 1) (x (s + r) - x s)).
  by rewrite /= mxE [x s + _]addrC subrK.
by move=> k; have := H r rd; rewrite (ord1 k) !mxE [r * _]mulrC.
Qed.

(** A curve in a product. *)
Lemma vel_pair (G K : lie F) (x : F -> car G) (y : F -> car K) s w1 w2 :
  vel (@lplus F G) x s w1 -> vel (@lplus F K) y s w2 ->
  vel (@lplus F (pairL G K)) (fun r => (x r, y r)) s (col_mx w1 w2).
Proof.
move=> h1 h2 ep ep0; have [d1 d10 H1] := h1 ep ep0; have [d2 d20 H2] := h2 ep ep0.
exists (Num.min d1 d2); first exact: min_gt0.
move=> r; rewrite le_minr => /andP[/H1[a ea ha] /H2[b eb hb]].
exists (col_mx a b); first by rewrite /= col_mxKu col_mxKd ea eb.
by move=> k; rewrite -(splitK k); case: (split k) => i /=; rewrite ?col_mxEu ?col_mxEd.
Qed.
Lemma vel_fst (G K : lie F) (x : F -> car (pairL G K)) s w :
  vel (@lplus F (pairL G K)) x s w -> vel (@lplus F G) (fun r => (x r).1) s (usubmx w).
Proof.
move=> h ep ep0; have [d d0 H] := h ep ep0; exists d => // r /H[a ea ha]; exists (usubmx a); first by rewrite ea.
by move=> k; rewrite !mxE.
Qed.
Lemma vel_snd (G K : lie F) (x : F -> car (pairL G K)) s w :
  vel (@lplus F (pairL G K)) x s w -> vel (@lplus F K) (fun r => (x r).2) s (dsubmx w).
Proof.
move=> h ep ep0; have [d d0 H] := h ep ep0; exists d => // r /H[a ea ha]; exists (dsubmx a); first by rewrite ea.
by move=> k; rewrite !mxE.
Qed.
Lemma vel_const (G : lie F) (x : car G) s : lplus x 0 = x -> vel (@lplus F G) (fun=> x) s 0.
Proof.
move=> h ep ep0; exists 1 => // r _; exists 0; first by rewrite h.
by move=> k; rewrite !mxE mulr0 subr0 normr0 mulr_ge0 // ltW.
Qed.

Lemma derivv_u n m (e : F -> 'cV[F]_(n + m)) s w : derivv e s w -> derivv (fun r => usubmx (e r)) s (usubmx w).
Proof. by move=> h k; rewrite mxE; apply: deriv_ext (h (lshift m k)) => r; rewrite mxE. Qed.
Lemma derivv_d n m (e : F -> 'cV[F]_(n + m)) s w : derivv e s w -> derivv (fun r => dsubmx (e r)) s (dsubmx w).
Proof. by move=> h k; rewrite mxE; apply: deriv_ext (h (rshift n k)) => r; rewrite mxE. Qed.
Lemma derivv_const n (e : 'cV[F]_n) s : derivv (fun=> e) s 0.
Proof. by move=> k; rewrite mxE; exact: deriv_const. Qed.
Lemma derivv_setc n (e : 'cV[F]_n) k s : derivv (fun r => setc e k r) s (delta_mx k 0).
Proof.
move=> i; rewrite mxE eqxx andbT; case: eqP => [->|/eqP ne].
  by apply: deriv_ext (deriv_id _) => r; rewrite mxE eqxx.
by apply: deriv_ext (deriv_const (e i 0) _) => r; rewrite mxE (negbTE ne).
Qed.
Lemma derivv_add n (e f : F -> 'cV[F]_n) s w w' : derivv e s w -> derivv f s w' -> derivv (fun r => e r + f r) s (w + w').
Proof. by move=> h1 h2 k; rewrite mxE; apply: deriv_ext (deriv_add (h1 k) (h2 k)) => r; rewrite mxE. Qed.

Lemma derivv_mulA nx (A : F -> 'M[F]_nx) (v : F -> 'cV[F]_nx) s (dA : 'M[F]_nx) dv :
  (forall i j, deriv (fun r => A r i j) s (dA i j)) -> derivv v s dv ->
  derivv (fun r => A r *m v r) s (dA *m v s + A s *m dv).
Proof.
move=> hA hv i; rewrite mxE [X in X + _]mxE [X in _ + X]mxE -big_split /=.
apply: deriv_ext (_ : deriv (fun r => \sum_k A r i k * v r k 0) _ _); first by move=> r; rewrite mxE.
by apply: deriv_sum => k _; apply: deriv_mul.
Qed.
(** Parts of a vector in which one coordinate moves. *)
Lemma setc_ul n m (e : 'cV[F]_(n + m)) k s : usubmx (setc e (lshift m k) s) = setc (usubmx e) k s.
Proof. by apply/matrixP => i j; rewrite !mxE (inj_eq (@lshift_inj _ _)). Qed.
Lemma setc_dl n m (e : 'cV[F]_(n + m)) k s : dsubmx (setc e (lshift m k) s) = dsubmx e.
Proof. by apply/matrixP => i j; rewrite !mxE eq_rlshift (ord1 j). Qed.
Lemma setc_ur n m (e : 'cV[F]_(n + m)) k s : usubmx (setc e (rshift n k) s) = usubmx e.
Proof. by apply/matrixP => i j; rewrite !mxE eq_lrshift (ord1 j). Qed.
Lemma setc_dr n m (e : 'cV[F]_(n + m)) k s : dsubmx (setc e (rshift n k) s) = setc (dsubmx e) k s.
Proof. by apply/matrixP => i j; rewrite !mxE (inj_eq (@rshift_inj _ _)). Qed.

(** A partial derivative of a function of one part. *)
Lemma partial_u n m (phi : 'cV[F]_n -> F) (e : 'cV[F]_(n + m)) k d : partial phi (usubmx e) k d ->
  partial (fun e => phi (usubmx e)) e (lshift m k) d.
Proof. by rewrite /partial mxE; apply: deriv_ext => s; rewrite setc_ul. Qed.
Lemma partial_d n m (phi : 'cV[F]_m -> F) (e : 'cV[F]_(n + m)) k d : partial phi (dsubmx e) k d ->
  partial (fun e => phi (dsubmx e)) e (rshift n k) d.
Proof. by rewrite /partial mxE; apply: deriv_ext => s; rewrite setc_dr. Qed.
Lemma partial_u0 n m (phi : 'cV[F]_n -> F) (e : 'cV[F]_(n + m)) k : partial (fun e => phi (usubmx e)) e (rshift n k) 0.
Proof. by apply: deriv_ext (deriv_const (phi (usubmx e)) _) => s; rewrite setc_ur. Qed.
Lemma partial_d0 n m (phi : 'cV[F]_m -> F) (e : 'cV[F]_(n + m)) k : partial (fun e => phi (dsubmx e)) e (lshift m k) 0.
Proof. by apply: deriv_ext (deriv_const (phi (dsubmx e)) _) => s; rewrite setc_dl. Qed.
Lemma partial_ext n (phi psi : 'cV[F]_n -> F) e k d : phi =1 psi -> partial phi e k d -> partial psi e k d.
Proof. by move=> h; apply: deriv_ext => s; rewrite h. Qed.
Lemma partial_const n (c : F) (e : 'cV[F]_n) k : partial (fun=> c) e k 0. Proof. exact: deriv_const. Qed.
Lemma partial_eq n (phi : 'cV[F]_n -> F) e k d d' : d = d' -> partial phi e k d -> partial phi e k d'. Proof. by move=> ->. Qed.

(** The real line and R^n are groups as trusted. *)
Lemma Rn_ok n : lie_ok (G := Rn F n) (fun _ => True).
Proof.
split=> //=.
- by move=> x; rewrite addr0.
- move=> x; exists 1; first exact: ltr01.
  by move=> a b _ _ /addrI.
- move=> x e s w de /velRn hx he; apply/velRn; rewrite !mul1mx; exact: derivv_add.
- by move=> *; rewrite mul1mx.
- by move=> e; rewrite mulmx0 subrr.
- by move=> *; rewrite scaler0 addr0.
- by move=> *; rewrite !mul0mx oppr0.
- move=> e b k i; rewrite !mul0mx [X in partial _ _ _ X]mxE; exact: deriv_const.
- by move=> e i j k; rewrite [X in partial _ _ _ X]mxE; exact: deriv_const.
- by move=> e i j k _; rewrite [X in partial _ _ _ X]mxE; exact: deriv_const.
Qed.
Lemma R1_ok : lie_ok (G := R1 F) (fun _ => True).
Proof.
split=> //=.
- by move=> x; rewrite mxE addr0.
- move=> x; exists 1; first exact: ltr01.
  move=> a b _ _ /addrI h; by apply/matrixP => i j; rewrite (ord1 i) (ord1 j).
- move=> x e s w de hx he; apply/(@velR1 _ _ (w 0 0 + de 0 0)); first by rewrite !mul1mx mxE.
  by apply: deriv_add (he 0); apply/(@velR1 _ _ _ w) => //.
- by move=> *; rewrite mul1mx.
- by move=> e; rewrite mulmx0 subrr.
- by move=> *; rewrite scaler0 addr0.
- by move=> *; rewrite !mul0mx oppr0.
- move=> e b k i; rewrite !mul0mx [X in partial _ _ _ X]mxE; exact: deriv_const.
- by move=> e i j k; rewrite [X in partial _ _ _ X]mxE; exact: deriv_const.
- by move=> e i j k _; rewrite [X in partial _ _ _ X]mxE; exact: deriv_const.
Qed.

(** A product of groups. *)
Lemma vecb n m p (a : 'cV[F]_(n + m)) (A : 'M[F]_(p, n)) (B : 'M[F]_(p, m)) : row_mx A B *m a = A *m usubmx a + B *m dsubmx a.
Proof. by rewrite -{1}(vsubmxK a) mul_row_col. Qed.
Lemma blockv n m (a : 'cV[F]_(n + m)) (A : 'M[F]_n) (B : 'M[F]_m) :
  block_mx A 0 0 B *m a = col_mx (A *m usubmx a) (B *m dsubmx a).
Proof. by rewrite -{1}(vsubmxK a) mul_block_col !mul0mx addr0 add0r. Qed.

Lemma d2_pair n m (A : 'cV[F]_n -> 'M[F]_n) (B : 'cV[F]_m -> 'M[F]_m) (A2 : 'I_n -> 'M[F]_n) (B2 : 'I_m -> 'M[F]_m) (e : 'cV[F]_(n + m)) i j k :
  (forall i j k, partial (fun e => A e i j) (usubmx e) k (A2 i j k)) ->
  (forall i j k, partial (fun e => B e i j) (dsubmx e) k (B2 i j k)) ->
  partial (fun e => block_mx (A (usubmx e)) 0 0 (B (dsubmx e)) i j) e k
    ((match split i with inl i => block_mx (A2 i) 0 0 0 | inr i => block_mx 0 0 0 (B2 i) end : 'M[F]_(n + m)) j k).
Proof.
move=> hA hB; case: (split_ordP i) => {i} i ->; rewrite ?(unsplitK (inl i)) ?(unsplitK (inr i));
  case: (split_ordP j) => {j} j ->; case: (split_ordP k) => {k} k ->;
  rewrite ?block_mxEul ?block_mxEur ?block_mxEdl ?block_mxEdr.
- by apply: partial_ext (partial_u (hA i j k)) => e'; rewrite block_mxEul.
- by rewrite mxE; apply: partial_ext (partial_u0 (fun e => A e i j) e k) => e'; rewrite block_mxEul.
- by rewrite mxE; apply: partial_ext (partial_const 0 e (lshift m k)) => e'; rewrite block_mxEur mxE.
- by rewrite mxE; apply: partial_ext (partial_const 0 e (rshift n k)) => e'; rewrite block_mxEur mxE.
- by rewrite mxE; apply: partial_ext (partial_const 0 e (lshift m k)) => e'; rewrite block_mxEdl mxE.
- by rewrite mxE; apply: partial_ext (partial_const 0 e (rshift n k)) => e'; rewrite block_mxEdl mxE.
- by rewrite mxE; apply: partial_ext (partial_d0 (fun e => B e i j) e k) => e'; rewrite block_mxEdr.
- by apply: partial_ext (partial_d (hB i j k)) => e'; rewrite block_mxEdr.
Qed.

Lemma pair_ok (G K : lie F) (DG : 'cV[F]_(dof G) -> Prop) (DK : 'cV[F]_(dof K) -> Prop) :
  lie_ok DG -> lie_ok DK -> lie_ok (G := pairL G K) (fun e => DG (usubmx e) /\ DK (dsubmx e)).
Proof.
move=> oG oK; split=> /=.
- by case=> x y; rewrite /= linear0 (linear0 (dsubmx_linear _ _ _ _)) (ok_zero oG) (ok_zero oK).
- case=> x y; have [r1 r10 h1] := ok_inj oG x; have [r2 r20 h2] := ok_inj oK y.
  exists (Num.min r1 r2); first exact: min_gt0.
  move=> a b ha hb [/= e1 e2]; rewrite -(vsubmxK a) -(vsubmxK b); congr col_mx; [apply: h1 e1|apply: h2 e2] => k; rewrite mxE.
  + by have := ha (lshift _ k); rewrite le_minr => /andP[].
  + by have := hb (lshift _ k); rewrite le_minr => /andP[].
  + by have := ha (rshift _ k); rewrite le_minr => /andP[].
  + by have := hb (rshift _ k); rewrite le_minr => /andP[].
- move=> x e s w de hx he.
  have := vel_pair (ok_vel oG (vel_fst hx) (derivv_u he)) (ok_vel oK (vel_snd hx) (derivv_d he)).
  by apply: vel_eq; rewrite !blockv add_col_mx.
- by move=> e [/(ok_inv oG) h1 /(ok_inv oK) h2]; rewrite mulmx_block !mulmx0 !mul0mx !addr0 !add0r h1 h2 -scalar_mx_block.
- move=> e; rewrite mulmx_block !mulmx0 !mul0mx !addr0 !add0r (ok_fund oG) (ok_fund oK).
  by rewrite scalar_mx_block opp_block_mx add_block_mx !oppr0 !addr0.
- move=> c a b; rewrite !linearP /=.
  by rewrite (ok_lin oG) (ok_lin oK) scale_block_mx add_block_mx !scaler0 !addr0.
- by move=> a b; rewrite !blockv (ok_anti oG) (ok_anti oK) opp_col_mx.
- move=> e b k i; rewrite blockv col_mxKu col_mxKd !mulmx_block !mulmx0 !mul0mx !addr0 !add0r !linearN /=.
  apply: (@partial_ext _ (fun e => (col_mx (Adi (usubmx e) *m usubmx b) (Adi (dsubmx e) *m dsubmx b)) i 0)).
    by move=> e'; rewrite blockv.
  case: (split_ordP i) => {i} i ->; case: (split_ordP k) => {k} k ->.
  + rewrite block_mxEul; apply: partial_ext (partial_u (ok_dAd oG (usubmx e) (usubmx b) k i)) => e'.
    by rewrite col_mxEu.
  + rewrite block_mxEur ?mul0mx [X in partial _ _ _ X]mxE; apply: (partial_ext _ (partial_u0 (fun e => (Adi e *m usubmx b) i 0) e k)) => e'.
    by rewrite col_mxEu.
  + rewrite block_mxEdl ?mul0mx [X in partial _ _ _ X]mxE; apply: (partial_ext _ (partial_d0 (fun e => (Adi e *m dsubmx b) i 0) e k)) => e'.
    by rewrite col_mxEd.
  + rewrite block_mxEdr; apply: partial_ext (partial_d (ok_dAd oK (dsubmx e) (dsubmx b) k i)) => e'.
    by rewrite col_mxEd.
- by move=> e i j k; apply: d2_pair => *; [exact: (ok_d2 oG)|exact: (ok_d2 oK)].
- by move=> e i j k [h1 h2]; apply: d2_pair => *; [exact: (ok_d2i oG)|exact: (ok_d2i oK)].
Qed.
End Facts.
