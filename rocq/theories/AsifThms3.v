(** Active set invariance filters: histories of calls, sensitivities, and barrier rows as derivatives. *)
From mathcomp Require Import all_ssreflect all_algebra zify.
From mathcomp.algebra_tactics Require Import ring.
From Verif Require Import Calc SparseModel QpModel QpSpec MeshFunModel NlpModel NlpSol MpcModel AsifModel AsifProps AsifThms AsifThms2.
Set Implicit Arguments.
Unset Strict Implicit.
Unset Printing Implicit Defensive.
Import Order.TTheory GRing.Theory Num.Theory.
Local Open Scope ring_scope.
Local Arguments muln : simpl never.

Lemma In_cat (A : Type) (x : A) a b : List.In x (a ++ b) -> List.In x a \/ List.In x b.
Proof. by elim: a => [|y a IH] /=; [right|case=> [->|/IH[]]; auto]. Qed.
Section Filter.
Variable F : realFieldType.
Variables (nx nu nh : nat) (X U : Type).
Variables (xplus : X -> 'cV[F]_nx -> X) (ad : 'cV[F]_nx -> 'M[F]_nx).
Variables (uplus : U -> 'cV[F]_nu -> U) (uminus : U -> U -> 'cV[F]_nu).
Variables (f : X -> U -> 'cV[F]_nx) (dfu : X -> U -> 'M[F]_(nx, nu)).
Variable solve : dqp F -> option (msol F) -> msol F.
Variables (prm : fprm F nu U) (fuel : nat).
Local Notation call := (filter_call (nh := nh) xplus ad uplus uminus f dfu solve prm fuel).
Local Notation run := (filter_run (nh := nh) xplus ad uplus uminus f dfu solve prm fuel).
Local Notation new := (filter_new F).
Local Notation K := (aK (fasif prm)).
Local Notation lim := (flim prm).
Local Notation pb c := (Pbm (fT prm) (cg c) (cu c) (fW prm) lim).
(** [g] is the solution of the last of the calls [outs] whose code is Optimal. *)
Definition latest (outs : seq (fout F U)) (g : option (msol F)) : Prop :=
  match g with
  | None => forall o, List.In o outs -> fo_code o <> Optimal
  | Some s => exists o1 o o2, [/\ outs = o1 ++ o :: o2, fo_code o = Optimal, fo_sol o = s & forall o', List.In o' o2 -> fo_code o' <> Optimal]
  end.
Lemma latest_cat a o g : latest a g -> latest (a ++ [:: o]) (if fo_code o is Optimal then Some (fo_sol o) else g).
Proof.
move=> hg; have [eo|eo] : fo_code o = Optimal \/ fo_code o <> Optimal by case: (fo_code o); [left|right..].
  by rewrite eo; exists a, o, [::].
have -> : (if fo_code o is Optimal then Some (fo_sol o) else g) = g by case: (fo_code o) eo.
case: g hg => [s [o1 [o' [o2 [-> h2 h3 h4]]]]|hg].
  exists o1, o', (o2 ++ [:: o]); split=> //; first by rewrite -catA.
  by move=> o'' ho; case: (In_cat ho) => [hi|[<- //|[]]]; apply: h4.
by move=> o' ho; case: (In_cat ho) => [hi|[<- //|[]]]; apply: hg.
Qed.
Lemma call_warm c s s' out : call c s = Some (s', out) ->
  [/\ fo_guess out = fwarm s, fqp s' = fo_qp out & fwarm s' = if fo_code out is Optimal then Some (fo_sol out) else fwarm s].
Proof. by rewrite /filter_call; case: asif_update => // q [<- <-]. Qed.
Lemma run_warm cs s s' outs a : latest a (fwarm s) -> run cs s = Some (s', outs) -> latest (a ++ outs) (fwarm s').
Proof.
elim: cs s a outs => [|c cs IH] s a outs hl /=; first by case=> <- <-; rewrite cats0.
case ec : (call c s) => [[s1 out]|//]; case er : (run cs s1) => [[s2 outs']|//] [es <-]; rewrite es in er.
have [_ _ w] := call_warm ec; rewrite -cat1s catA; apply: IH er.
by rewrite w; apply: latest_cat.
Qed.
(** * C51 for filters *)
Theorem C51_filter cs s outs c s' out : run cs new = Some (s, outs) -> call c s = Some (s', out) -> latest outs (fo_guess out).
Proof. by move=> er /call_warm[-> _ _]; apply: (@run_warm cs new s outs [::]). Qed.
Lemma run_hist cs s s' outs : hist nx nu nh X U K (bn lim) (fqp s) -> run cs s = Some (s', outs) -> hist nx nu nh X U K (bn lim) (fqp s').
Proof.
elim: cs s outs => [|c cs IH] s outs hs /=; first by case=> <-.
case ec : (call c s) => [[s1 out]|//]; case er : (run cs s1) => [[s2 outs']|//] [es _]; rewrite es in er; apply: IH er.
have [_ -> _] := call_warm ec; move: ec; rewrite /filter_call.
by case e : asif_update => [q|//] [_ <-]; apply: Hupd hs _ _ e.
Qed.
Section Last.
Variables (cs : seq (fcallarg F nx nh X U)) (s : fst_ F) (outs : seq (fout F U)) (c : fcallarg F nx nh X U) (s' : fst_ F) (out : fout F U).
Hypotheses (er : run cs new = Some (s, outs)) (ec : call c s = Some (s', out)).
Local Notation p := (pb c).
Lemma last_call : [/\ hist nx nu nh X U K (bn lim) (fqp s),
  asif_update xplus ad uminus f dfu (ch c) (cdht c) (cdhx c) (cbu c) (cdfcl c) p (fasif prm) fuel (fqp s) = Some (fo_qp out),
  fo_sol out = solve (fo_qp out) (fo_guess out) & fo_u out = uplus (cu c) (\col_k mprimal (fo_sol out) k)].
Proof.
have hq : hist nx nu nh X U K (bn lim) (fqp s) by apply: run_hist er; exact: Hnew.
split=> //; move: ec; rewrite /filter_call; by case: asif_update => // q [_ <-].
Qed.
(** * C55 for filters: the program of a call is a new one *)
Theorem C55_filter : exists2 q,
  asif_to_qp xplus ad uminus f dfu (ch c) (cdht c) (cdhx c) (cbu c) (cdfcl c) p (fasif prm) fuel = Some q & same nh p (fasif prm) (fo_qp out) q.
Proof.
have [hq e _ _] := last_call; have := C55_update (p := p) (prm := fasif prm) xplus ad uminus f dfu (ch c) (cdht c) (cdhx c) (cbu c) (cdfcl c) fuel hq.
by rewrite e; case: asif_to_qp => // q hs; exists q.
Qed.
(** * C56 for filters: the input that is returned, if the solver returns a feasible point *)
Theorem C56_filter : feas nh p (fasif prm) (fo_qp out) (\col_k mprimal (fo_sol out) k) (mprimal (fo_sol out) nu) ->
  (forall mu, uminus (uplus (cu c) mu) (bc lim) = uminus (cu c) (bc lim) + mu) ->
  forall i : 'I_(bn lim), between (bl lim i) (bu_ lim i) ((bA lim *m uminus (fo_u out) (bc lim)) i 0).
Proof.
move=> hf hu; have [hq e _ ->] := last_call.
have [H _] := C56_rows (p := p) hq e (mprimal (fo_sol out) nu) (hu (\col_k mprimal (fo_sol out) k)); apply: H => i hi.
by apply: hf; rewrite -addnA ltn_add2l addn1 ltnS ltnW.
Qed.
(** * C76 for filters: a safe input is returned unchanged, if the solver returns a minimiser *)
Theorem C76_filter : (forall k, 0 < fW prm k 0) -> 0 < arelax (fasif prm) -> feas nh p (fasif prm) (fo_qp out) (0 : 'cV[F]_nu) 0 ->
  let mu := \col_k mprimal (fo_sol out) k in let d := mprimal (fo_sol out) nu in
  feas nh p (fasif prm) (fo_qp out) mu d ->
  (forall (mu' : 'cV[F]_nu) d', feas nh p (fasif prm) (fo_qp out) mu' d' -> acost (fo_qp out) mu d <= acost (fo_qp out) mu' d') ->
  fo_u out = uplus (cu c) 0.
Proof.
move=> W0 r0 h0 mu d hf hm; have [hq e _ ->] := last_call.
have [e0 _] := C76_minimal (p := p) hq e W0 r0 h0 hf hm; by rewrite -/mu e0.
Qed.
End Last.
End Filter.

(** * C75: the sensitivity *)
Section Sens.
Variable F : realFieldType.
Variables (nx nu nh : nat) (U : Type).
Local Notation X := ('cV[F]_nx).
Local Notation add := (fun x a : X => x + a).
Local Notation no_ad := (fun _ : X => 0 : 'M[F]_nx).
(** The discretized flow through the times t. *)
Fixpoint flow (g : F -> X -> X) (t : nat -> F) (n : nat) (x : X) : X :=
  if n is k.+1 then flow g t k x + (t k.+1 - t k) *: g (t k) (flow g t k x) else x.
Lemma propagated_flow ad g J x0 n t x S i : propagated add ad g J x0 n t x S -> (i <= n)%N -> x i = flow g t i x0.
Proof.
move=> [_ h1 _ h2]; elim: i => [_|i IH hi] //=; have [_ -> _] := h2 i hi; by rewrite IH // ltnW.
Qed.
(** Full statement: S is the derivative of the flow, for every closed loop.  True for closed loops that are affine in the
    state. *)
Theorem C75_affine_partial g J x0 n t x S : (forall t x y z, g t y = g t x + J t z *m (y - x)) ->
  propagated add no_ad g J x0 n t x S -> forall i, (i <= n)%N -> forall v, flow g t i (x0 + v) = x i + S i *m v.
Proof.
move=> hg hp; have [_ h1 h2 h3] := hp; elim=> [_ v|i IH hi v]; first by rewrite h1 h2 mul1mx.
have [_ e1 e2] := h3 i hi; rewrite /= (IH (ltnW hi) v) (hg _ (x i) _ (x i.+1)) e2 subr0.
have -> : x i + S i *m v - x i = S i *m v by rewrite [x i + _]addrC addrK.
move: (J (t i) (x i.+1)) => M; rewrite e1 scalerDr mulmxDl -scalemxAl mulmxA -!addrA; congr (_ + _).
by rewrite addrCA.
Qed.
Lemma deriv_affine (a b s : F) : deriv (fun s => a + s * b) s b.
Proof.
move=> e e0; exists 1 => // w _; have -> : a + (s + w) * b - (a + s * b) - b * w = 0 by ring.
by rewrite normr0 mulr_ge0 // ltW.
Qed.
Lemma row_deriv (h : F -> X -> F) (t0 : F) (x0 v : X) (a : F) (r : 'I_nx -> F) :
  frechet (fun z : 'cV[F]_(1 + nx) => h (z (lshift nx 0) 0) (dsubmx z)) (col_mx (const_mx t0) x0) (fun k => match split k with inl _ => a | inr j => r j end) ->
  deriv (fun s => h (t0 + s) (x0 + s *: v)) 0 (a + \sum_j r j * v j 0).
Proof.
move=> hf; pose c (s : F) : 'cV[F]_(1 + nx) := col_mx (const_mx (t0 + s)) (x0 + s *: v).
have c0 : c 0 = col_mx (const_mx t0) x0 by rewrite /c addr0 scale0r addr0.
pose dc (k : 'I_(1 + nx)) : F := match split k with inl _ => 1 | inr j => v j 0 end.
have hc k : deriv (fun s => c s k 0) 0 (dc k).
  rewrite /dc; case: (splitP k) => j ek.
    have -> : k = lshift nx j by apply: ord_inj; rewrite ek.
    apply: (deriv_ext (f := fun s => t0 + s * 1)); last exact: deriv_affine.
    by move=> s; rewrite col_mxEu mxE mulr1.
  have -> : k = rshift 1 j by apply: ord_inj; rewrite ek.
  apply: (deriv_ext (f := fun s => x0 j 0 + s * v j 0)); last exact: deriv_affine.
  by move=> s; rewrite col_mxEd !mxE.
rewrite -c0 in hf; have := deriv_chain hf hc; rewrite big_split_ord /= big_ord1.
have -> : split (lshift nx 0) = inl 0 :> ('I_1 + 'I_nx) by exact: (unsplitK (inl 0)).
rewrite {1}/dc (unsplitK (inl 0)) mulr1.
rewrite (eq_bigr (fun j => r j * v j 0)) => [|j _]; last by rewrite /dc (unsplitK (inr j)).
by apply: deriv_ext => s; rewrite col_mxEu mxE col_mxKd.
Qed.
Variables (uplus : U -> 'cV[F]_nu -> U) (uminus : U -> U -> 'cV[F]_nu).
Variables (f : X -> U -> X) (dfu : X -> U -> 'M[F]_(nx, nu)).
Variables (h : F -> X -> 'cV[F]_nh) (dht : F -> X -> 'cV[F]_nh) (dhx : F -> X -> 'M[F]_(nh, nx)).
Variables (bu : F -> X -> U) (dfcl : F -> X -> 'M[F]_nx).
Local Notation g := (fun t x => f x (bu t x)).
(** * C52: the rows, for dynamics affine in the input and a closed loop affine in the state: the derivative of
    h(t, flow_t(x0)) when x0 moves along f(x0, u (+) mu). *)
Theorem C52_derivative (p : pbm F nu X U) (prm : aprm F) n0 fuel q :
  0 < pT p -> 0 < adt prm -> (0 < aK prm)%N ->
  (0 < n0)%N -> pT p / (aK prm)%:R <= n0%:R * adt prm -> (n0 < fuel)%N ->
  (forall mu, f (px0 p) (uplus (pu p) mu) = f (px0 p) (pu p) + dfu (px0 p) (pu p) *m mu) ->
  (forall t x y z, g t y = g t x + dfcl t z *m (y - x)) ->
  (forall t x j, frechet (fun z : 'cV[F]_(1 + nx) => h (z (lshift nx 0) 0) (dsubmx z) j 0) (col_mx (const_mx t) x)
     (fun k => match split k with inl _ => dht t x j 0 | inr i => dhx t x j i end)) ->
  exists t idx q', [/\ t 0%N = 0, forall i, (i < idx (aK prm).-1)%N -> t i < t i.+1 <= t i + adt prm,
    forall k, (k < aK prm)%N -> pT p / (aK prm)%:R * k%:R <= t (idx k) < pT p / (aK prm)%:R * k%:R + Num.min (adt prm) (pT p / (aK prm)%:R),
    asif_update add no_ad uminus f dfu h dht dhx bu dfcl p prm fuel q = Some q' &
    forall k (j : 'I_nh) mu d, (k < aK prm)%N ->
      exists2 D, deriv (fun s => h (t (idx k) + s) (flow g t (idx k) (px0 p + s *: f (px0 p) (uplus (pu p) mu))) j 0) 0 D &
        arow q' mu d (k * nh + j) = (0 <= D + aalpha prm * h (t (idx k)) (flow g t (idx k) (px0 p)) j 0 + d)].
Proof.
move=> T0 dt0 K0 n1 hn hf haff hcl hF.
have [n [t [x [S [idx [q' [[_ hp] hdt [i1 i2 i3 i4] eu rows]]]]]]] := C54_times_partial add no_ad uminus f dfu h dht dhx bu dfcl T0 dt0 K0 q n1 hn hf.
have [t0 _ _ hs] := hp; exists t, idx, q'; split=> //.
  move=> i hi; have hi' : (i < n)%N by apply: leq_trans hi _; rewrite -i2 -{2}(prednK K0); apply: i3; rewrite prednK.
  by have [-> _ _] := hs i hi'; rewrite addrC -ler_subl_addr hdt.
move=> k j mu d hk; set v := f _ (uplus _ _).
have ik : (idx k <= n)%N.
  rewrite -i2; have : (k <= aK prm)%N by rewrite ltnW.
  elim: (aK prm) i3 {i1 i2 i4 rows hk} => [_|k' IH i3]; first by rewrite leqn0 => /eqP ->.
  rewrite leq_eqVlt => /orP[/eqP -> //|hk]; apply: leq_trans (i3 k' (ltnSn _)); apply: IH hk => j' hj; apply: i3; exact: ltnW.
exists (dht (t (idx k)) (x (idx k)) j 0 + \sum_i dhx (t (idx k)) (x (idx k)) j i * (S (idx k) *m v) i 0).
  apply: deriv_ext (row_deriv (h := fun t x => h t x j 0) (S (idx k) *m v) (hF (t (idx k)) (x (idx k)) j)) => s.
  by rewrite (C75_affine_partial hcl hp) // -scalemxAr.
rewrite rows // -(propagated_flow hp ik) -haff -/v.
have addE (A B : 'cV[F]_nh) : (A + B) j 0 = A j 0 + B j 0 by rewrite mxE.
rewrite !addE [(_ *: h _ _) _ _]mxE -mulmxA [(dhx _ _ *m _) _ _]mxE.
by rewrite [dht _ _ j 0 + _ * _ + _]addrAC.
Qed.
End Sens.
