(** Property C39: conversion of solutions of the nonlinear program and of the optimal control problem, and concrete cases for C35-C38. *)
From mathcomp Require Import all_ssreflect all_algebra zify.
From mathcomp.algebra_tactics Require Import ring.
From Verif Require Import Calc QpModel QpSpec QpFacts QpLoop MeshModel MeshSpec MeshFacts MeshQuad MeshEval MeshProps.
From Verif Require Import SparseModel SparseFacts MeshFunModel MeshFunFacts MeshFunLoops MeshFunDyn MeshFunProps MeshFunCases NlpModel NlpFacts NlpProps.
Set Implicit Arguments.
Unset Strict Implicit.
Unset Printing Implicit Defensive.
Import Order.TTheory GRing.Theory Num.Theory.
Local Open Scope ring_scope.

(** * C39 *)
Section RoundTrip.
Variable F : realFieldType.
Variables Nx Nu Nq Ncr Nce : nat.
Variables (Kmin Kmax : nat) (lgr : nat -> seq F * seq F) (kinc : nat -> F -> F -> nat) (m : mesh F).
Variable bis : seq F -> F -> option nat.
Hypotheses (k0 : (0 < Kmin)%N) (km : (Kmin <= Kmax)%N).
Hypothesis Hl : forall K, (Kmin <= K <= Kmax.+1)%N -> lgr_contract K (lgr K).
Hypothesis Hb : bis_contract bis.
Hypothesis rm : reachable Kmin Kmax kinc m.
Hypothesis hN : (\sum_(i < size m) N_colloc_ival m i < uint_mod)%N.
Local Notation N := (N_colloc m).
Local Notation K := (N_colloc_ival m).
Local Notation to_ocp := (nlpsol_to_ocpsol Nx Nu Nq Ncr Nce Kmin Kmax lgr m bis).
Local Notation to_nlp := (ocpsol_to_nlpsol Kmin Kmax lgr m).
Let EN : N = nb K (size m).
Proof. by have [_ h _] := C26_N_colloc_partial m; rewrite h. Qed.
Let SN : sumn [seq x.1 | x <- m] = N.
Proof. by rewrite EN sumnE big_map (big_nth (0%N, 0)) big_mkord; exact: eq_bigr. Qed.
Lemma vgetE n' (v : 'cV[F]_n') k (h : (k < n')%N) : vget v k = v (Ordinal h) 0.
Proof.
rewrite /vget /mget; case: insubP => [u _ e|]; last by rewrite h.
by case: insubP => // w _ _; rewrite (ord1 w); congr (v _ 0); exact: val_inj.
Qed.
Lemma eval_col n' (v : nat -> F) b i k (e : bool) len : (k < n')%N -> (if e then (i <= N)%N /\ len = N.+1 else (i < N)%N /\ len = N) ->
  vget (eval Kmin Kmax lgr bis m (nth 0 (all_nodes Kmin Kmax lgr m) i) (colseq n' v b len) 0 e) k = v (b + (n' * i + k))%N.
Proof.
move=> hk h; have sz : size (colseq n' v b len) = len by rewrite size_map size_iota.
have [H1 H2] := C23_eval_nodes Hl Hb (colseq n' v b len) i k0 km rm; rewrite SN sz in H1 H2.
have hi : (i < len)%N by case: e h => -[]; lia.
have -> : eval Kmin Kmax lgr bis m (nth 0 (all_nodes Kmin Kmax lgr m) i) (colseq n' v b len) 0 e = nth 0 (colseq n' v b len) i.
  by case: e h => -[h1 h2]; [apply: H1|apply: H2].
by rewrite (vgetE _ hk) (nth_map 0%N) ?size_iota // nth_iota // add0n mxE.
Qed.
Lemma seg_in (f g : nat -> F) B n' i k : (k < n')%N -> seg_set f (B + i * n') n' g (B + (n' * i + k)) = g k.
Proof. by move=> h; rewrite /seg_set [(i * n')%N]mulnC addnA leq_addr ltn_add2l h /= addKn. Qed.
Lemma seg_out (f g : nat -> F) B n' i r : ~~ (B + n' * i <= r < B + n' * i.+1)%N -> seg_set f (B + i * n') n' g r = f r.
Proof. by move=> h; rewrite /seg_set mulnC; case: ifP => // h'; exfalso; move: h; rewrite mulnS; lia. Qed.
(** The loop over the nodes. *)
Lemma loopE (X U L C : nat -> nat -> F) (x0 l0 : nat -> F) xB uB dB rB M : (M <= N.+1)%N ->
  (forall i, (i <= N)%N -> xB + Nx * i.+1 <= uB)%N -> (forall i, (i < N)%N -> dB + Nx * i.+1 <= rB)%N ->
  let st := foldl (fun (st : (nat -> F) * (nat -> F)) i =>
      let x := seg_set st.1 (xB + i * Nx) Nx (X i) in
      if (i < N)%N then (seg_set x (uB + i * Nu) Nu (U i), seg_set (seg_set st.2 (dB + i * Nx) Nx (L i)) (rB + i * Ncr) Ncr (C i))
      else (x, st.2)) (x0, l0) (iota 0 M) in
  [/\ forall i k, (i < M)%N -> (k < Nx)%N -> st.1 (xB + (Nx * i + k))%N = X i k,
      forall i k, (i < minn M N)%N -> (k < Nu)%N -> st.1 (uB + (Nu * i + k))%N = U i k,
      forall r, (r < xB)%N -> st.1 r = x0 r &
      [/\ forall i k, (i < minn M N)%N -> (k < Nx)%N -> st.2 (dB + (Nx * i + k))%N = L i k,
          forall i k, (i < minn M N)%N -> (k < Ncr)%N -> st.2 (rB + (Ncr * i + k))%N = C i k &
          forall r, ~~ (dB <= r < dB + Nx * minn M N)%N -> ~~ (rB <= r < rB + Ncr * minn M N)%N -> st.2 r = l0 r]].
Proof.
elim: M => [|M IH] hM h1 h2.
  split; last split.
  - by [].
  - by move=> i k; rewrite min0n.
  - by [].
  - by move=> i k; rewrite min0n.
  - by move=> i k; rewrite min0n.
  - by [].
rewrite -addn1 iotaD foldl_cat add0n; have := IH (ltnW hM) h1 h2; move: (foldl _ _ _) => st [a1 a2 a3 [a4 a5 a6]] /=.
have lt i k n' : (i < M)%N -> (k < n')%N -> (n' * i + k < n' * M)%N by exact: blk_lt.
have hx := h1 M hM; rewrite !addn1.
case: (ltnP M N) => hMN.
  have hd := h2 M hMN.
  rewrite (minn_idPl (ltnW hMN)) in a2 a4 a5 a6; rewrite (minn_idPl hMN) /=.
  split; last split.
  - move=> i k; rewrite ltnS leq_eqVlt => /orP[/eqP->|hi] hk.
      by rewrite seg_out ?seg_in //; move: hx; rewrite !mulnS; lia.
    have := lt i k Nx hi hk; move: hx; rewrite mulnS => hx l.
    rewrite seg_out ?seg_out ?a1 // ?mulnS; lia.
  - move=> i k; rewrite ltnS leq_eqVlt => /orP[/eqP->|hi] hk; first by rewrite seg_in.
    have := lt i k Nu hi hk; move: hx; rewrite mulnS => hx l.
    rewrite seg_out ?seg_out ?a2 // ?mulnS; lia.
  - move=> r hr; rewrite seg_out ?seg_out ?a3 //; move: hx; rewrite ?mulnS; lia.
  - move=> i k; rewrite ltnS leq_eqVlt => /orP[/eqP->|hi] hk.
      by rewrite seg_out ?seg_in //; move: hd; rewrite !mulnS; lia.
    have := lt i k Nx hi hk; move: hd; rewrite mulnS => hd l.
    rewrite seg_out ?seg_out ?a4 // ?mulnS; lia.
  - move=> i k; rewrite ltnS leq_eqVlt => /orP[/eqP->|hi] hk; first by rewrite seg_in.
    have := lt i k Ncr hi hk; move: hd; rewrite mulnS => hd l.
    rewrite seg_out ?seg_out ?a5 // ?mulnS; lia.
  - move=> r; rewrite !mulnS => r1 r2; rewrite seg_out ?seg_out ?a6 // ?mulnS; lia.
have eM : M = N by move: hM hMN; clear; lia.
rewrite (minn_idPr hMN) in a2 a4 a5 a6; rewrite (minn_idPr (leqW hMN)) /=.
split=> //.
- move=> i k; rewrite ltnS leq_eqVlt => /orP[/eqP->|hi] hk; first by rewrite seg_in.
  have := lt i k Nx hi hk => l; rewrite seg_out ?a1 // ?mulnS; lia.
- move=> i k hi hk; rewrite seg_out ?a2 //; move: hx; rewrite mulnS; lia.
- move=> r hr; rewrite seg_out ?a3 //; lia.
Qed.
(** What the variables and multipliers produced by ocpsol_to_nlpsol are. *)
Definition ocp_var (c : ocpsol F Nx Nu Nq Ncr Nce) (v : quantity) : F :=
  let t i := nth 0 (all_nodes Kmin Kmax lgr m) i * c_tf c in
  match v with QTf => c_tf c | QInt j => vget (c_Q c) j | QState i k => vget (c_x c (t i)) k | QInput i k => vget (c_u c (t i)) k end.
Definition ocp_mult (c : ocpsol F Nx Nu Nq Ncr Nce) (v : condition) : F :=
  let t i := nth 0 (all_nodes Kmin Kmax lgr m) i * c_tf c in
  match v with CDyn i k => vget (c_ldyn c (t i)) k | CInt j => vget (c_lq c) j | CRun i k => vget (c_lcr c (t i)) k
             | CEnd j => vget (c_lce c) j end.
Theorem C39_to_nlp (c : ocpsol F Nx Nu Nq Ncr Nce) (jx jl : nat -> F) :
  (forall v, is_quantity Nx Nu Nq N v -> s_x (to_nlp jx jl c) (var_pos Nx Nu Nq m v) = ocp_var c v) /\
  (forall v, is_condition Nx Nq Ncr Nce N v -> s_lam (to_nlp jx jl c) (con_pos Nx Nq Ncr Nce m v) = ocp_mult c v).
Proof.
have [[sz _ _ _] _] := C21_nodes_weights Hl k0 km rm; rewrite SN in sz.
rewrite /ocpsol_to_nlpsol sz /=.
set xx := seg_set (seg_set jx _ _ _) _ _ _; set ll := seg_set (seg_set jl _ _ _) _ _ _.
pose t i := 0 + nth 0 (all_nodes Kmin Kmax lgr m) i * (c_tf c - 0).
have tE i : t i = nth 0 (all_nodes Kmin Kmax lgr m) i * c_tf c by rewrite /t add0r subr0.
have B3 : xvar_B Nx Nu Nq m = (1 + Nq)%N by [].
have B4 : uvar_B Nx Nu Nq m = (1 + Nq + Nx * (N + 1))%N by [].
have C1 : dcon_B Nx Nq Ncr Nce m = 0%N by [].
have C2 : qcon_B Nx Nq Ncr Nce m = (Nx * N)%N by [].
have C3 : crcon_B Nx Nq Ncr Nce m = (Nx * N + Nq)%N by [].
have C4 : cecon_B Nx Nq Ncr Nce m = (Nx * N + Nq + Ncr * N)%N by [].
have := @loopE (fun i => vget (c_x c (t i))) (fun i => vget (c_u c (t i))) (fun i => vget (c_ldyn c (t i)))
  (fun i => vget (c_lcr c (t i))) xx ll (xvar_B Nx Nu Nq m) (uvar_B Nx Nu Nq m) (dcon_B Nx Nq Ncr Nce m) (crcon_B Nx Nq Ncr Nce m)
  N.+1 (leqnn _).
case=> [i hi|i hi|]; first by rewrite B3 B4 leq_add2l leq_mul2l addn1 ltnS hi orbT.
  by rewrite C1 C3 add0n (leq_trans _ (leq_addr _ _)) // leq_mul2l hi orbT.
rewrite (minn_idPr (leqnSn _)) /t => a1 a2 a3 [a4 a5 a6].
split; [case=> [|j|i k|i k]|case=> [i k|j|i k|j]]; rewrite /var_pos /con_pos /ocp_var /ocp_mult -?tE /=.
- by move=> _; rewrite a3 // /xx /seg_set.
- move=> hj; rewrite a3; last by rewrite B3 ltn_add2l.
  by rewrite /xx /seg_set leq_addr ltn_add2l hj /= addKn.
- by move=> /andP[hi hk]; rewrite a1.
- by move=> /andP[hi hk]; rewrite a2.
- by move=> /andP[hi hk]; rewrite a4.
- move=> hj; rewrite a6; [|by rewrite C1 C2; lia|by rewrite C2 C3; lia].
  rewrite /ll /seg_set [X in if X then _ else _](_ : _ = false); last by rewrite C4 C2; lia.
  by rewrite leq_addr ltn_add2l hj /= addKn.
- by move=> /andP[hi hk]; rewrite a5.
- move=> hj; rewrite a6; [|by rewrite C1 C4; lia|by rewrite C3 C4; lia].
  by rewrite /ll /seg_set leq_addr ltn_add2l hj /= addKn.
Qed.
Theorem C39_roundtrip_partial (s : nlpsol F) (jx jl : nat -> F) : (0 < Nx)%N -> (0 < Nu)%N -> (0 < Ncr)%N -> s_x s 0%N != 0 ->
  exists2 c, to_ocp s = Some c &
    (forall i, (i < nlp_n Nx Nu Nq m)%N -> s_x (to_nlp jx jl c) i = s_x s i) /\
    (forall r, (r < nlp_m Nx Nq Ncr Nce m)%N -> s_lam (to_nlp jx jl c) r = s_lam s r).
Proof.
move=> hx hu hc t0; have Nz : (Nx != 0)%N && (Nu != 0)%N && (Ncr != 0)%N by rewrite -!lt0n hx hu hc.
have : exists c, to_ocp s = Some c by rewrite /nlpsol_to_ocpsol; case: ifP Nz => [/or3P[]/eqP->|_ _]; rewrite ?eqxx ?andbF //; eexists.
case=> c E; exists c => //.
move: E; rewrite /nlpsol_to_ocpsol; case: ifP => // _ [].
set ex := (fun t => eval _ _ _ _ _ _ (colseq Nx (s_x s) _ _) _ _).
set eu := (fun t => eval _ _ _ _ _ _ (colseq Nu _ _ _) _ _).
set el := (fun t => eval _ _ _ _ _ _ (colseq Nx (s_lam s) _ _) _ _).
set ec := (fun t => eval _ _ _ _ _ _ (colseq Ncr _ _ _) _ _) => Ec.
have tE i : (nth 0 (all_nodes Kmin Kmax lgr m) i * s_x s 0%N - 0) / (s_x s 0%N - 0) = nth 0 (all_nodes Kmin Kmax lgr m) i.
  by rewrite !subr0 mulfK.
have [_ _ _ vs] := C35_variables Nx Nu Nq m; have [_ _ _ cs] := C35_constraints Nx Nq Ncr Nce m.
have [hv hm] := C39_to_nlp c jx jl.
split.
  move=> r /vs[v qv <-]; rewrite hv // /ocp_var -Ec /=.
  case: v qv => [|j hj|i k /andP[hi hk]|i k /andP[hi hk]] //=; first by rewrite (vgetE _ hj) mxE.
    rewrite /ex tE (@eval_col Nx _ _ i k true) //; split=> //.
    by rewrite -[xvar_L _ _ _ _]/(Nx * (N + 1))%N mulKn // addn1.
  by rewrite /eu tE (@eval_col Nu _ _ i k false) //; split=> //; rewrite -[uvar_L _ _ _ _]/(Nu * N)%N mulKn.
move=> r /cs[v qv <-]; rewrite hm // /ocp_mult -Ec /=.
case: v qv => [i k /andP[hi hk]|j hj|i k /andP[hi hk]|j hj] /=.
- by rewrite /el tE (@eval_col Nx _ _ i k false) //; split=> //; rewrite -[dcon_L _ _ _ _ _]/(Nx * N)%N mulKn.
- by rewrite (vgetE _ hj) mxE.
- by rewrite /ec tE (@eval_col Ncr _ _ i k false) //; split=> //; rewrite -[crcon_L _ _ _ _ _]/(Ncr * N)%N mulKn.
- by rewrite (vgetE _ hj) mxE.
Qed.
(** For problems without running constraints or without inputs the conversion divides an integer by zero. *)
Theorem C39_no_result (s : nlpsol F) : (Nu = 0)%N \/ (Ncr = 0)%N -> to_ocp s = None.
Proof. by rewrite /nlpsol_to_ocpsol; case=> ->; rewrite eqxx ?orbT. Qed.
End RoundTrip.

(** * Concrete cases *)
Section Cases.
Local Notation Q := [realFieldType of rat].
Local Notation m := ex_m.
(** theta = ce = x0 q, dynamics, integrand and running constraint u x, all dimensions one. *)
Definition exo_e (z : 'cV[Q]_(1 + 2 * 1 + 1)) : Q := z (inord 1) 0 * z (inord 3) 0.
Definition exo_de (z : 'cV[Q]_(1 + 2 * 1 + 1)) : smat Q :=
  fun _ a => if a == 1%N then Some (z (inord 3) 0) else if a == 3%N then Some (z (inord 1) 0) else None.
Definition exo_d2e (z : 'cV[Q]_(1 + 2 * 1 + 1)) : smat Q :=
  fun a b => if (a == 1%N) && (b == 3%N) || (a == 3%N) && (b == 1%N) then Some 1 else None.
Definition ex_ocp : ocp Q 1 1 1 1 1 :=
  @Ocp Q 1 1 1 1 1 exo_e exo_de exo_d2e ex_fv ex_df ex_d2f ex_fv ex_df ex_d2f ex_fv ex_df ex_d2f
      (fun=> Fin (-1)) (fun=> Fin 1) (fun z _ => exo_e z) exo_de exo_d2e (fun=> Fin 0) (fun=> PosInf).
Lemma ord4 (a : 'I_(1 + 2 * 1 + 1)) : [\/ a = inord 0, a = inord 1, a = inord 2 | a = inord 3].
Proof.
case: a => [[|[|[|[|a]]]] h] //; [apply: Or41|apply: Or42|apply: Or43|apply: Or44]; apply: val_inj => /=; rewrite inordK //.
Qed.
Lemma exo_setc (z : 'cV[Q]_(1 + 2 * 1 + 1)) a b s : setc z a s b 0 = if b == a then s else z b 0.
Proof. by rewrite /setc mxE. Qed.
Lemma exo_derivs : end_derivs 1 (fun z _ => exo_e z) exo_de exo_d2e.
Proof.
have V : (((inord 0 : 'I_(1 + 2 * 1 + 1)) = 0%N :> nat) * ((inord 1 : 'I_(1 + 2 * 1 + 1)) = 1%N :> nat) *
  ((inord 2 : 'I_(1 + 2 * 1 + 1)) = 2%N :> nat) * ((inord 3 : 'I_(1 + 2 * 1 + 1)) = 3%N :> nat))%type by rewrite !inordK.
have vE (a b : 'I_(1 + 2 * 1 + 1)) : (a == b) = (a == b :> nat) by [].
split=> [z [|//] a _|z [|//] a b _].
  rewrite /partial /exo_e /exo_de /SparseModel.val /=; case: (ord4 a) => ->; rewrite !V /=.
  - by apply: (deriv_ext (f := fun=> exo_e z)); [move=> s; rewrite !exo_setc !vE !V|exact: deriv_const].
  - apply: (deriv_ext (f := fun s => z (inord 3) 0 * s)); first by move=> s; rewrite !exo_setc !vE !V /= mulrC.
    by rewrite -[X in deriv _ _ X]mulr1; apply: deriv_scale; exact: deriv_id.
  - by apply: (deriv_ext (f := fun=> exo_e z)); [move=> s; rewrite !exo_setc !vE !V|exact: deriv_const].
  - apply: (deriv_ext (f := fun s => z (inord 1) 0 * s)); first by move=> s; rewrite !exo_setc !vE !V /=.
    by rewrite -[X in deriv _ _ X]mulr1; apply: deriv_scale; exact: deriv_id.
rewrite /partial /exo_de /exo_d2e /SparseModel.val muln0 add0n /=.
case: (ord4 a) => ->; case: (ord4 b) => ->; rewrite !V /=;
 (apply: (deriv_ext (f := fun=> 0)); [by []|exact: deriv_const]) ||
 (apply: (deriv_ext (f := fun=> z (inord 3) 0)); [by move=> s; rewrite ?exo_setc ?vE ?V|exact: deriv_const]) ||
 (apply: (deriv_ext (f := fun=> z (inord 1) 0)); [by move=> s; rewrite ?exo_setc ?vE ?V|exact: deriv_const]) ||
 (apply: (deriv_ext (f := id)); [by move=> s; rewrite ?exo_setc ?vE ?V|exact: deriv_id]).
Qed.
Example ex_ocp_derivs : ocp_derivs ex_ocp.
Proof. by have d := ex_derivs; have e := exo_derivs; split. Qed.
Lemma exo_n : nlp_n 1 1 1 m = 9%N. Proof. by rewrite -[nlp_n _ _ _ _]/(1 + 1 + 1 * (N_colloc m + 1) + 1 * N_colloc m)%N ex_N. Qed.
Lemma exo_m : nlp_m 1 1 1 1 m = 8%N. Proof. by rewrite -[nlp_m _ _ _ _ _]/(1 * N_colloc m + 1 + 1 * N_colloc m + 1)%N ex_N. Qed.
Lemma hessn_uniq (F : realFieldType) (phi : (nat -> F) -> F) v a b h h' : hessn phi v a b h -> hessn phi v a b h' -> h = h'.
Proof.
case=> [D d1 d2] [D' d1' d2']; apply: (deriv_uniq d2); apply: deriv_ext d2' => s.
by apply: deriv_uniq; [exact: d1'|exact: d1].
Qed.
(** The nine variables of the program for three collocation points: tf, q, x_0..x_3, u_0..u_2. *)
Example C35_case : [/\ nlp_n 1 1 1 m = 9, nlp_m 1 1 1 1 m = 8, var_pos 1 1 1 m (QState 3 0) = 5 & con_pos 1 1 1 1 m (CRun 2 0) = 6]%N.
Proof. by rewrite exo_n exo_m; split=> //; rewrite /con_pos -[crcon_B _ _ _ _ _]/(1 * N_colloc m + 1)%N ex_N. Qed.
(** A feasible point: tf = 1, q = 0, x = 2, u = 0. *)
Definition exo_x (i : nat) : Q := if i == 0%N then 1 else if (1 < i < 6)%N then 2%:R else 0.
Example C36_case jl ju o : nlp_feasible ex_ocp 1 1 ex_lgr m jl ju o exo_x.
Proof.
apply/(@C36_feasible Q 1 1 1 1 1 ex_ocp 1 1 ex_lgr ex_kinc m isT isT ex_lgr_contract ex_reach ex_hN).
have xE i k : (i <= 3)%N -> (k < 1)%N -> x_of 1 1 exo_x i k = 2%:R.
  by move=> hi; case: k => // _; rewrite /x_of /exo_x; case: i hi => [|[|[|[|]]]].
have uE i k : u_of 1 1 1 (N_colloc m) exo_x i k = 0 by rewrite /u_of ex_N /exo_x.
have fE f i k : f = ex_fv -> f (node 1 1 1 1 1 ex_lgr m exo_x i) k = 0.
  by move=> ->; rewrite /ex_fv /node /node_arg !mxE !inordK //= uE mul0r.
have qE j : q_of exo_x j = if (j < 1)%N then 0 else q_of exo_x j by case: j.
split.
- by [].
- move=> I j k hI hk; rewrite (fE (dynv ex_ocp)) // mulr0.
  have [_ /(_ (2%:R)%:P)] := @C22_diffmat_intmat Q 1 1 ex_lgr ex_kinc ex_lgr_contract m I isT isT ex_reach hI.
  case; first by rewrite size_polyC; case: eqP.
  rewrite derivC => + _; move=> /matrix.rowP /(_ j); rewrite mxE [X in _ = X -> _]mxE horner0 => E; rewrite -[RHS]E; clear E.
  apply: eq_bigr => a _; congr (_ * _); rewrite mxE hornerC xE //.
  case: a => a ha /=; move: hI ha j; clear; case: I => [|[|[|]]] //= _; case: a => [|[|]] //.
- move=> j hj; rewrite qE hj big1 ?mulr0 // => i _; by rewrite (fE (intv ex_ocp)) // mulr0.
- by move=> i k _ _; rewrite (fE (crv ex_ocp)).
- move=> j _; rewrite /= /exo_e /end_arg !mxE !inordK //=.
Qed.
(** d theta / d q = x0 and d (tf (w u_1 x_1 - ...)) with respect to u_1. *)
Example C37_case o x : val (o_df (nlp_df ex_ocp m o x)) 0 1 = x 2%N.
Proof.
have h : (1 < nlp_n 1 1 1 m)%N by rewrite exo_n.
apply: (deriv_uniq (@C37_gradient Q 1 1 1 1 1 ex_ocp 1 1 ex_kinc m isT isT ex_reach ex_hN o x 1%N ex_ocp_derivs h)).
apply: (deriv_ext (f := fun s => x 2%N * s)); last by rewrite -[X in deriv _ _ X]mulr1; apply: deriv_scale; exact: deriv_id.
by move=> s; rewrite /nlp_f /= /exo_e /NlpModel.zend !mxE !inordK.
Qed.
Example C37_case2 o1 o2 x :
  partialn (fun x => o_g (nlp_g ex_ocp 1 1 ex_lgr m o1 x) 1) x 7 (val (o_dg (nlp_dg ex_ocp 1 1 ex_lgr m o2 x)) 1 7).
Proof.
have h1 : (1 < nlp_m 1 1 1 1 m)%N by rewrite exo_m.
have h2 : (7 < nlp_n 1 1 1 m)%N by rewrite exo_n.
exact: (@C37_jacobian Q 1 1 1 1 1 ex_ocp 1 1 ex_lgr ex_kinc m isT isT ex_reach ex_hN o1 o2 x 1%N 7%N ex_ocp_derivs h1 h2).
Qed.
(** The Hessian of theta = x0 q has a one in the row of q and the column of x_0; the matrix has a zero. *)
Theorem C38_objective_refuted : exists (p : ocp Q 1 1 1 1 1) (a b : nat), ocp_derivs p /\ (a <= b < nlp_n 1 1 1 m)%N /\
  forall o x, ~ hessn (nlp_f p m) x a b (val (o_d2f (nlp_d2f p m o x)) a b).
Proof.
exists ex_ocp, 1%N, 2%N; split; first exact: ex_ocp_derivs.
have h1 : (1 < nlp_n 1 1 1 m)%N by rewrite exo_n.
have h2 : (2 < nlp_n 1 1 1 m)%N by rewrite exo_n.
split=> // o x H; have := hessn_uniq H (@obj_hess Q 1 1 1 1 1 ex_ocp 1 1 ex_kinc m isT isT ex_reach ex_hN x _ _ ex_ocp_derivs h1 h2).
rewrite (@C38_objective_cross Q 1 1 1 1 1 ex_ocp 1 1 ex_kinc m isT isT ex_reach ex_hN) //.
Qed.
Example C38_case (o1 o2 : nlp Q) x (lam : nat -> Q) :
  hessn (fun x => \sum_(r < nlp_m 1 1 1 1 m) lam r * o_g (nlp_g ex_ocp 1 1 ex_lgr m o1 x) r) x 3 7
    (val (o_d2g (nlp_d2g ex_ocp 1 1 ex_lgr m o2 x lam)) 3 7).
Proof.
have h : (3 <= 7 < nlp_n 1 1 1 m)%N by rewrite exo_n.
exact: (@C38_lagrangian_partial Q 1 1 1 1 1 ex_ocp 1 1 ex_lgr ex_kinc m isT isT ex_reach ex_hN o1 o2 x lam 3%N 7%N ex_ocp_derivs h isT).
Qed.
(** Without running constraints there is no result. *)
Theorem C39_roundtrip_refuted : exists s : nlpsol Q, 0 < s_x s 0%N /\ nlpsol_to_ocpsol 1 1 0 0 0 1 1 ex_lgr m ex_bis s = None.
Proof. by exists (NlpSol (fun=> 1) (fun=> 0) (fun=> 0) (fun=> 0)). Qed.
Example C39_case (jx jl : nat -> Q) : exists2 c : ocpsol Q 1 1 1 1 1,
  nlpsol_to_ocpsol 1 1 1 1 1 1 1 ex_lgr m ex_bis (NlpSol exo_x (fun=> 0) (fun=> 0) (fun r => r%:R)) = Some c &
  s_x (ocpsol_to_nlpsol 1 1 ex_lgr m jx jl c) 4 = 2%:R /\ s_lam (ocpsol_to_nlpsol 1 1 ex_lgr m jx jl c) 5 = 5%:R.
Proof.
have [c -> [h1 h2]] := @C39_roundtrip_partial Q 1 1 1 1 1 1 1 ex_lgr ex_kinc m ex_bis isT isT ex_lgr_contract ex_bis_contract
  ex_reach ex_hN (NlpSol exo_x (fun=> 0) (fun=> 0) (fun r => r%:R)) jx jl isT isT isT (oner_neq0 _).
by exists c => //; rewrite h1 ?exo_n // h2 ?exo_m.
Qed.

End Cases.

Print Assumptions C35_variables.
Print Assumptions C35_constraints.
Print Assumptions C36_feasible.
Print Assumptions C37_gradient.
Print Assumptions C37_jacobian.
Print Assumptions C38_objective_partial.
Print Assumptions C38_lagrangian_partial.
Print Assumptions C38_no_cross_terms.
Print Assumptions C38_objective_refuted.
Print Assumptions C39_to_nlp.
Print Assumptions C39_roundtrip_partial.
Print Assumptions C39_roundtrip_refuted.
