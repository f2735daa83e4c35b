(** Property C41: the cost of the quadratic program of an optimal control problem. *)
From mathcomp Require Import all_ssreflect all_algebra zify.
From mathcomp.algebra_tactics Require Import ring.
From Verif Require Import Calc QpModel QpSpec MeshModel MeshSpec PolyFacts MeshFacts MeshQuad MeshEval MeshProps.
From Verif Require Import SparseModel SparseFacts MeshFunModel MeshFunFacts MeshFunLoops MeshFunDyn MeshFunProps MeshFunTraj NlpModel NlpFacts NlpProps NlpSol.
From Verif Require Import OqpModel OqpFacts OqpProps.
Set Implicit Arguments.
Unset Strict Implicit.
Unset Printing Implicit Defensive.
Import Order.TTheory GRing.Theory Num.Theory.
Local Open Scope ring_scope.
Local Arguments muln : simpl never.

Section Cost.
Variable F : realFieldType.
Variables Nx Nu Ncr Nce : nat.
Variables (Kmin Kmax : nat) (lgr : nat -> seq F * seq F) (kinc : nat -> F -> F -> nat) (m : mesh F).
Hypotheses (k0 : (0 < Kmin)%N) (km : (Kmin <= Kmax)%N).
Hypothesis rm : reachable Kmin Kmax kinc m.
Hypothesis hN : (\sum_(i < size m) N_colloc_ival m i < uint_mod)%N.
Local Notation N := (N_colloc m).
Local Notation ocp := (ocp F Nx Nu 1 Ncr Nce).
Local Notation nv := (Nx * (N + 1) + Nu * N)%N.
Local Notation ne := (1 + 2 * Nx + 1)%N.
Local Notation tm tf i := (time Kmin Kmax lgr m tf i).
Local Notation upd p tf xl dxl ul := (@oqp_update F Nx Nu Ncr Nce p Kmin Kmax lgr m tf xl dxl ul).
Let N0 : (0 < N)%N := N0 k0 km rm hN.
Variables (p : ocp) (tf : F) (xl : F -> 'cV[F]_Nx) (dxl : F -> nat -> F) (ul : F -> 'cV[F]_Nu).

(** The objective of the collocated problem as a function of the deviations z from the reference, with t0 = 0 and tf
    fixed: theta(tf, x_0, x_N, q), where q is the quadrature of the integrand. *)
Definition pt_x (z : nat -> F) (i k : nat) : F := vget (xl (tm tf i)) k + dx_of Nx z i k.
Definition pt_u (z : nat -> F) (i k : nat) : F := vget (ul (tm tf i)) k + du_of Nx Nu m z i k.
Definition node_z (z : nat -> F) (i : nat) : 'cV[F]_(1 + Nx + Nu) :=
  node_arg Nx Nu 0 tf (pt_x z) (pt_u z) (nth 0 (all_nodes Kmin Kmax lgr m) i) i.
Definition integral (z : nat -> F) : F := tf * \sum_(i < N) nth 0 (all_weights Kmin Kmax lgr m) i * intv p (node_z z i) 0.
Definition end_z (z : nat -> F) (q : F) : 'cV[F]_ne :=
  \col_a if a == 0%N :> nat then tf
         else if (a < 1 + Nx)%N then vget (xl 0) (a - 1)%N + dx_of Nx z 0 (a - 1)
         else if (a < 1 + 2 * Nx)%N then vget (xl tf) (a - (1 + Nx))%N + dx_of Nx z N (a - (1 + Nx)) else q.
Definition objective (z : nat -> F) : F := theta p (end_z z (integral z)).

Local Notation Vz z := (vref Nx Nu m 0 tf (pt_x z) (pt_u z)).
Local Notation it out v := (mesh_integrate 1 (intv p) (dint p) (d2int p) Kmin Kmax lgr m (v 0%N) (v 1%N) (var_x Nx v) (var_u Nx Nu N v) out).
Local Notation wi s := (mesh_integrate 1 (intv p) (dint p) (d2int p) Kmin Kmax lgr m 0 tf (lin Kmin Kmax lgr m tf xl) (lin Kmin Kmax lgr m tf ul) (w_int s)).
Let z0 : nat -> F := fun=> 0.

Lemma Vz_set z c r k : Vz (setn z c r) k = setn (Vz z) (2 + c) (Vz z (2 + c)%N - z c + r) k.
Proof.
have E z' c' : Vz z' (2 + c')%N = Vz z0 (2 + c')%N + z' c'.
  rewrite /vref /= !subSS subn0 /pt_x /pt_u /dx_of /du_of /z0; case: ifP => h; rewrite addr0; congr (_ + z' _).
    by rewrite mulnC -divn_eq.
  by rewrite -addnA [(Nu * _)%N]mulnC -divn_eq; lia.
case: k => [//|[//|k]]; rewrite -[k.+2]/(2 + k)%N (E (setn z c r)) (E z c) addrK /setn eqn_add2l.
by case: eqP => [->|_] //; rewrite -E.
Qed.
Lemma part_V Phi z c d : nat_ext Phi -> partialn Phi (Vz z) (2 + c) d -> partialn (fun z => Phi (Vz z)) z c d.
Proof.
move=> E h; rewrite /partialn; apply: (deriv_ext (f := fun r => Phi (setn (Vz z) (2 + c) ((Vz z (2 + c)%N - z c) + 1 * r)))).
  by move=> r; apply: E => k; rewrite mul1r Vz_set.
rewrite -[d]mul1r; apply: (deriv_aff (f := fun r => Phi (setn (Vz z) (2 + c) r))).
by rewrite mul1r subrK.
Qed.
Lemma hess_Vz Phi z a b h : nat_ext Phi -> hessn Phi (Vz z) (2 + a) (2 + b) h -> hessn (fun z => Phi (Vz z)) z a b h.
Proof.
move=> E [D HD Hb].
have ED : nat_ext D.
  move=> v w vw; apply: deriv_uniq (HD v) _; have := HD w; rewrite /partialn vw; apply: deriv_ext => s.
  by apply: E => k; rewrite /setn vw.
by exists (fun w => D (Vz w)) => [w|]; apply: part_V.
Qed.
Lemma integralE out z : integral z = mvF (it out (Vz z)) 0.
Proof.
rewrite C28_value //= subr0; congr (_ * _); apply: eq_bigr => i _; congr (_ * intv p _ _).
by rewrite (@ref_node F Nx Nu Kmin Kmax lgr m).
Qed.
Lemma ref_z0 i k : pt_x z0 i k = lin Kmin Kmax lgr m tf xl i k.
Proof. by rewrite /pt_x /lin /dx_of /z0 addr0 add0r subr0. Qed.
Lemma ref_z0u i k : pt_u z0 i k = lin Kmin Kmax lgr m tf ul i k.
Proof. by rewrite /pt_u /lin /du_of /z0 addr0 add0r subr0. Qed.
Lemma wi0 s : mrel (wi s) (it (w_int s) (Vz z0)).
Proof. by apply: int_ext => // i k hi hk; rewrite ?vref_x ?vref_u // ?ref_z0 ?ref_z0u. Qed.

(** Derivatives of functions of the end point. *)
Local Notation inN := (inN Nx m).
Local Notation in0 := (in0 Nx).
Definition epos (c : nat) : nat := if in0 c then (1 + c)%N else (1 + Nx + (c - Nx * N))%N.
Lemma epos_lt c : in0 c || inN c -> (epos c < ne)%N.
Proof. by rewrite /epos; case: ifP; rewrite /OqpProps.in0 /OqpProps.inN /inr; lia. Qed.
Lemma NxN : (Nx <= Nx * N)%N. Proof. by rewrite leq_pmulr. Qed.
Lemma end_set z q c r (h : in0 c || inN c) : end_z (setn z c r) q =
  setc (end_z z q) (Ordinal (epos_lt h)) (end_z z q (Ordinal (epos_lt h)) 0 - z c + r).
Proof.
have hh := NxN; apply/matrixP => a b; rewrite (ord1 b) !mxE -val_eqE /= /epos.
move: h; rewrite /OqpProps.in0 /OqpProps.inN /inr /dx_of /setn muln0; case: (ltnP c Nx) => hc /= h.
  case: eqP => a0; first by rewrite a0.
  case: ifP => h1.
    rewrite !add0n (_ : (a - 1 == c)%N = (a == 1 + c :> nat)%N); last lia.
    case: eqP => [->|//]; rewrite addKn ltn_add2l hc; ring.
  case: ifP => h2; rewrite (_ : (a == 1 + c :> nat)%N = false); try lia; last by [].
  by rewrite (_ : (Nx * N + (a - (1 + Nx)) == c)%N = false) //; lia.
case: eqP => a0; first by rewrite a0.
have e1 : (1 + Nx + (c - Nx * N) < 1 + Nx)%N = false by rewrite ltnNge leq_addr.
have e2 : (1 + Nx + (c - Nx * N) < 1 + 2 * Nx)%N by clear -h; lia.
rewrite e1 e2 {e1 e2}; case: ifP => h1.
  have e1 : (a - 1 == c)%N = false by clear -hc h1 a0; lia.
  have e2 : (a == 1 + Nx + (c - Nx * N) :> nat)%N = false by clear -h1; lia.
  by rewrite !add0n e1 e2.
case: ifP => h2.
  rewrite (_ : (Nx * N + (a - (1 + Nx)) == c)%N = (a == 1 + Nx + (c - Nx * N) :> nat)%N); last lia.
  case: eqP => [->|//]; rewrite (_ : (Nx * N + (1 + Nx + (c - Nx * N) - (1 + Nx)))%N = c); last lia.
  ring.
by rewrite (_ : (a == 1 + Nx + (c - Nx * N) :> nat)%N = false) //; lia.
Qed.
Lemma end_set0 z q c r : ~~ (in0 c || inN c) -> end_z (setn z c r) q = end_z z q.
Proof.
have hh := NxN; move=> h; apply/matrixP => a b; rewrite !mxE.
move: h; rewrite /OqpProps.in0 /OqpProps.inN /inr /dx_of /setn muln0 => h.
case: ifP => // a0; case: ifP => h1; first by rewrite (_ : (0 + (a - 1) == c)%N = false) //; lia.
by case: ifP => // h2; rewrite (_ : (Nx * N + (a - (1 + Nx)) == c)%N = false) //; lia.
Qed.
Lemma part_end (phi : 'cV[F]_ne -> F) z q c (J : nat -> F) : (forall a : 'I_ne, partial phi (end_z z q) a (J a)) ->
  partialn (fun z => phi (end_z z q)) z c (if in0 c || inN c then J (epos c) else 0).
Proof.
move=> H; rewrite /partialn; case h : (in0 c || inN c); last first.
  by apply: deriv_ext (deriv_const (phi (end_z z q)) _) => r; rewrite end_set0 ?h.
set k := Ordinal (epos_lt h).
apply: (deriv_ext (f := fun r => phi (setc (end_z z q) k ((end_z z q k 0 - z c) + 1 * r)))).
  by move=> r; rewrite mul1r (end_set _ _ _ h).
rewrite -[J _]mul1r; apply: (deriv_aff (f := fun r => phi (setc (end_z z q) k r))); rewrite mul1r subrK; exact: (H k).
Qed.
Lemma hess_endz (phi : 'cV[F]_ne -> F) z q a b (d1 : 'cV[F]_ne -> nat -> F) (d2 : nat -> nat -> F) :
  (forall w (i : 'I_ne), partial phi w i (d1 w i)) ->
  (forall (i j : 'I_ne), partial (fun w => d1 w i) (end_z z q) j (d2 i j)) ->
  hessn (fun z => phi (end_z z q)) z a b
    (if (in0 a || inN a) && (in0 b || inN b) then d2 (epos a) (epos b) else 0).
Proof.
move=> H1 H2; exists (fun w => if in0 a || inN a then d1 (end_z w q) (epos a) else 0) => [w|].
  exact: part_end.
case h : (in0 a || inN a) => /=; last exact: deriv_const.
by apply: (@part_end (fun z => d1 z (epos a)) z q b (d2 (epos a))) => i; exact: (H2 (Ordinal (epos_lt h))).
Qed.
Lemma end_z0 : end_z z0 1 = qend tf xl.
Proof. by apply/matrixP => a b; rewrite !mxE /dx_of /z0 !addr0. Qed.

(** The vector q of the program is the gradient, at the reference, of theta(tf, x_0, x_N, 1) + k * integral, and the upper triangle of P is the
    Hessian of theta(tf, x_0, x_N, 1) / 2 + k * integral, where k = d theta / d q at q = 1; the lower triangle is zero. *)
Local Notation kap := (val (dtheta p (qend tf xl)) 0 (1 + 2 * Nx)).
Lemma integral_grad s c : ocp_derivs p -> partialn integral z0 c (val (mvdF (wi s)) 0 (2 + c)).
Proof.
move=> [_ d2 _ _ _]; have [_ _ -> _ _] := wi0 s.
have E : nat_ext (fun v => mvF (it (w_int s) v) 0) := ext_int p Kmin Kmax lgr m (w_int s) 0.
apply: (deriv_ext (f := fun r => mvF (it (w_int s) (Vz (setn z0 c r))) 0)); first by move=> r; rewrite (integralE (w_int s)).
by apply: (@part_V (fun v => mvF (it (w_int s) v) 0)) => //; apply: C28_jacobian.
Qed.
Lemma integral_hess s a b : ocp_derivs p -> mvlam (w_int s) = (fun=> 1) -> (a <= b)%N ->
  hessn integral z0 a b (val (mvd2F (wi s)) (2 + a) (2 + b)).
Proof.
move=> [_ d2 _ _ _] h1 ab; have [_ _ _ -> _] := wi0 s.
have E : nat_ext (fun v => mvF (it (w_int s) v) 0) := ext_int p Kmin Kmax lgr m (w_int s) 0.
apply: (hessn_ext (P := fun z => mvF (it (w_int s) (Vz z)) 0)); first by move=> z; rewrite (integralE (w_int s)).
apply: (@hess_Vz (fun v => mvF (it (w_int s) v) 0)) => //.
have [H _] := @C28_hessian F Nx Nu 1 (intv p) (dint p) (d2int p) Kmin Kmax lgr m (w_int s) (Vz z0) (2 + a) (2 + b) d2.
by apply: hessn_ext (H _) => // v; rewrite big_ord1 h1 mul1r.
Qed.
Theorem C41_gradient_general s c : ocp_derivs p -> (c < nv)%N ->
  partialn (fun z => theta p (end_z z 1) + kap * integral z) z0 c (oq (upd p tf xl dxl ul s) c).
Proof.
move=> dd hc; rewrite cost_q // -addrA addrC; have [_ _ _ [d1 _] _] := dd.
apply: deriv_add; last by apply: deriv_scale; exact: integral_grad.
have := @part_end (theta p) z0 1 c (fun a => val (dtheta p (end_z z0 1)) 0 a) (fun a => d1 _ 0%N a isT).
apply: deriv_eq; rewrite end_z0 /epos; have := NxN; rewrite /OqpProps.in0 /OqpProps.inN /inr.
by case: (ltnP c Nx) => h hh; case: ifP => h2; rewrite ?addr0 ?add0r //; lia.
Qed.
Theorem C41_hessian_general P s a b : @history F Nx Nu Ncr Nce Kmin Kmax lgr m P s -> ocp_derivs p -> (a < nv)%N -> (b < nv)%N ->
  ((a <= b)%N -> hessn (fun z => theta p (end_z z 1) / 2%:R + kap * integral z) z0 a b (val (oP (upd p tf xl dxl ul s)) a b)) /\
  ((b < a)%N -> val (oP (upd p tf xl dxl ul s)) a b = 0).
Proof.
move=> hs dd ha hb; rewrite cost_P //; split=> ab; last by rewrite leqNgt ab.
have [_ hl _] := inv_hist k0 km hN hs; have [_ _ _ [d1 d2] _] := dd.
rewrite ab addrC; apply: hessn_add; last by apply: hessn_scale; apply: integral_hess.
apply: (hessn_ext (P := fun z => 2%:R^-1 * theta p (end_z z 1))); first by move=> z; rewrite mulrC.
apply: hessn_scale.
have := @hess_endz (theta p) z0 1 a b (fun z a => val (dtheta p z) 0 a) (fun a b => val (d2theta p (end_z z0 1)) a b)
  (fun w i => d1 w 0%N i isT).
have d2' (i j : 'I_ne) : partial (fun w => val (dtheta p w) 0 i) (end_z z0 1) j (val (d2theta p (end_z z0 1)) i j).
  by have := d2 (end_z z0 1) 0%N i j isT; rewrite muln0 add0n.
move/(_ d2'); apply: hessn_eq; rewrite end_z0 /epos; have := NxN; rewrite /OqpProps.in0 /OqpProps.inN /inr.
move=> hh; case: (ltnP a Nx) => h1; case: (ltnP b Nx) => h2 /=.
- by rewrite [(Nx * N <= b)%N]leqNgt (leq_trans h2 hh) [(Nx * N <= a)%N]leqNgt (leq_trans h1 hh) !addr0.
- by rewrite add0r [(Nx * N <= a)%N]leqNgt (leq_trans h1 hh) addr0.
- by have := leq_trans h2 (leq_trans h1 ab); rewrite ltnn.
- by rewrite !add0r.
Qed.

(** Objectives of the form phi(tf, x_0, x_N) + k q. *)
Definition linear_in_integral (k : F) : Prop := forall (x : 'cV[F]_ne) (l : 'I_ne) q, l = (1 + 2 * Nx)%N :> nat ->
  theta p (setc x l q) = theta p x + k * (q - x l 0).
Lemma objE k : linear_in_integral k -> forall z, objective z = theta p (end_z z 1) - k + k * integral z.
Proof.
move=> h z; have hl : (1 + 2 * Nx < ne)%N by rewrite -addn1.
have := h (end_z z 1) (Ordinal hl) (integral z) erefl; rewrite /objective.
have -> : end_z z 1 (Ordinal hl) 0 = 1.
  by rewrite mxE /= ltnn; case: ifP => //; rewrite mulSn addnA; lia.
have -> : setc (end_z z 1) (Ordinal hl) (integral z) = end_z z (integral z).
  apply/matrixP => a b; rewrite (ord1 b) mxE -val_eqE /=; case: eqP => [e|ne]; rewrite !mxE.
    by rewrite e /= ltnn; case: ifP => //; rewrite mulSn addnA; lia.
  by do 3 case: ifP => //; move=> h3 _ _; have := ltn_ord a; lia.
by move=> ->; ring.
Qed.
Lemma kapE k : linear_in_integral k -> ocp_derivs p -> kap = k.
Proof.
move=> h [_ _ _ [d1 _] _]; have hl : (1 + 2 * Nx < ne)%N by rewrite -addn1.
apply: (deriv_uniq (d1 (qend tf xl) 0%N (Ordinal hl) isT)).
apply: (deriv_ext (f := fun r => (theta p (qend tf xl) - k * qend tf xl (Ordinal hl) 0) + k * r)).
  by move=> r; rewrite h //; ring.
exact: deriv_line.
Qed.
Theorem C41_gradient k s c : ocp_derivs p -> linear_in_integral k -> (c < nv)%N ->
  partialn objective z0 c (oq (upd p tf xl dxl ul s) c).
Proof.
move=> dd hk hc; have := C41_gradient_general s dd hc; rewrite (kapE hk) // /partialn => H.
apply: (deriv_ext (f := fun r => - k + (theta p (end_z (setn z0 c r) 1) + k * integral (setn z0 c r)))).
  by move=> r; rewrite (objE hk) addrCA addrC addrAC [in RHS]addrAC -addrA [RHS]addrC addrC.
by rewrite -[X in deriv _ _ X]add0r; apply: deriv_add => //; exact: deriv_const.
Qed.
Theorem C41_hessian_partial P s k a b : @history F Nx Nu Ncr Nce Kmin Kmax lgr m P s -> ocp_derivs p -> linear_in_integral k ->
  (forall i j, (0 < i < 1 + 2 * Nx)%N -> (0 < j < 1 + 2 * Nx)%N -> val (d2theta p (qend tf xl)) i j = 0) ->
  (a < nv)%N -> (b < nv)%N ->
  ((a <= b)%N -> hessn objective z0 a b (val (oP (upd p tf xl dxl ul s)) a b)) /\
  ((b < a)%N -> val (oP (upd p tf xl dxl ul s)) a b = 0).
Proof.
move=> hs dd hk h2 ha hb; have [G1 G2] := C41_hessian_general hs dd ha hb; split=> // ab.
move: (G1 ab) => {G1 G2}; have := @integral_hess s a b dd _ ab.
have [_ hl _] := inv_hist k0 km hN hs; move=> /(_ hl) Hi _.
rewrite cost_P // ab (kapE hk) //.
have -> : (if in0 a && in0 b then val (d2theta p (qend tf xl)) (1 + a) (1 + b) else 0) = 0.
  by rewrite /OqpProps.in0; case: ifP => // /andP[h3 h4]; apply: h2; lia.
have -> : (if in0 a && inN b then val (d2theta p (qend tf xl)) (1 + a) (1 + Nx + (b - Nx * N)) else 0) = 0.
  by rewrite /OqpProps.in0 /OqpProps.inN /inr; case: ifP => // /andP[h3 h4]; apply: h2; lia.
have -> : (if inN a && inN b then val (d2theta p (qend tf xl)) (1 + Nx + (a - Nx * N)) (1 + Nx + (b - Nx * N)) else 0) = 0.
  by rewrite /OqpProps.inN /inr; case: ifP => // /andP[h3 h4]; apply: h2; lia.
rewrite !addr0 mulr0 addr0; have [_ _ _ [d1 d2] _] := dd.
have d2' (i j : 'I_ne) : partial (fun w => val (dtheta p w) 0 i) (end_z z0 1) j (val (d2theta p (end_z z0 1)) i j).
  by have := d2 (end_z z0 1) 0%N i j isT; rewrite muln0 add0n.
have := @hess_endz (theta p) z0 1 a b (fun z a => val (dtheta p z) 0 a) (fun a b => val (d2theta p (end_z z0 1)) a b)
  (fun w i => d1 w 0%N i isT) d2'.
have -> : (if (in0 a || inN a) && (in0 b || inN b) then val (d2theta p (end_z z0 1)) (epos a) (epos b) else 0) = 0.
  case: ifP => // /andP[h3 h4]; rewrite end_z0; apply: h2; [move: h3|move: h4]; rewrite /epos;
    by case: ifP; rewrite /OqpProps.in0 /OqpProps.inN /inr; lia.
move=> He; apply: (hessn_ext (P := fun z => (theta p (end_z z 1) + k * integral z) + - k)).
  by move=> z; rewrite (objE hk) addrAC.
rewrite -[X in hessn _ _ _ _ X]addr0; apply: hessn_add.
  by rewrite -[X in hessn _ _ _ _ X]add0r; apply: hessn_add => //; apply: hessn_scale.
by exists (fun=> 0) => [w|]; exact: deriv_const.
Qed.
End Cost.
