(** Properties C45, C46 and C47: the cost of the quadratic program that an MPC object solves. *)
From mathcomp Require Import all_ssreflect all_algebra zify.
From mathcomp.algebra_tactics Require Import ring.
From Verif Require Import Calc QpModel QpSpec MeshModel MeshSpec PolyFacts MeshFacts MeshQuad MeshEval MeshProps.
From Verif Require Import SparseModel SparseFacts MeshFunModel MeshFunFacts MeshFunLoops MeshFunDyn MeshFunProps MeshFunTraj NlpModel NlpFacts NlpProps NlpSol.
From Verif Require Import OqpModel OqpFacts OqpProps OqpCost MpcModel MpcHist.
Set Implicit Arguments.
Unset Strict Implicit.
Unset Printing Implicit Defensive.
Import Order.TTheory GRing.Theory Num.Theory.
Local Open Scope ring_scope.
Local Arguments muln : simpl never.

(** * Specification *)
Section Spec.
Variable F : realFieldType.
(** v' M v. *)
Definition quad n (M : 'M[F]_n) (v : nat -> F) : F := \sum_(i < n) \sum_(j < n) M i j * v i * v j.
(** The cost 1/2 z' P z + q' z of a program with nv variables, whose solver reads the upper triangle of P. *)
Definition qp_cost (nv : nat) (s : qpst F) (z : nat -> F) : F :=
  2%:R^-1 * (\sum_(a < nv) \sum_(b < nv) (if (a <= b)%N then val (oP s) a b else val (oP s) b a) * z a * z b) + \sum_(c < nv) oq s c * z c.
Variables (Nx Nu : nat) (m : mesh F) (ws : seq F).
Local Notation N := (N_colloc m).
(** The running cost of weights Q, R for deviations z from the reference, with quadrature weights ws on [0, 1]. *)
Definition running_cost (Q : 'M[F]_Nx) (R : 'M[F]_Nu) (tf : F) (z : nat -> F) : F :=
  tf * \sum_(i < N) nth 0 ws i * (2%:R^-1 * (quad Q (dx_of Nx z i) + quad R (du_of Nx Nu m z i))).
(** The entries of R at the positions where Q is not zero. *)
Definition masked (Q : 'M[F]_Nx) (R : 'M[F]_Nu) : 'M[F]_Nu := \matrix_(i, j) if mget Q i j != 0 then R i j else 0.
(** The documented cost. *)
Definition mpc_cost (w : weights F Nx Nu) (tf : F) (z : nat -> F) : F :=
  running_cost (wQ w) (wR w) tf z + 2%:R^-1 * quad (wQtf w) (dx_of Nx z N).
End Spec.

(** * The functors *)
Section Functors.
Variable F : realFieldType.
Variables Nx Nu : nat.
Lemma fill_val n b (test v : nat -> nat -> F) h r c : val (hess_fill n b test v h) r c =
  if [&& inr b n r, inr b n c & test (r - b)%N (c - b)%N != 0] then v (r - b)%N (c - b)%N else val h r c.
Proof.
have one h0 i j : val (if test i j != 0 then upd h0 (b + i) (b + j) (v i j) else h0) r c =
  if [&& (b <= r)%N, (b <= c)%N, (r - b, c - b)%N == (i, j) & test (r - b)%N (c - b)%N != 0] then v (r - b)%N (c - b)%N else val h0 r c.
  case: (leqP b r) => br /=; last by case: ifP => // _; rewrite /val /upd (_ : r == _ = false) //; apply/eqP; lia.
  case: (leqP b c) => bc /=; last by case: ifP => // _; rewrite /val /upd (_ : c == _ = false) ?andbF //; apply/eqP; lia.
  case: (@eqP _ (r - b, c - b)%N (i, j)) => [[<- <-]|ne] /=; first by case: ifP => // _; rewrite /val /upd !subnKC // !eqxx.
  case: ifP => // _; rewrite /val /upd; case: eqP => //= er; case: eqP => //= ec.
  by case: ne; rewrite er ec !addKn.
rewrite /hess_fill.
have G (l : seq (nat * nat)) h0 : val (foldl (fun h ij => if test ij.1 ij.2 != 0 then upd h (b + ij.1) (b + ij.2) (v ij.1 ij.2) else h) h0 l) r c =
  if [&& (b <= r)%N, (b <= c)%N, ((r - b)%N, (c - b)%N) \in l & test (r - b)%N (c - b)%N != 0] then v (r - b)%N (c - b)%N else val h0 r c.
  elim: l h0 => [|[i j] l IH] h0; first by rewrite [_ \in _]/= !andbF.
  rewrite /= IH in_cons one; case: (b <= r)%N => //=; case: (b <= c)%N => //=.
  by case: (_ \in l); case: (_ != 0); rewrite ?andbT ?andbF ?orbT ?orbF //=.
rewrite G /inr.
have -> : ((r - b, c - b)%N \in [seq (i, j) | i <- iota 0 n, j <- iota 0 n]) = (r - b < n)%N && (c - b < n)%N.
  apply/allpairsP/andP => [[[i j]] /=|[h1 h2]]; first by rewrite !mem_iota => -[h1 h2 [-> ->]].
  by exists ((r - b)%N, (c - b)%N); rewrite !mem_iota.
case: (leqP b r) => //= h1; case: (leqP b c) => h2 //=; rewrite ?andbF //.
by rewrite !ltn_subLR // -andbA.
Qed.
Lemma obj_hess_val (Q : 'M[F]_Nx) h r c : val (obj_hess Q h) r c =
  if inr 1 Nx r && inr 1 Nx c then mget Q (r - 1) (c - 1) else 0.
Proof.
rewrite /obj_hess fill_val val_set_zero; case: (inr 1 Nx r) => //=; case: (inr 1 Nx c) => //=.
by case: eqP => [->|].
Qed.
Lemma int_hess_val (Q : 'M[F]_Nx) (R : 'M[F]_Nu) h gh r c : int_hess Q R h = Some gh -> val gh r c =
  if inr (1 + Nx) Nu r && inr (1 + Nx) Nu c then (if mget Q (r - (1 + Nx)) (c - (1 + Nx)) != 0 then mget R (r - (1 + Nx)) (c - (1 + Nx)) else 0)
  else if inr 1 Nx r && inr 1 Nx c then mget Q (r - 1) (c - 1) else 0.
Proof.
rewrite /int_hess; case: ifP => // hn [<-]; rewrite !fill_val val_set_zero.
have D k : inr (1 + Nx) Nu k -> inr 1 Nx k = false by rewrite /inr; clear; lia.
case hr : (inr (1 + Nx) Nu r) => /=.
  case hc : (inr (1 + Nx) Nu c) => /=; rewrite (D _ hr) //=; by case: eqP.
by case: (inr 1 Nx r) => //=; case: (inr 1 Nx c) => //=; case: eqP => [->|].
Qed.
End Functors.

Section Sums.
Variable F : realFieldType.
Variables Nx Nu : nat.
Lemma node_sum (m : mesh F) tau i (g z : nat -> F) : let N := N_colloc m in (i < N)%N ->
  \sum_(a < Nx * (N + 1) + Nu * N) cofn Nx Nu (2 + Nx * i) (2 + Nx * (N + 1) + Nu * i) tau (2 + a) * g (argn Nx Nu (2 + Nx * i) (2 + Nx * (N + 1) + Nu * i) (2 + a)) * z a =
  \sum_(b < Nx) g (1 + b)%N * dx_of Nx z i b + \sum_(b < Nu) g (1 + Nx + b)%N * du_of Nx Nu m z i b.
Proof.
move=> N iN; have iN1 : (i < N + 1)%N by rewrite addn1 ltnS ltnW.
have hU : (Nx * i + Nx <= Nx * (N + 1))%N by rewrite -mulnSr leq_mul2l -addn1 leq_add2r (ltnW iN) orbT.
rewrite big_split_ord /=; congr (_ + _).
  rewrite (sum_block Nx (N + 1) (fun a => cofn Nx Nu (2 + Nx * i) (2 + Nx * (N + 1) + Nu * i) tau (2 + a) * g (argn Nx Nu (2 + Nx * i) (2 + Nx * (N + 1) + Nu * i) (2 + a)) * z a)).
  rewrite (bigD1 (Ordinal iN1)) //= [X in _ + X]big1 ?addr0 => [|k ki].
    apply: eq_bigr => b _; rewrite /cofn /argn !leq_add2l leq_addr -!addnA !ltn_add2l ltn_ord /=.
    by rewrite addnA addKn mul1r /dx_of.
  apply: big1 => b _; rewrite /cofn /argn -addnA leq_add2l ltn_add2l -inrE inr_row // (_ : (i == k) = false) /=; last by apply/negbTE; rewrite eq_sym.
  have -> : (2 + (Nx * (N + 1) + Nu * i) <= 2 + (Nx * k + b))%N = false.
    rewrite leq_add2l; apply/negbTE; rewrite -ltnNge; apply: leq_trans (leq_addr _ _).
    by have := ltn_ord k; have := ltn_ord b; clear; nia.
  by rewrite !mul0r.
rewrite (sum_block Nu N (fun a => cofn Nx Nu (2 + Nx * i) (2 + Nx * (N + 1) + Nu * i) tau (2 + (Nx * (N + 1) + a)) * g (argn Nx Nu (2 + Nx * i) (2 + Nx * (N + 1) + Nu * i) (2 + (Nx * (N + 1) + a))) * z (Nx * (N + 1) + a)%N)).
have xF a : (2 + Nx * i <= 2 + (Nx * (N + 1) + a) < 2 + Nx * i + Nx)%N = false by clear -hU; lia.
rewrite (bigD1 (Ordinal iN)) //= [X in _ + X]big1 ?addr0 => [|k ki].
  apply: eq_bigr => b _; rewrite /cofn /argn xF -!addnA !leq_add2l !ltn_add2l leq_addr ltn_ord /= mul1r.
  rewrite /du_of; congr (g _ * z _); clear; lia.
apply: big1 => b _; rewrite /cofn /argn xF -!addnA !leq_add2l !ltn_add2l -inrE inr_row // (_ : (i == k) = false) /= ?mul0r //.
by apply/negbTE; rewrite eq_sym.
Qed.
End Sums.

(** * The cost of one program *)
Section Cost.
Variable F : realFieldType.
Variables Nx Nu Ncr : nat.
Local Notation X := 'cV[F]_Nx.
Local Notation U := 'cV[F]_Nu.
Variables (Tm : Type) (tplus : Tm -> F -> Tm) (tzero : Tm).
Variables (Kmesh : nat) (lgr : nat -> seq F * seq F).
Variables (f : Tm -> X -> U -> nat -> F) (df : Tm -> X -> U -> nat -> nat -> F).
Variables (cr_time : bool) (cr : Tm -> X -> U -> nat -> F) (dcr : Tm -> X -> U -> nat -> nat -> F).
Variables (crl cru : nat -> F).
Variable m : mesh F.
Local Notation N := (N_colloc m).
Local Notation nv := (Nx * (N + 1) + Nu * N)%N.
Local Notation ws := (all_weights Kmesh Kmesh lgr m).
Variables (w : weights F Nx Nu) (gh : smat F) (t0f t0c : Tm) (x0f : X).
Hypothesis ghE : int_hess (wQ w) (wR w) empty = Some gh.
Local Notation p := (mpc_ocp Ncr tplus tzero f df cr_time cr dcr crl cru w gh t0f t0c x0f).
Variables (tf : F) (xl : F -> X) (dxl : F -> nat -> F) (ul : F -> U).
Local Notation upd s := (oqp_update p Kmesh Kmesh lgr m tf xl dxl ul s).
Local Notation it s := (mesh_integrate 1 (intv p) (dint p) (d2int p) Kmesh Kmesh lgr m 0 tf (lin Kmesh Kmesh lgr m tf xl) (lin Kmesh Kmesh lgr m tf ul) (w_int s)).
Local Notation arg i := (argn Nx Nu (2 + Nx * i) (2 + Nx * (N + 1) + Nu * i)).
Local Notation cof i := (cofn Nx Nu (2 + Nx * i) (2 + Nx * (N + 1) + Nu * i) (nth 0 (all_nodes Kmesh Kmesh lgr m) i)).

Lemma mpc_int s : mvlam (w_int s) = (fun=> 1) -> [/\ forall c, val (mvdF (it s)) 0 c = 0 &
  forall a b, (a <= b)%N -> val (mvd2F (it s)) (2 + a) (2 + b) =
    \sum_(i < N) nth 0 ws i * tf * (cof i (2 + a) * cof i (2 + b) * val gh (arg i (2 + a)) (arg i (2 + b)))].
Proof.
move=> h1; set v := vref Nx Nu m 0 tf (lin Kmesh Kmesh lgr m tf xl) (lin Kmesh Kmesh lgr m tf ul).
have [_ _ e1 e2 _] := @ref_int F Nx Nu 1 (intv p) (dint p) (d2int p) Kmesh Kmesh lgr m 0 tf (lin Kmesh Kmesh lgr m tf xl) (lin Kmesh Kmesh lgr m tf ul) (w_int s).
have [_ E1 E2] := @intR F Nx Nu 1 (intv p) (dint p) (d2int p) N (all_nodes Kmesh Kmesh lgr m) ws v (w_int s).
split=> [c|a b ab]; rewrite ?e1 ?e2.
  rewrite [LHS]E1; apply: big1 => i _ /=; rewrite /val /=; ring.
have dT0 k : dTn F (2 + k) = 0 by rewrite /dTn /= subr0.
rewrite [LHS]E2; apply: eq_bigr => i _; rewrite big_ord1 leq_add2l ab h1 !dT0 !mul0r !addr0 mulr1 muln0 add0n /v /vref /= subr0.
by rewrite mulrA.
Qed.
Lemma mget_sym n (M : 'M[F]_n) i j : M^T = M -> mget M i j = mget M j i.
Proof.
move=> h; rewrite /mget; do 2! case: insubP => //=; move=> u _ _ v _ _.
by rewrite -[in LHS]h mxE.
Qed.
Lemma gh_sym r c : (wQ w)^T = wQ w -> (wR w)^T = wR w -> val gh r c = val gh c r.
Proof.
move=> sQ sR; rewrite !(int_hess_val _ _ ghE) andbC [X in if X then mget (wQ w) (r - 1) _ else _]andbC.
by rewrite (mget_sym (r - (1 + Nx)) (c - (1 + Nx)) sQ) (mget_sym (r - (1 + Nx)) (c - (1 + Nx)) sR) (mget_sym (r - 1) (c - 1) sQ).
Qed.
Lemma d2thE a b : val (d2theta p (qend tf xl)) (1 + a) (1 + b) = if (a < Nx)%N && (b < Nx)%N then mget (wQtf w) a b else 0.
Proof. by rewrite obj_hess_val /inr !leq_addr !ltn_add2l !addKn. Qed.
Lemma dth1 : val (dtheta p (qend tf xl)) 0 (1 + 2 * Nx) = 1. Proof. by rewrite /val /= eqxx. Qed.
Lemma entry s a b : mvlam (w_int s) = (fun=> 1) -> (wQ w)^T = wQ w -> (wR w)^T = wR w -> (wQtf w)^T = wQtf w -> (a < nv)%N -> (b < nv)%N ->
  (if (a <= b)%N then val (oP (upd s)) a b else val (oP (upd s)) b a) =
  \sum_(i < N) nth 0 ws i * tf * (cof i (2 + a) * cof i (2 + b) * val gh (arg i (2 + a)) (arg i (2 + b))) +
  2%:R^-1 * (if (a < Nx)%N && (b < Nx)%N then mget (wQtf w) a b else 0).
Proof.
move=> h1 sQ sR sT ha hb; have [_ H2] := mpc_int h1.
have G a' b' : (a' < nv)%N -> (b' < nv)%N -> (a' <= b')%N -> val (oP (upd s)) a' b' =
  \sum_(i < N) nth 0 ws i * tf * (cof i (2 + a') * cof i (2 + b') * val gh (arg i (2 + a')) (arg i (2 + b'))) +
  2%:R^-1 * (if (a' < Nx)%N && (b' < Nx)%N then mget (wQtf w) a' b' else 0).
  move=> ha' hb' ab; rewrite cost_P // ab -(H2 _ _ ab) dth1 mul1r; congr (_ + _ * _).
  rewrite -!(addnA 1%N Nx) !d2thE.
  have X c k : (Nx + (c - k) < Nx)%N = false by rewrite ltnNge leq_addr.
  by rewrite !X ?andbF !if_same !addr0 /in0; case: (_ && _).
case: (leqP a b) => ab; first exact: G.
rewrite (G _ _ hb ha (ltnW ab)) andbC (mget_sym b a sT); congr (_ + _); apply: eq_bigr => i _; rewrite gh_sym //.
by rewrite [cof i (2 + b) * _]mulrC.
Qed.
Lemma mpc_q s c : mvlam (w_int s) = (fun=> 1) -> (c < nv)%N -> oq (upd s) c = 0.
Proof.
move=> h1 hc; have [H _] := mpc_int h1; rewrite cost_q // H mulr0 add0r /val /= /in0 /inN /inr.
have E a : (a < 2 * Nx)%N -> (a.+1 == (1 + 2 * Nx)%N) = false by move=> h; apply/negbTE; rewrite add1n eqSS; clear -h; lia.
case: ifP => h0; case: ifP => h2; rewrite ?addr0 ?add0r // ?add1n ?addSn ?E ?addr0 //; clear -h0 h2; lia.
Qed.
Lemma quad_sum n (M : nat -> nat -> F) (v : nat -> F) : \sum_(a < n) (\sum_(b < n) M a b * v b) * v a = \sum_(a < n) \sum_(b < n) M a b * v a * v b.
Proof. by apply: eq_bigr => a _; rewrite mulr_suml; apply: eq_bigr => b _; rewrite mulrAC. Qed.
(** One node. *)
Lemma node_quad i (z : nat -> F) : (i < N)%N ->
  \sum_(a < nv) \sum_(b < nv) cof i (2 + a) * cof i (2 + b) * val gh (arg i (2 + a)) (arg i (2 + b)) * z a * z b =
  quad (wQ w) (dx_of Nx z i) + quad (masked (wQ w) (wR w)) (du_of Nx Nu m z i).
Proof.
move=> iN; pose g r := \sum_(b < Nx) val gh r (1 + b) * dx_of Nx z i b + \sum_(b < Nu) val gh r (1 + Nx + b) * du_of Nx Nu m z i b.
transitivity (\sum_(a < nv) cof i (2 + a) * g (arg i (2 + a)) * z a).
  apply: eq_bigr => a _; rewrite /g -(@node_sum F Nx Nu m (nth 0 (all_nodes Kmesh Kmesh lgr m) i) i (val gh (arg i (2 + a))) z iN).
  rewrite mulrAC mulr_sumr; apply: eq_bigr => b _; move: (val _ _ _) (cofn _ _ _ _ _ _) (cofn _ _ _ _ _ _) => x y y'; ring.
rewrite (@node_sum F Nx Nu m _ i g z iN) /g.
have ix (a : 'I_Nx) : inr 1 Nx (1 + a) by rewrite /inr leq_addr ltn_add2l ltn_ord.
have iu (a : 'I_Nu) : inr (1 + Nx) Nu (1 + Nx + a) by rewrite /inr leq_addr ltn_add2l ltn_ord.
have ixu (a : 'I_Nx) : inr (1 + Nx) Nu (1 + a) = false by rewrite /inr leq_add2l leqNgt ltn_ord.
have iux (a : 'I_Nu) : inr 1 Nx (1 + Nx + a) = false by rewrite /inr; clear; lia.
have mO n (M : 'M[F]_n) (a b : 'I_n) : mget M a b = M a b by rewrite /mget !valK.
congr (_ + _).
  rewrite /quad; apply: eq_bigr => a _; rewrite [X in _ + X]big1 ?addr0 => [|b _].
    by rewrite mulr_suml; apply: eq_bigr => b _; rewrite (int_hess_val _ _ ghE) !ixu !ix !addKn mO mulrAC.
  by rewrite (int_hess_val _ _ ghE) ixu iux andbF mul0r.
rewrite /quad; apply: eq_bigr => a _; rewrite [X in X + _]big1 ?add0r => [|b _].
  by rewrite mulr_suml; apply: eq_bigr => b _; rewrite (int_hess_val _ _ ghE) !iu !addKn mxE mO mulrAC.
by rewrite (int_hess_val _ _ ghE) ixu iux andbF mul0r.
Qed.
(** The cost of the program that the functors of an object with symmetric weights w define. *)
Lemma cost_general s z : mvlam (w_int s) = (fun=> 1) -> (wQ w)^T = wQ w -> (wR w)^T = wR w -> (wQtf w)^T = wQtf w ->
  qp_cost nv (upd s) z = running_cost m ws (wQ w) (masked (wQ w) (wR w)) tf z + 4%:R^-1 * quad (wQtf w) (dx_of Nx z 0).
Proof.
move=> h1 sQ sR sT; rewrite /qp_cost [X in _ + X]big1 ?addr0 => [|c _]; last by rewrite mpc_q // mul0r.
pose S1 := \sum_(a < nv) \sum_(b < nv) (\sum_(i < N) nth 0 ws i * tf * (cof i (2 + a) * cof i (2 + b) * val gh (arg i (2 + a)) (arg i (2 + b)))) * z a * z b.
pose S2 := \sum_(a < nv) \sum_(b < nv) (if (a < Nx)%N && (b < Nx)%N then mget (wQtf w) a b else 0) * z a * z b.
have -> : \sum_(a < nv) \sum_(b < nv) (if (a <= b)%N then val (oP (upd s)) a b else val (oP (upd s)) b a) * z a * z b = S1 + 2%:R^-1 * S2.
  rewrite /S1 /S2 mulr_sumr -big_split; apply: eq_bigr => a _; rewrite mulr_sumr -big_split; apply: eq_bigr => b _ /=.
  by rewrite entry // !mulrDl !mulrA.
have -> : S1 = \sum_(i < N) nth 0 ws i * tf * (quad (wQ w) (dx_of Nx z i) + quad (masked (wQ w) (wR w)) (du_of Nx Nu m z i)).
  rewrite /S1; under eq_bigr => a _ do under eq_bigr => b _ do rewrite mulr_suml mulr_suml.
  under eq_bigr => a _ do rewrite exchange_big /=.
  rewrite exchange_big /=; apply: eq_bigr => i _; rewrite -node_quad // mulr_sumr; apply: eq_bigr => a _.
  by rewrite mulr_sumr; apply: eq_bigr => b _; rewrite !mulrA.
have -> : S2 = quad (wQtf w) (dx_of Nx z 0).
  have hx : (Nx <= nv)%N by rewrite mulnDr muln1; clear; lia.
  rewrite /S2 /quad.
  have W (g : nat -> F) : \sum_(a < nv) (if (a < Nx)%N then g a else 0) = \sum_(a < Nx) g a.
    by rewrite -big_mkcond (big_ord_widen _ _ hx).
  transitivity (\sum_(a < Nx) \sum_(b < Nx) mget (wQtf w) a b * z a * z b).
    rewrite -(W (fun a => \sum_(b < Nx) mget (wQtf w) a b * z a * z b)); apply: eq_bigr => a _.
    case: ifP => ha /=; last by rewrite big1 // => b _; rewrite !mul0r.
    rewrite -(W (fun b => mget (wQtf w) a b * z a * z b)); apply: eq_bigr => b _; by case: ifP => hb; rewrite ?mul0r.
  by apply: eq_bigr => a _; apply: eq_bigr => b _; rewrite /mget !valK /dx_of muln0 !add0n.
rewrite mulrDr; congr (_ + _); last by move: (quad _ _) => x; field.
rewrite /running_cost !mulr_sumr; apply: eq_bigr => i _; ring.
Qed.
End Cost.
