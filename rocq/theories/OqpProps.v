(** Properties C40-C44: the quadratic program of an optimal control problem. *)
From mathcomp Require Import all_ssreflect all_algebra zify.
From mathcomp.algebra_tactics Require Import ring.
From Verif Require Import Calc QpModel QpSpec MeshModel MeshSpec PolyFacts MeshFacts MeshQuad MeshEval MeshProps.
From Verif Require Import SparseModel SparseFacts MeshFunModel MeshFunFacts MeshFunLoops MeshFunDyn MeshFunProps MeshFunTraj NlpModel NlpFacts NlpProps NlpSol.
From Verif Require Import OqpModel OqpFacts.
Set Implicit Arguments.
Unset Strict Implicit.
Unset Printing Implicit Defensive.
Import Order.TTheory GRing.Theory Num.Theory.
Local Open Scope ring_scope.
Local Arguments muln : simpl never.
Local Arguments bexec : simpl never.
Local Arguments interval_diffmat_unscaled : simpl never.
Local Arguments interval_diffmat : simpl never.

Section Spec.
Variable F : realFieldType.
Variables (Nx Nu : nat) (Kmin Kmax : nat) (lgr : nat -> seq F * seq F) (m : mesh F).
Local Notation N := (N_colloc m).
(** The deviations in a vector of variables [dx_0 .. dx_N, du_0 .. du_(N-1)]. *)
Definition dx_of (z : nat -> F) (i k : nat) : F := z (Nx * i + k)%N.
Definition du_of (z : nat -> F) (i k : nat) : F := z (Nx * (N + 1) + Nu * i + k)%N.
(** Time of collocation point i, for t0 = 0. *)
Definition time (tf : F) (i : nat) : F := tf * nth 0 (all_nodes Kmin Kmax lgr m) i.
(** Row r of l <= A z <= u. *)
Definition row_holds (s : qpst F) (z : nat -> F) (r : nat) : bool :=
  between (ol s r) (ou s r) (\sum_(c < Nx * (N + 1) + Nu * N) val (oA s) r c * z c).
End Spec.

(** * C40 *)
Section C40.
Variable F : realFieldType.
Variables Nx Nu : nat.
Variables (Kmin Kmax : nat) (lgr : nat -> seq F * seq F) (kinc : nat -> F -> F -> nat) (m : mesh F).
Hypotheses (k0 : (0 < Kmin)%N) (km : (Kmin <= Kmax)%N).
Hypothesis Hl : forall K, (Kmin <= K <= Kmax.+1)%N -> lgr_contract K (lgr K).
Hypothesis rm : reachable Kmin Kmax kinc m.
Hypothesis hN : (\sum_(i < size m) N_colloc_ival m i < uint_mod)%N.
Local Notation N := (N_colloc m).
Local Notation K := (N_colloc_ival m).
Local Notation nb := (nb K).
Let EN : N = nb (size m).
Proof. by have [_ h _] := C26_N_colloc_partial m; rewrite h. Qed.
Let mp : is_partition m.
Proof. by have [] := C17_mesh_is_partition k0 km rm. Qed.
Let Hr : all (fun x : nat * F => Kmin <= x.1 <= Kmax.+1)%N m.
Proof. by have [om [os [c e]]] := rm; have [_ r] := run_inv k0 km c e. Qed.
Lemma node_glue I a : (I < size m)%N -> (a <= K I)%N ->
  nth 0 (all_nodes Kmin Kmax lgr m) (N_before m I + a) = nth 0 (interval_nodes Kmin Kmax lgr m I) a.
Proof.
move=> hI ha; rewrite (inodes_nth Hl Hr) //.
case h : (a < n_take m I)%N; first by rewrite (nodes_at k0 Hl Hr).
move: h; rewrite /n_take; case: ifP => hJ; last by rewrite ltnS ha.
move=> hn; have -> : a = K I by lia.
rewrite (lp_last (lgr_at Hl Hr hI)) phi_1 /tauf hJ.
have -> : (N_before m I + K I = N_before m I.+1 + 0)%N by rewrite addn0 -!nbE ?nbS // ltnW.
rewrite (nodes_at k0 Hl Hr) //; last by rewrite /n_take; have := K_pos k0 Hr hJ; case: ifP; lia.
by rewrite /tnode (lp_first (K_pos k0 Hr hJ) (lgr_at Hl Hr hJ)) phi_m1.
Qed.

Section Rows.
(** Any types of states and inputs. *)
Variables (X U : Type) (comm : bool) (ad : (nat -> F) -> nat -> nat -> F).
Variables (f : F -> X -> U -> nat -> F) (df : F -> X -> U -> smat F).
Variables (xl : F -> X) (dxl : F -> nat -> F) (ul : F -> U) (tf : F).
Local Notation dyn := (oqp_dyn Nx Nu Kmin Kmax lgr m comm ad f df xl dxl ul tf).
Local Notation tm i := (time Kmin Kmax lgr m tf i).
(** The collocation equation of component k at point j of interval I, for the dynamics linearized around the reference
    in coordinates x = xl + dx (right-plus), u = ul + du:
    d/dt dx = (f - dxl) + (df/dx) dx + (df/du) du - ad_(f + dxl) dx / 2. *)
Definition lin_dyn (n k : nat) (dx du : nat -> F) : F :=
  let t := tm n in let D := df t (xl t) (ul t) in
  f t (xl t) (ul t) k - dxl t k + \sum_(b < Nx) val D k (1 + b) * dx b + \sum_(b < Nu) val D k (1 + Nx + b) * du b -
  (if comm then 0 else 2%:R^-1 * \sum_(b < Nx) ad (fun k => f t (xl t) (ul t) k + dxl t k) k b * dx b).
Definition lin_colloc (z : nat -> F) (I j k : nat) : Prop :=
  \sum_(a < (K I).+1) dx_of Nx z (N_before m I + a) k * mget (interval_diffmat lgr m I) a j =
  tf * lin_dyn (N_before m I + j) k (dx_of Nx z (N_before m I + j)) (du_of Nx Nu m z (N_before m I + j)).

Lemma dmE I a j : (a < (K I).+1)%N -> (j < K I)%N ->
  (interval_diffmat_unscaled lgr m I).1 * mget (interval_diffmat_unscaled lgr m I).2 a j = mget (interval_diffmat lgr m I) a j.
Proof using Type.
move=> ha hj; rewrite /mget; case: insubP => [a' _ _|]; last by rewrite ha.
case: insubP => [j' _ _|]; last by rewrite hj.
by rewrite /interval_diffmat [RHS]mxE.
Qed.
Lemma row_n I j : (I < size m)%N -> (j < K I)%N -> (N_before m I + j < N)%N.
Proof. by move=> hI hj; rewrite -nbE ?(ltnW hI) // EN; have := nb_le K hI; rewrite nbS; lia. Qed.
Lemma row_sum s (z : nat -> F) I j k : (I < size m)%N -> (j < K I)%N -> (k < Nx)%N ->
  let t := tm (N_before m I + j) in
  \sum_(c < Nx * (N + 1) + Nu * N) val (oA (dyn s)) (Nx * (N_before m I + j) + k) c * z c =
  tf * (lin_dyn (N_before m I + j) k (dx_of Nx z (N_before m I + j)) (du_of Nx Nu m z (N_before m I + j)) - (f t (xl t) (ul t) k - dxl t k)) -
  \sum_(a < (K I).+1) dx_of Nx z (N_before m I + a) k * mget (interval_diffmat lgr m I) a j.
Proof.
move=> hI hj hk t; rewrite -nbE ?(ltnW hI) //.
have hn : (nb I + j < N)%N by rewrite nbE ?(ltnW hI) //; apply: row_n.
have tE : 0 + (tf - 0) * nth 0 (interval_nodes Kmin Kmax lgr m I) j = t.
  by rewrite add0r subr0 /t /time node_glue // ltnW.
transitivity (\sum_(c < Nx * (N + 1) + Nu * N) point_add Nx Nu Kmin Kmax lgr m comm ad f df xl dxl ul tf I j k c * z c).
  by apply: eq_bigr => c _; have [-> _ _] := dyn_rowE Nu lgr k0 km hN comm ad f df xl dxl ul tf s c hI hj hk.
have P1 : (Nx * (nb I + j) + Nx <= Nx * (N + 1) + Nu * N)%N.
  by have := @leq_mul2l Nx (nb I + j + 1)%N (N + 1)%N; rewrite mulnDr muln1 leq_add2r (ltnW hn) orbT; lia.
have P2 : (Nx * (N + 1) + Nu * (nb I + j) + Nu <= Nx * (N + 1) + Nu * N)%N.
  by rewrite -addnA leq_add2l -mulnSr leq_mul2l hn orbT.
under eq_bigr => c _ do rewrite /point_add tE mulrBl !mulrDl -!mulrA.
rewrite sumrB !big_split /= -!mulr_sumr.
rewrite (sum_in (fun b => val (df t (xl t) (ul t)) k (1 + b)) z P1) (sum_in (fun b => val (df t (xl t) (ul t)) k (1 + Nx + b)) z P2).
congr (_ - _); last first.
  under eq_bigr => c _ do rewrite mulr_suml.
  rewrite exchange_big; apply: eq_bigr => a _ /=.
  have ha : (Nx * (nb I + a) + k < Nx * (N + 1) + Nu * N)%N.
    by apply: (@leq_trans (Nx * (N + 1))); rewrite ?leq_addr //; apply: blk_lt => //; rewrite addn1 ltnS EN;
       have := nb_le K hI; rewrite nbS; have := ltn_ord a; lia.
  by rewrite sum_at // mulrC dmE.
rewrite /lin_dyn (nbE (ltnW hI)) -/t /dx_of /du_of.
move: (f t _ _ k) (dxl t k) => f0 dx0.
set S1 := \sum_(b < Nx) val _ _ _ * _; set S2 := \sum_(b < Nu) _; case: (comm).
  by rewrite [X in _ + X]big1 => [|c _]; rewrite ?mul0r //; ring.
transitivity (tf * S1 + tf * S2 + - tf * (2%:R^-1 * \sum_(b < Nx) ad (fun k => f t (xl t) (ul t) k + dxl t k) k b * z (Nx * (N_before m I + j) + b)%N)).
  rewrite -(sum_in (fun b => ad (fun k => f t (xl t) (ul t) k + dxl t k) k b) z (n := Nx * (N + 1) + Nu * N)); last by rewrite -nbE // ltnW.
  by rewrite !mulr_sumr; congr (_ + _); apply: eq_bigr => c _; rewrite !mulrA.
move: S1 S2 (\sum_(b < Nx) _) => a1 a2 a3; ring.
Qed.

Theorem C40_rows s z :
  (forall r, (r < Nx * N)%N -> row_holds Nx Nu m (dyn s) z r) <->
  (forall I j k, (I < size m)%N -> (j < K I)%N -> (k < Nx)%N -> lin_colloc z I j k).
Proof.
have R I j k : (I < size m)%N -> (j < K I)%N -> (k < Nx)%N ->
  (row_holds Nx Nu m (dyn s) z (Nx * (N_before m I + j) + k) : Prop) <-> lin_colloc z I j k.
  move=> hI hj hk; rewrite /row_holds row_sum // /lin_colloc.
  have [_ e1 e2] := dyn_rowE Nu lgr k0 km hN comm ad f df xl dxl ul tf s 0%N hI hj hk.
  move: e1 e2; rewrite !(nbE (ltnW hI)) => -> ->.
  rewrite add0r subr0 -(node_glue hI (ltnW hj)) -/(tm _).
  move: (f _ _ _ k) (dxl _ k) => f0 d0; move: (lin_dyn _ _ _ _) (\sum_(a < _) _) => L S.
  rewrite /between /lo_ok /hi_ok -eq_le -subr_eq0; split=> [/eqP|->]; last by apply/eqP; ring.
  by move=> e; apply/eqP; rewrite -subr_eq0; apply/eqP; rewrite -[RHS]e; ring.
split=> [h I j k hI hj hk|h r hr].
  by apply/R => //; apply: h; apply: blk_lt => //; apply: row_n.
have [I [j [k [hI hk ->]]]] := dyn_row hN hr; rewrite (nbE (ltnW hI)).
by apply/R => //; apply: h.
Qed.
End Rows.
End C40.

Section Full.
Variable F : realFieldType.
Variables Nx Nu Ncr Nce : nat.
Variable p : ocp F Nx Nu 1 Ncr Nce.
Variables (Kmin Kmax : nat) (lgr : nat -> seq F * seq F) (kinc : nat -> F -> F -> nat) (m : mesh F).
Hypotheses (k0 : (0 < Kmin)%N) (km : (Kmin <= Kmax)%N).
Hypothesis Hl : forall K, (Kmin <= K <= Kmax.+1)%N -> lgr_contract K (lgr K).
Hypothesis rm : reachable Kmin Kmax kinc m.
Hypothesis hN : (\sum_(i < size m) N_colloc_ival m i < uint_mod)%N.
Local Notation N := (N_colloc m).
Local Notation K := (N_colloc_ival m).
Variables (tf : F) (xl : F -> 'cV[F]_Nx) (dxl : F -> nat -> F) (ul : F -> 'cV[F]_Nu).
Local Notation tm i := (time Kmin Kmax lgr m tf i).
Local Notation upd := (oqp_update p Kmin Kmax lgr m tf xl dxl ul).
Local Notation fx := (fun t x u => dynv p (txu t x u)).
Local Notation dfx := (fun t x u => ddyn p (txu t x u)).
Let EN : N = nb K (size m).
Proof. by have [_ h _] := C26_N_colloc_partial m; rewrite h. Qed.

Section Stages.
Variable s : qpst F.
Definition s_cost := oqp_cost p Kmin Kmax lgr m tf xl ul s.
Definition s_dyn := oqp_dyn Nx Nu Kmin Kmax lgr m true (fun _ _ _ => 0) fx dfx xl dxl ul tf s_cost.
Definition s_cr := oqp_cr p Kmin Kmax lgr m tf xl ul s_dyn.
Lemma upd_stages : upd s = oqp_ce p m tf xl s_cr. Proof. by []. Qed.
Lemma cr_keep r c : ~~ inr (Nx * N) (Ncr * N) r ->
  [/\ oA s_cr r c = oA s_dyn r c, ol s_cr r = ol s_dyn r & ou s_cr r = ou s_dyn r].
Proof using Type.
move=> h; rewrite /s_cr /oqp_cr /= block_write_keep // /eseg -inrE /qcrcon_B /qdcon_L /qcrcon_L.
by rewrite (negbTE h).
Qed.
Lemma ce_keep r c : ~~ inr (Nx * N + Ncr * N) Nce r ->
  [/\ oA (upd s) r c = oA s_cr r c, ol (upd s) r = ol s_cr r & ou (upd s) r = ou s_cr r].
Proof using Type.
move=> h; rewrite upd_stages; move: s_cr => s1; rewrite /oqp_ce /= !block_write_keep // /eseg -inrE /qcecon_B /qcrcon_B /qdcon_L /qcrcon_L /qcecon_L.
by rewrite (negbTE h).
Qed.
Lemma upd_dyn_rows r c : (r < Nx * N)%N -> [/\ oA (upd s) r c = oA s_dyn r c, ol (upd s) r = ol s_dyn r & ou (upd s) r = ou s_dyn r].
Proof using Type.
move=> h; have [|-> -> ->] := @ce_keep r c; first by rewrite /inr leqNgt ltn_addr.
by have [|-> -> ->] := @cr_keep r c; first by rewrite /inr leqNgt h.
Qed.
End Stages.

Theorem C40_update s z :
  (forall r, (r < Nx * N)%N -> row_holds Nx Nu m (upd s) z r) <->
  (forall I j k, (I < size m)%N -> (j < K I)%N -> (k < Nx)%N ->
     lin_colloc Nx Nu Kmin Kmax lgr m true (fun _ _ _ => 0) fx dfx xl dxl ul tf z I j k).
Proof.
rewrite -(C40_rows Nx Nu k0 km Hl rm hN true (fun _ _ _ => 0) fx dfx xl dxl ul tf (s_cost s)).
split=> h r hr; have := h r hr; rewrite /row_holds.
  have [_ -> ->] := upd_dyn_rows s 0 hr.
  by under eq_bigr => c _ do (rewrite /val; have [-> _ _] := upd_dyn_rows s c hr).
have [_ -> ->] := upd_dyn_rows s 0 hr.
by under [X in _ -> is_true (between _ _ X)]eq_bigr => c _ do (rewrite /val; have [-> _ _] := upd_dyn_rows s c hr).
Qed.

(** Dynamics that are affine in (x, u) and a reference that is on each interval a polynomial of degree at most the
    number of collocation points: adding the deviation to the reference gives a solution of the collocation equations
    of the dynamics themselves. *)
Lemma txu_x t (x : 'cV[F]_Nx) (u : 'cV[F]_Nu) (b : 'I_Nx) (a : 'I_(1 + Nx + Nu)) r : a = (1 + b)%N :> nat ->
  setc (txu t x u) a r = txu t (setc x b r) u.
Proof using Type.
move=> e; apply/matrixP => i j; rewrite !mxE; case: (eqVneq i a) => [->|ne].
  rewrite e addKn ltn_add2l ltn_ord /= (vgetE _ (ltn_ord b)) mxE (_ : Ordinal _ = b) ?eqxx //.
  exact: ord_inj.
case: ifP => // i0; case: ifP => hi //.
have hk : (i - 1 < Nx)%N by case: (nat_of_ord i) i0 hi => // n; rewrite subSS subn0.
rewrite !(vgetE _ hk) mxE; case: eqP => // eb; case/eqP: ne; apply: ord_inj; rewrite e -eb /=.
by case: (nat_of_ord i) i0 => // n; rewrite subSS subn0.
Qed.
Lemma txu_u t (x : 'cV[F]_Nx) (u : 'cV[F]_Nu) (b : 'I_Nu) (a : 'I_(1 + Nx + Nu)) r : a = (1 + Nx + b)%N :> nat ->
  setc (txu t x u) a r = txu t x (setc u b r).
Proof using Type.
move=> e; apply/matrixP => i j; rewrite !mxE; case: (eqVneq i a) => [->|ne].
  rewrite e -addnA (addKn 1) addnA addKn ltnNge leq_addr /= (vgetE _ (ltn_ord b)) mxE (_ : Ordinal _ = b) ?eqxx //.
  exact: ord_inj.
case: ifP => // i0; case: ifP => hi //.
have hge : (1 + Nx <= i)%N by rewrite leqNgt hi.
have hk : (i - (1 + Nx) < Nu)%N by rewrite -(ltn_add2l (1 + Nx)) subnKC.
rewrite !(vgetE _ hk) mxE; case: eqP => // eb; case/eqP: ne; apply: ord_inj; rewrite e -eb /=.
by rewrite subnKC.
Qed.
Lemma vsum n (g : nat -> F) (x : 'cV[F]_n) (b : 'I_n) r :
  \sum_(j < n) g j * vget (setc x b r) j = \sum_(j < n | j != b) g j * vget x j + g b * r.
Proof using Type.
rewrite (bigD1 b) //= addrC; congr (_ + _); last by rewrite (vgetE _ (ltn_ord b)) mxE (_ : Ordinal _ = b) ?eqxx //; apply: ord_inj.
apply: eq_bigr => j jb; rewrite !(vgetE _ (ltn_ord j)) mxE (_ : Ordinal _ = j) ?(negbTE jb) //; exact: ord_inj.
Qed.
Lemma deriv_line (a b y : F) : deriv (fun r => a + b * r) y b.
Proof using Type.
by apply: deriv_eq (deriv_add (deriv_const a y) (deriv_scale b (deriv_id y))); rewrite add0r mulr1.
Qed.
Theorem C40_affine s z (c : F -> nat -> F) (A B : F -> nat -> nat -> F) (q : nat -> nat -> {poly F}) :
  derivs Nx (dynv p) (ddyn p) (d2dyn p) ->
  (forall t x u k, (k < Nx)%N -> dynv p (txu t x u) k =
     c t k + \sum_(b < Nx) A t k b * vget x b + \sum_(b < Nu) B t k b * vget u b) ->
  (forall I k, (I < size m)%N -> (k < Nx)%N -> (size (q I k) <= (K I).+1)%N) ->
  (forall I a k, (I < size m)%N -> (a <= K I)%N -> (k < Nx)%N ->
     vget (xl (tm (N_before m I + a))) k = (q I k).[tm (N_before m I + a)]) ->
  (forall I a k, (I < size m)%N -> (a < K I)%N -> (k < Nx)%N ->
     dxl (tm (N_before m I + a)) k = (q I k)^`().[tm (N_before m I + a)]) ->
  (forall r, (r < Nx * N)%N -> row_holds Nx Nu m (upd s) z r) <->
  (forall I j k, (I < size m)%N -> (j < K I)%N -> (k < Nx)%N ->
     let n := (N_before m I + j)%N in let t := tm n in
     \sum_(a < (K I).+1) (vget (xl (tm (N_before m I + a))) k + dx_of Nx z (N_before m I + a) k) * mget (interval_diffmat lgr m I) a j =
     tf * dynv p (txu t (xl t + \col_b dx_of Nx z n b) (ul t + \col_b du_of Nx Nu m z n b)) k).
Proof.
move=> dd fE sq qx qd; rewrite C40_update.
have Dx t x u k (b : 'I_Nx) : (k < Nx)%N -> val (ddyn p (txu t x u)) k (1 + b) = A t k b.
  move=> hk; have ha : (1 + b < 1 + Nx + Nu)%N by rewrite ltn_addr // ltn_add2l.
  have := dd.1 (txu t x u) k (Ordinal ha) hk; rewrite /partial => /= D1; apply: (deriv_uniq D1).
  apply: (deriv_ext (f := fun r => (c t k + \sum_(j < Nx | j != b) A t k j * vget x j + \sum_(j < Nu) B t k j * vget u j) + A t k b * r)); last exact: deriv_line.
  by move=> r; rewrite (@txu_x t x u b) // fE // vsum; ring.
have Du t x u k (b : 'I_Nu) : (k < Nx)%N -> val (ddyn p (txu t x u)) k (1 + Nx + b) = B t k b.
  move=> hk; have ha : (1 + Nx + b < 1 + Nx + Nu)%N by rewrite ltn_add2l.
  have := dd.1 (txu t x u) k (Ordinal ha) hk; rewrite /partial => /= D1; apply: (deriv_uniq D1).
  apply: (deriv_ext (f := fun r => (c t k + \sum_(j < Nx) A t k j * vget x j + \sum_(j < Nu | j != b) B t k j * vget u j) + B t k b * r)); last exact: deriv_line.
  by move=> r; rewrite (@txu_u t x u b) // fE // vsum; ring.
suff E I j k : (I < size m)%N -> (j < K I)%N -> (k < Nx)%N -> lin_colloc Nx Nu Kmin Kmax lgr m true (fun _ _ _ => 0) fx dfx xl dxl ul tf z I j k <->
     (let n := (N_before m I + j)%N in let t := tm n in
     \sum_(a < (K I).+1) (vget (xl (tm (N_before m I + a))) k + dx_of Nx z (N_before m I + a) k) * mget (interval_diffmat lgr m I) a j =
     tf * dynv p (txu t (xl t + \col_b dx_of Nx z n b) (ul t + \col_b du_of Nx Nu m z n b)) k).
  by split=> h I j k hI hj hk; apply/E => //; apply: h.
move=> hI hj hk; rewrite /lin_colloc /lin_dyn subr0.
set n := (N_before m I + j)%N; set t := tm n => /=.
have T1 : \sum_(a < (K I).+1) vget (xl (tm (N_before m I + a))) k * mget (interval_diffmat lgr m I) a j = tf * dxl t k.
  have := traj_diff k0 km Hl rm 0 tf (Ordinal hj) hI (sq _ _ hI hk).
  have tE a : (a <= K I)%N -> t_of Kmin Kmax lgr m 0 tf I a = tm (N_before m I + a).
    by move=> ha; rewrite /t_of add0r subr0 /time (node_glue k0 km Hl rm).
  rewrite subr0 tE ?(ltnW hj) // => e; rewrite (qd I j k) //; apply: etrans e; apply: eq_bigr => a _.
  have ha : (a <= K I)%N by rewrite -ltnS.
  rewrite tE // qx //; congr (_ * _).
  by rewrite /mget valK insubT.
under [X in _ <-> X = _]eq_bigr => a _ do rewrite mulrDl.
rewrite big_split /= T1 !fE //.
have -> : \sum_(b < Nx) A t k b * vget (xl t + \col_b0 dx_of Nx z n b0) b = \sum_(b < Nx) A t k b * vget (xl t) b + \sum_(b < Nx) A t k b * dx_of Nx z n b.
  by rewrite -big_split; apply: eq_bigr => b _; rewrite !(vgetE _ (ltn_ord b)) !mxE mulrDr.
have -> : \sum_(b < Nu) B t k b * vget (ul t + \col_b0 du_of Nx Nu m z n b0) b = \sum_(b < Nu) B t k b * vget (ul t) b + \sum_(b < Nu) B t k b * du_of Nx Nu m z n b.
  by rewrite -big_split; apply: eq_bigr => b _; rewrite !(vgetE _ (ltn_ord b)) !mxE mulrDr.
under [X in _ = tf * (_ + X + _) <-> _]eq_bigr => b _ do rewrite Dx //.
under [X in _ = tf * (_ + _ + X) <-> _]eq_bigr => b _ do rewrite Du //.
move: (\sum_(a < _) _) (\sum_(b < Nx) _ * dx_of _ _ _ _) (\sum_(b < Nu) _ * du_of _ _ _ _ _ _) (\sum_(b < Nx) _ * vget _ _) (\sum_(b < Nu) _ * vget _ _) (c t k) (dxl t k).
move=> S X1 U1 X0 U0 c0 d0; split=> [->|e]; first ring.
have -> : S = tf * d0 + S - tf * d0 by ring.
rewrite e; ring.
Qed.
End Full.

(** * C42 and C43 *)
Section History.
Variable F : realFieldType.
Variables Nx Nu Ncr Nce : nat.
Variables (Kmin Kmax : nat) (lgr : nat -> seq F * seq F) (kinc : nat -> F -> F -> nat) (m : mesh F).
Hypotheses (k0 : (0 < Kmin)%N) (km : (Kmin <= Kmax)%N).
Hypothesis Hl : forall K, (Kmin <= K <= Kmax.+1)%N -> lgr_contract K (lgr K).
Hypothesis rm : reachable Kmin Kmax kinc m.
Hypothesis hN : (\sum_(i < size m) N_colloc_ival m i < uint_mod)%N.
Local Notation N := (N_colloc m).
Local Notation K := (N_colloc_ival m).
Local Notation ocp := (ocp F Nx Nu 1 Ncr Nce).
Local Notation nv := (Nx * (N + 1) + Nu * N)%N.
Local Notation tm tf i := (time Kmin Kmax lgr m tf i).
Local Notation upd p tf xl dxl ul := (@oqp_update F Nx Nu Ncr Nce p Kmin Kmax lgr m tf xl dxl ul).
Let EN : N = nb K (size m).
Proof. by have [_ h _] := C26_N_colloc_partial m; rewrite h. Qed.

(** The states of the two objects after ocp_to_qp_allocate and any number of calls of ocp_to_qp_update, for problems
    of one size that satisfy P and for any references. *)
Inductive history (P : ocp -> Prop) : qpst F -> Prop :=
| HAlloc p s : P p -> history P (oqp_allocate p Kmin Kmax lgr m s)
| HUpd p tf xl dxl ul s : P p -> history P s -> history P (upd p tf xl dxl ul s).

Definition inv_cr (s : qpst F) : Prop :=
  [/\ mvalloc (w_cr s), mvlam (w_int s) = (fun=> 1) &
      forall r c, (r < Ncr * N)%N -> (c < nv)%N -> isSome (oA s (Nx * N + r)%N c) -> isSome (mvdF (w_cr s) r (2 + c)%N)].

Section Update.
Variables (p : ocp) (tf : F) (xl : F -> 'cV[F]_Nx) (dxl : F -> nat -> F) (ul : F -> 'cV[F]_Nu) (s : qpst F).
Local Notation s' := (upd p tf xl dxl ul s).
Local Notation s_cost := (s_cost p Kmin Kmax lgr m tf xl ul s).
Local Notation s_dyn := (s_dyn p Kmin Kmax lgr m tf xl dxl ul s).
Local Notation s_cr := (s_cr p Kmin Kmax lgr m tf xl dxl ul s).
Local Notation w := (mesh_eval Ncr (crv p) (dcr p) (d2cr p) Kmin Kmax lgr m 0 tf (lin Kmin Kmax lgr m tf xl) (lin Kmin Kmax lgr m tf ul) false (w_cr s)).
Local Notation wi := (mesh_integrate 1 (intv p) (dint p) (d2int p) Kmin Kmax lgr m 0 tf (lin Kmin Kmax lgr m tf xl) (lin Kmin Kmax lgr m tf ul) (w_int s)).
Lemma upd_rest : [/\ oP s' = oP s_cost, oq s' = oq s_cost, w_cr s' = w & w_int s' = wi].
Proof.
have [e1 e2 e3 e4] := dyn_other Nx Nu Kmin Kmax lgr m true (fun _ _ _ => 0) (fun t x u => dynv p (txu t x u)) (fun t x u => ddyn p (txu t x u)) xl dxl ul tf s_cost.
by rewrite -/s_dyn in e1 e2 e3 e4; rewrite /oqp_update -/s_cost -/s_dyn /oqp_ce /oqp_cr /= e1 e2 e3 e4.
Qed.
Lemma cr_row r c : (r < Ncr * N)%N ->
  [/\ (c < nv)%N -> oA s' (Nx * N + r)%N c = (if mvdF w r (2 + c)%N is Some x then Some x else oA s (Nx * N + r)%N c),
      ol s' (Nx * N + r)%N = ext_sub (crl p (r %% Ncr)) (mvF w r) & ou s' (Nx * N + r)%N = ext_sub (cru p (r %% Ncr)) (mvF w r)].
Proof.
move=> hr.
have [|-> -> ->] := @ce_keep F Nx Nu Ncr Nce p Kmin Kmax lgr m tf xl dxl ul s (Nx * N + r) c; first by rewrite /inr; lia.
have [_ _ e3 _] := dyn_other Nx Nu Kmin Kmax lgr m true (fun _ _ _ => 0) (fun t x u => dynv p (txu t x u)) (fun t x u => ddyn p (txu t x u)) xl dxl ul tf s_cost.
have [e4 _ _] := dyn_keep Nu Kmin Kmax lgr EN true (fun _ _ _ => 0) (fun t x u => dynv p (txu t x u)) (fun t x u => ddyn p (txu t x u)) xl dxl ul tf s_cost c (leq_addr r (Nx * N)).
rewrite -/s_dyn in e3 e4.
rewrite /s_cr /oqp_cr; cbn [oA ol ou]; rewrite e3 /eseg -inrE /qcrcon_B /qdcon_L /qcrcon_L.
have hi : inr (Nx * N) (Ncr * N) (Nx * N + r) by rewrite /inr leq_addr ltn_add2l.
rewrite hi addKn; split=> // hc; rewrite /block_write block_opE /inb -inrE hi /= addKn subn0 add0n /qxvar_L /quvar_L hc /= e4.
by case: (mvdF _ r _) => // x; rewrite mul1r.
Qed.
Lemma ce_row j c : (j < Nce)%N -> (0 < N)%N ->
  let z := qend tf xl in let r := (Nx * N + Ncr * N + j)%N in
  [/\ oA s' r c = (if (if inr (Nx * N) Nx c then dce p z j (1 + Nx + (c - Nx * N))%N else if (c < Nx)%N then dce p z j (1 + c)%N else None)
        is Some x then Some x else oA s r c),
      ol s' r = ext_sub (cel p j) (cev p z j) & ou s' r = ext_sub (ceu p j) (cev p z j)].
Proof.
move=> hj N0 z r.
have hd : (Nx * N <= r)%N by rewrite /r -addnA leq_addr.
have [e4 _ _] := dyn_keep Nu Kmin Kmax lgr EN true (fun _ _ _ => 0) (fun t x u => dynv p (txu t x u)) (fun t x u => ddyn p (txu t x u)) xl dxl ul tf s_cost c hd.
rewrite -/s_dyn in e4.
have [|e5 _ _] := @cr_keep F Nx Nu Ncr Nce p Kmin Kmax lgr m tf xl dxl ul s r c; first by rewrite /inr /r; lia.
rewrite upd_stages; move: s_cr e5 => S e5; rewrite /oqp_ce; cbn [oA ol ou]; rewrite /eseg -inrE /qcecon_B /qcrcon_B /qdcon_L /qcrcon_L /qcecon_L.
have hi : inr (Nx * N + Ncr * N) Nce r by rewrite /inr /r leq_addr ltn_add2l.
rewrite hi {2 4}/r addKn; split=> //; rewrite /block_write !block_opE /inb -!inrE hi /= add0n !subn0 /r addKn -/r e5 e4.
have -> : (qxvar_L Nx m - Nx = Nx * N)%N by rewrite /qxvar_L mulnDr muln1 addnK.
case hx : (inr (Nx * N) Nx c) => /=; last first.
  by rewrite /inr /=; case: (ltnP c Nx) => _ //=; case: (dce p _ _ _) => // x; rewrite mul1r.
have -> : inr 0 Nx c = false.
  move: hx; rewrite /inr; apply: contraTF => /andP[_ hc']; rewrite negb_and -ltnNge; apply/orP; left.
  by apply: leq_trans hc' _; rewrite leq_pmulr.
by case: (dce p _ _ _) => // x; rewrite mul1r.
Qed.

Lemma cr_val r c : inv_cr s -> (r < Ncr * N)%N -> (c < nv)%N -> val (oA s') (Nx * N + r) c = val (mvdF w) r (2 + c).
Proof.
move=> [i1 _ i3] hr hc; rewrite /val; have [-> // _ _] := cr_row c hr.
case e : (mvdF w r (2 + c)%N) => [x|] //; case e' : (oA s (Nx * N + r)%N c) => [y|] //.
have h : isSome (mvdF (w_cr s) r (2 + c)%N) by apply: i3; rewrite ?e'.
have := ref_evalM Ncr (crv p) (dcr p) (d2cr p) Kmin Kmax lgr m 0 tf (lin Kmin Kmax lgr m tf xl) (lin Kmin Kmax lgr m tf ul) false i1 h.
by rewrite e.
Qed.
Lemma inv_upd : inv_cr s -> inv_cr s'.
Proof.
move=> [i1 i2 i3]; rewrite /inv_cr; have [_ _ -> ->] := upd_rest; split; first exact: ref_alloc.
  by rewrite ref_intlam.
move=> r c hr hc; have [-> // _ _] := cr_row c hr; case e : (mvdF w r _) => [x|] // h.
by have := ref_evalM Ncr (crv p) (dcr p) (d2cr p) Kmin Kmax lgr m 0 tf (lin Kmin Kmax lgr m tf xl) (lin Kmin Kmax lgr m tf ul) false i1 (i3 _ _ hr hc h); rewrite e.
Qed.
End Update.

Lemma inv_hist P s : history P s -> inv_cr s.
Proof.
elim=> {s} [p s _|p tf xl dxl ul s _ _]; last exact: inv_upd.
by split=> //; [exact: ref_alloc|exact: ref_intlam].
Qed.

Lemma refE tf xl ul i : node_arg Nx Nu 0 tf (lin Kmin Kmax lgr m tf xl) (lin Kmin Kmax lgr m tf ul) (nth 0 (all_nodes Kmin Kmax lgr m) i) i =
  txu (tm tf i) (xl (tm tf i) : 'cV[F]_Nx) (ul (tm tf i) : 'cV[F]_Nu).
Proof using Type. by apply/matrixP => a b; rewrite !mxE /lin !add0r !subr0. Qed.
Lemma between_sub (l u : ext F) x y : between (ext_sub l x) (ext_sub u x) y = between l u (x + y).
Proof using Type. by rewrite /between; case: l => [|a|]; case: u => [|b|] //=; rewrite ?ler_subl_addl ?ler_subr_addl. Qed.

Lemma running_inv p tf xl dxl ul s z : inv_cr s ->
  (forall r, (Nx * N <= r < Nx * N + Ncr * N)%N -> row_holds Nx Nu m (upd p tf xl dxl ul s) z r) <->
  (forall i k, (i < N)%N -> (k < Ncr)%N -> let y := txu (tm tf i) (xl (tm tf i)) (ul (tm tf i)) in
     between (crl p k) (cru p k) (crv p y k + \sum_(b < Nx) val (dcr p y) k (1 + b) * dx_of Nx z i b +
                                              \sum_(b < Nu) val (dcr p y) k (1 + Nx + b) * du_of Nx Nu m z i b)).
Proof.
move=> inv.
have R i k : (i < N)%N -> (k < Ncr)%N -> let y := txu (tm tf i) (xl (tm tf i)) (ul (tm tf i)) in
  row_holds Nx Nu m (upd p tf xl dxl ul s) z (Nx * N + (Ncr * i + k)) =
  between (crl p k) (cru p k) (crv p y k + \sum_(b < Nx) val (dcr p y) k (1 + b) * dx_of Nx z i b +
                                              \sum_(b < Nu) val (dcr p y) k (1 + Nx + b) * du_of Nx Nu m z i b).
  move=> hi hk y; have hr := blk_lt hi hk.
  rewrite /row_holds; under eq_bigr => c _ do rewrite (cr_val _ _ _ _ _ inv hr (ltn_ord c)) ref_evalJ // mulrDl.
  have [_ -> ->] := cr_row p tf xl dxl ul s 0 hr; rewrite big_split /= refE -/y.
  rewrite (sum_in (fun b => val (dcr p y) k (1 + b))) ?(sum_in (fun b => val (dcr p y) k (1 + Nx + b))); last 2 first.
  - by rewrite -addnA leq_add2l -mulnSr leq_mul2l hi orbT.
  - by apply: leq_trans (leq_addr _ _); rewrite -mulnSr leq_mul2l addn1 ltnS ltnW ?orbT.
  by rewrite between_sub ref_evalF // refE -/y (mulnC Ncr) modnMDl modn_small // addrA.
split=> [h i k hi hk|h r /andP[h1 h2]].
  by have := h (Nx * N + (Ncr * i + k))%N; rewrite R //; apply; rewrite leq_addr ltn_add2l blk_lt.
have [i [k [hi hk e]]] : exists i k, [/\ (i < N)%N, (k < Ncr)%N & (r - Nx * N = Ncr * i + k)%N] by apply: blk_find; lia.
by rewrite -(subnKC h1) e R //; apply: h.
Qed.
Theorem C42_running P p tf xl dxl ul s z : history P s ->
  (forall r, (Nx * N <= r < Nx * N + Ncr * N)%N -> row_holds Nx Nu m (upd p tf xl dxl ul s) z r) <->
  (forall i k, (i < N)%N -> (k < Ncr)%N -> let y := txu (tm tf i) (xl (tm tf i)) (ul (tm tf i)) in
     between (crl p k) (cru p k) (crv p y k + \sum_(b < Nx) val (dcr p y) k (1 + b) * dx_of Nx z i b +
                                              \sum_(b < Nu) val (dcr p y) k (1 + Nx + b) * du_of Nx Nu m z i b)).
Proof. by move=> h; apply: running_inv; apply: inv_hist h. Qed.

(** The stored entries of the Jacobian of the end constraints are the same at all points. *)
Definition ce_pattern (S : nat -> nat -> bool) (p : ocp) : Prop := forall z j c, (j < Nce)%N -> isSome (dce p z j c) = S j c.
Definition inv_ce (S : nat -> nat -> bool) (s : qpst F) : Prop :=
  forall j c, (j < Nce)%N -> isSome (oA s (Nx * N + Ncr * N + j)%N c) ->
    if inr (Nx * N) Nx c then S j (1 + Nx + (c - Nx * N))%N else (c < Nx)%N && S j (1 + c)%N.
Let N0 : (0 < N)%N := N0 k0 km rm hN.
Lemma ce_inv_step S p tf xl dxl ul s : ce_pattern S p -> inv_ce S s -> inv_ce S (upd p tf xl dxl ul s).
Proof.
move=> hp IH j c hj; have [-> _ _] := ce_row p tf xl dxl ul s c hj N0.
have := IH j c hj; case: ifP => h1; first by rewrite -(hp (qend tf xl)) //; case: (dce p _ _ _).
by case: ifP => h2 //=; rewrite -(hp (qend tf xl)) //; case: (dce p _ _ _).
Qed.
Lemma ce_inv S s : history (ce_pattern S) s -> inv_ce S s.
Proof. by elim=> {s} [p s _|p tf xl dxl ul s hp _ IH] //; apply: ce_inv_step. Qed.
(** Every stored entry of the end rows is overwritten. *)
Definition covered (p : ocp) tf xl (s : qpst F) : Prop := inv_ce (fun j c => isSome (dce p (qend tf xl) j c)) s.
Lemma covered_hist S p tf xl s : history (ce_pattern S) s -> ce_pattern S p -> covered p tf xl s.
Proof. by move=> h hp j c hj /(ce_inv h hj); rewrite !hp. Qed.
Lemma covered_new p tf xl s : covered p tf xl (oqp_allocate p Kmin Kmax lgr m s). Proof using Type. by []. Qed.
Lemma ce_val p tf xl dxl ul s j c : covered p tf xl s -> (j < Nce)%N ->
  val (oA (upd p tf xl dxl ul s)) (Nx * N + Ncr * N + j) c =
  (if inr 0 Nx c then val (dce p (qend tf xl)) j (1 + (c - 0)) else 0) +
  (if inr (Nx * N) Nx c then val (dce p (qend tf xl)) j (1 + Nx + (c - Nx * N)) else 0).
Proof.
move=> inv hj; rewrite /val; have [-> _ _] := ce_row p tf xl dxl ul s c hj N0.
have -> : inr 0 Nx c = (c < Nx)%N by rewrite /inr add0n.
have := inv j c hj; rewrite subn0; case: ifP => h1.
  have -> : (c < Nx)%N = false.
    move: h1; rewrite /inr; apply: contraTF => hc'; rewrite negb_and -ltnNge; apply/orP; left.
    by apply: leq_trans hc' _; rewrite leq_pmulr.
  by rewrite add0r; case: (dce p _ _ _) => // h; case: (oA s _ _) h => // a /(_ isT).
case: ifP => h2 /=; rewrite addr0.
  by case: (dce p _ _ _) => // h; case: (oA s _ _) h => // a /(_ isT) //.
by case: (oA s _ _) => // a /(_ isT).
Qed.

(** (tf, x(0), x(tf), q) along the reference. *)
Definition end_ref (tf : F) (xl : F -> 'cV[F]_Nx) (q : F) : 'cV[F]_(1 + 2 * Nx + 1) :=
  \col_a if a == 0%N :> nat then tf else if (a < 1 + Nx)%N then vget (xl 0) (a - 1)
         else if (a < 1 + 2 * Nx)%N then vget (xl tf) (a - (1 + Nx)) else q.
(** The end constraints do not depend on the integral. *)
Definition ce_no_q (p : ocp) : Prop := forall tf xl q q' j, (j < Nce)%N ->
  cev p (end_ref tf xl q) j = cev p (end_ref tf xl q') j /\
  forall c, val (dce p (end_ref tf xl q)) j c = val (dce p (end_ref tf xl q')) j c.
Definition end_rows_hold (p : ocp) (tf : F) (xl : F -> 'cV[F]_Nx) (q : F) (z : nat -> F) : Prop :=
  forall j, (j < Nce)%N -> let e := end_ref tf xl q in
    between (cel p j) (ceu p j) (cev p e j + \sum_(b < Nx) val (dce p e) j (1 + b) * dx_of Nx z 0 b +
                                             \sum_(b < Nx) val (dce p e) j (1 + Nx + b) * dx_of Nx z N b).
Lemma end_rows p tf xl dxl ul s z : covered p tf xl s ->
  (forall r, (Nx * N + Ncr * N <= r < Nx * N + Ncr * N + Nce)%N -> row_holds Nx Nu m (upd p tf xl dxl ul s) z r) <->
  end_rows_hold p tf xl 1 z.
Proof.
move=> cov.
have R j : (j < Nce)%N -> let e := end_ref tf xl 1 in
  row_holds Nx Nu m (upd p tf xl dxl ul s) z (Nx * N + Ncr * N + j) =
    between (cel p j) (ceu p j) (cev p e j + \sum_(b < Nx) val (dce p e) j (1 + b) * dx_of Nx z 0 b +
                                             \sum_(b < Nx) val (dce p e) j (1 + Nx + b) * dx_of Nx z N b).
  move=> hj e; rewrite /row_holds.
  under eq_bigr => c _ do rewrite (ce_val _ _ _ cov hj) mulrDl.
  have [_ -> ->] := ce_row p tf xl dxl ul s 0 hj N0; rewrite big_split /= -/e.
  rewrite (sum_in (fun b => val (dce p e) j (1 + b))) ?(sum_in (fun b => val (dce p e) j (1 + Nx + b))); last 2 first.
  - by apply: leq_trans (leq_addr _ _); rewrite -mulnSr leq_mul2l addn1 leqnn orbT.
  - by apply: leq_trans (leq_addr _ _); rewrite add0n leq_pmulr // addn1.
  by rewrite between_sub addrA /dx_of muln0.
split=> [h j hj|h r /andP[h1 h2]].
  by have := h (Nx * N + Ncr * N + j)%N; rewrite R //; apply; rewrite leq_addr ltn_add2l.
by rewrite -(subnKC h1) R; [apply: h|]; lia.
Qed.
Lemma rows_q p tf xl q q' z : ce_no_q p -> end_rows_hold p tf xl q z -> end_rows_hold p tf xl q' z.
Proof using Type.
move=> hq h j hj /=; set e := end_ref tf xl q'; have /= := h j hj; have [e1 e2] := hq tf xl q q' j hj; rewrite e1.
rewrite (eq_bigr (fun b : 'I_Nx => val (dce p e) j (1 + b) * dx_of Nx z 0 b)) => [|b _]; last by rewrite e2.
by rewrite [X in _ + X](eq_bigr (fun b : 'I_Nx => val (dce p e) j (1 + Nx + b) * dx_of Nx z N b)) // => b _; rewrite e2.
Qed.
(** Full statement: for every value q of the integral along the reference.  Missing: constraints that depend on the
    integral, and Jacobians whose stored entries vary between updates. *)
Theorem C42_end_partial S p tf xl dxl ul s z q : history (ce_pattern S) s -> ce_pattern S p -> ce_no_q p ->
  (forall r, (Nx * N + Ncr * N <= r < Nx * N + Ncr * N + Nce)%N -> row_holds Nx Nu m (upd p tf xl dxl ul s) z r) <->
  end_rows_hold p tf xl q z.
Proof.
by move=> h hp hq; rewrite (end_rows _ _ _ (covered_hist tf xl h hp)); split; apply: rows_q.
Qed.
(** A new quadratic program; missing: constraints that depend on the integral. *)
Theorem C42_end_fresh_partial p tf xl dxl ul z q : ce_no_q p ->
  (forall r, (Nx * N + Ncr * N <= r < Nx * N + Ncr * N + Nce)%N -> row_holds Nx Nu m (ocp_to_qp p Kmin Kmax lgr m tf xl dxl ul) z r) <->
  end_rows_hold p tf xl q z.
Proof.
by move=> hq; rewrite (end_rows _ _ _ (@covered_new p tf xl _)); split; apply: rows_q.
Qed.

(** * C43 *)
(** The same quadratic program; l and u have qNcon rows. *)
Definition same_qp (s1 s2 : qpst F) : Prop :=
  [/\ forall a b, (a < nv)%N -> (b < nv)%N -> val (oP s1) a b = val (oP s2) a b,
      forall c, (c < nv)%N -> oq s1 c = oq s2 c,
      forall r c, (r < Nx * N + Ncr * N + Nce)%N -> (c < nv)%N -> val (oA s1) r c = val (oA s2) r c &
      forall r, (r < Nx * N + Ncr * N + Nce)%N -> ol s1 r = ol s2 r /\ ou s1 r = ou s2 r].
Section Upd.
Variables (p : ocp) (tf : F) (xl : F -> 'cV[F]_Nx) (dxl : F -> nat -> F) (ul : F -> 'cV[F]_Nu).
Local Notation fx := (fun t x u => dynv p (txu t x u)).
Local Notation dfx := (fun t x u => ddyn p (txu t x u)).
Local Notation t_ I i := (0 + (tf - 0) * nth 0 (interval_nodes Kmin Kmax lgr m I) i).
Local Notation wi s := (mesh_integrate 1 (intv p) (dint p) (d2int p) Kmin Kmax lgr m 0 tf (lin Kmin Kmax lgr m tf xl) (lin Kmin Kmax lgr m tf ul) (w_int s)).
Lemma upd_dynE s I j k c : (I < size m)%N -> (j < K I)%N -> (k < Nx)%N ->
  let r := (Nx * (nb K I + j) + k)%N in let s' := upd p tf xl dxl ul s in
  [/\ val (oA s') r c = point_add Nx Nu Kmin Kmax lgr m true (fun _ _ _ => 0) fx dfx xl dxl ul tf I j k c,
      ol s' r = Fin (- tf * (fx (t_ I j) (xl (t_ I j)) (ul (t_ I j)) k - dxl (t_ I j) k)) &
      ou s' r = Fin (- tf * (fx (t_ I j) (xl (t_ I j)) (ul (t_ I j)) k - dxl (t_ I j) k))].
Proof.
move=> hI hj hk r s'.
have hr : (r < Nx * N)%N by apply: blk_lt => //; rewrite EN; have := nb_le K hI; rewrite nbS; lia.
have [a1 a2 a3] := upd_dyn_rows p Kmin Kmax lgr tf xl dxl ul s c hr.
have [d1 d2 d3] := dyn_rowE Nu lgr k0 km hN true (fun _ _ _ => 0) fx dfx xl dxl ul tf (s_cost p Kmin Kmax lgr m tf xl ul s) c hI hj hk.
by rewrite /s' a2 a3 -d1 /val a1.
Qed.
(** The gradient and the Hessian of the integral. *)
Lemma int_same s1 s2 : mvlam (w_int s1) = mvlam (w_int s2) ->
  (forall c, val (mvdF (wi s1)) 0 c = val (mvdF (wi s2)) 0 c) /\ forall a b, val (mvd2F (wi s1)) a b = val (mvd2F (wi s2)) a b.
Proof using Type.
move=> e; set v := vref Nx Nu m 0 tf (lin Kmin Kmax lgr m tf xl) (lin Kmin Kmax lgr m tf ul).
have R s := @ref_int F Nx Nu 1 (intv p) (dint p) (d2int p) Kmin Kmax lgr m 0 tf (lin Kmin Kmax lgr m tf xl) (lin Kmin Kmax lgr m tf ul) (w_int s).
have [_ h1 h2] := C30_integrate 1 (intv p) (dint p) (d2int p) Kmin Kmax lgr m v e.
have [_ _ e1 e1' _] := R s1; have [_ _ e2 e2' _] := R s2.
by split=> [c|a b]; rewrite ?e1 ?e2 ?e1' ?e2'.
Qed.
(** Positions in the cost. *)
Definition in0 (c : nat) : bool := (c < Nx)%N.
Definition inN (c : nat) : bool := inr (Nx * N) Nx c.
Lemma cost_q s c : (c < nv)%N -> oq (upd p tf xl dxl ul s) c =
  val (dtheta p (qend tf xl)) 0 (1 + 2 * Nx) * val (mvdF (wi s)) 0 (2 + c) +
  (if in0 c then val (dtheta p (qend tf xl)) 0 (1 + c) else 0) +
  (if inN c then val (dtheta p (qend tf xl)) 0 (1 + Nx + (c - Nx * N)) else 0).
Proof.
move=> hc; have [_ -> _ _] := upd_rest p tf xl dxl ul s.
rewrite /s_cost /oqp_cost; cbn [oq]; rewrite /seg_add /seg_set /in0 /inN -!inrE /qxvar_L /quvar_L.
have -> : (if inr (Nx * (N + 1)) (Nu * N) c then val (dtheta p (qend tf xl)) 0 (1 + 2 * Nx) *
       val (mvdF (wi s)) 0 (2 + Nx * (N + 1) + (c - Nx * (N + 1))) else if inr 0 (Nx * (N + 1)) c then val (dtheta p (qend tf xl)) 0 (1 + 2 * Nx) * val (mvdF (wi s)) 0 (2 + (c - 0)) else 0) =
   val (dtheta p (qend tf xl)) 0 (1 + 2 * Nx) * val (mvdF (wi s)) 0 (2 + c).
  rewrite /inr add0n; case: (ltnP c (Nx * (N + 1))) => h /=; first by rewrite subn0.
  by rewrite hc -addnA subnKC.
have -> : inr 0 Nx c = (c < Nx)%N by rewrite /inr add0n.
by case: (inr (Nx * N) Nx c); case: (c < Nx)%N; rewrite ?addr0 ?subn0.
Qed.
Lemma cost_P s a b : (a < nv)%N -> (b < nv)%N -> val (oP (upd p tf xl dxl ul s)) a b =
  (if (a <= b)%N then val (dtheta p (qend tf xl)) 0 (1 + 2 * Nx) * val (mvd2F (wi s)) (2 + a) (2 + b) +
    2%:R^-1 * (
    (if in0 a && in0 b then val (d2theta p (qend tf xl)) (1 + a) (1 + b) else 0) +
    (if in0 a && inN b then val (d2theta p (qend tf xl)) (1 + a) (1 + Nx + (b - Nx * N)) else 0) +
    (if inN a && inN b then val (d2theta p (qend tf xl)) (1 + Nx + (a - Nx * N)) (1 + Nx + (b - Nx * N)) else 0)) else 0).
Proof.
move=> ha hb; have [-> _ _ _] := upd_rest p tf xl dxl ul s.
rewrite /s_cost /oqp_cost; cbn [oP]; rewrite val_bexec val_set_zero add0r !big_cons big_nil addr0 !contribB /=.
rewrite /qxvar_L /quvar_L.
have h0 c : inr 0 Nx c = in0 c by [].
have h1 c : (c < nv)%N -> inr 0 nv c by [].
rewrite !h0 -/(inN a) -/(inN b) !h1 //= !subn0.
case: (a <= b)%N; rewrite ?andbF ?addr0 // !andbT !mulrDr !addrA.
by congr (_ + _ + _ + _); case: ifP => _; rewrite ?mulr0.
Qed.
End Upd.
Lemma same_upd p tf xl dxl ul s1 s2 : inv_cr s1 -> inv_cr s2 -> covered p tf xl s1 -> covered p tf xl s2 ->
  same_qp (upd p tf xl dxl ul s1) (upd p tf xl dxl ul s2).
Proof.
move=> i1 i2 c1 c2.
have rowE r : (r < Nx * N + Ncr * N + Nce)%N -> [\/ exists I j k, [/\ (I < size m)%N, (j < K I)%N, (k < Nx)%N & r = (Nx * (nb K I + j) + k)%N],
    exists2 r', (r' < Ncr * N)%N & r = (Nx * N + r')%N | exists2 j, (j < Nce)%N & r = (Nx * N + Ncr * N + j)%N].
  move=> hr; case: (ltnP r (Nx * N)) => h1.
    by apply: Or31; have [I [j [k [hI hk e]]]] := dyn_row hN h1; exists I, j, k.
  case: (ltnP r (Nx * N + Ncr * N)) => h2.
    by apply: Or32; exists (r - Nx * N)%N; lia.
  by apply: Or33; exists (r - (Nx * N + Ncr * N))%N; lia.

have I12 : mvlam (w_int s1) = mvlam (w_int s2) by case: i1 => _ -> _; case: i2 => _ -> _.
have [g1 g2] := int_same p tf xl ul I12.
split.
- by move=> a b ha hb; rewrite !cost_P // g2.
- by move=> c hc; rewrite !cost_q // g1.
- move=> r c hr hc; case: (rowE r hr) => [[I [j [k [hI hj hk ->]]]]|[r' hr' ->]|[j hj ->]].
  + by have [-> _ _] := upd_dynE p tf xl dxl ul s1 c hI hj hk; have [-> _ _] := upd_dynE p tf xl dxl ul s2 c hI hj hk.
  + by have [i [k [hi hk e]]] := blk_find hr'; rewrite !cr_val // e !ref_evalJ.
  + by rewrite !ce_val.
- move=> r hr; case: (rowE r hr) => [[I [j [k [hI hj hk ->]]]]|[r' hr' ->]|[j hj ->]].
  + by have [_ -> ->] := upd_dynE p tf xl dxl ul s1 0 hI hj hk; have [_ -> ->] := upd_dynE p tf xl dxl ul s2 0 hI hj hk.
  + have [_ -> ->] := cr_row p tf xl dxl ul s1 0 hr'; have [_ -> ->] := cr_row p tf xl dxl ul s2 0 hr'.
    by have [i [k [hi hk e]]] := blk_find hr'; rewrite e !ref_evalF.
  + by have [_ -> ->] := ce_row p tf xl dxl ul s1 0 hj N0; have [_ -> ->] := ce_row p tf xl dxl ul s2 0 hj N0.
Qed.
Theorem C43_update_partial S p tf xl dxl ul s : history (ce_pattern S) s -> ce_pattern S p ->
  same_qp (upd p tf xl dxl ul s) (ocp_to_qp p Kmin Kmax lgr m tf xl dxl ul).
Proof.
move=> h hp; apply: same_upd (inv_hist h) _ (covered_hist tf xl h hp) _ => //.
exact: inv_hist (HAlloc _ (_ : (fun=> True) p)).
Qed.
End History.
