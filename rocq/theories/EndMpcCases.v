(** Concrete cases for EndMpc.v, MpcPat.v and EndRef.v, and the axioms used.
    A controller for x' = u with the constraint -1 <= u <= 1, K = 1 and a horizon of one second, with the solver of the
    library: three variables and three rows. *)
From Coq Require Import QArith.
From mathcomp Require Import all_ssreflect all_algebra.
From mathcomp.algebra_tactics Require Import ring.
From Verif Require Import LinAlg QF QpModel QpSpec QpFacts QpAdmm QpLoop QpProps QpConv QpCex QpExamples.
From Verif Require Import MeshModel MeshSpec PolyFacts MeshFacts MeshQuad MeshEval MeshProps.
From Verif Require Import SparseModel SparseFacts MeshFunModel MeshFunFacts MeshFunLoops MeshFunDyn MeshFunProps MeshFunTraj NlpModel NlpFacts NlpProps NlpSol.
From Verif Require Import OqpModel OqpFacts OqpProps OqpCost MpcModel MpcHist MpcCost MpcRows EndQp EndAsif EndMpc MpcPat EndRef.
Set Implicit Arguments.
Unset Strict Implicit.
Unset Printing Implicit Defensive.
Import Order.TTheory GRing.Theory Num.Theory.
Local Open Scope ring_scope.
Local Arguments muln : simpl never.
Local Opaque mesh_integrate mesh_eval oqp_update oqp_allocate N_colloc mpc_step mpc_call.

Section Lgr.
Variable F : realFieldType.
(** Legendre-Gauss-Radau nodes and weights for K = 1 and K = 2. *)
Definition glgr (K : nat) : seq F * seq F :=
  if K == 1%N then ([:: -1], [:: 2%:R]) else ([:: -1; 3%:R^-1], [:: 2%:R^-1; 3%:R / 2%:R]).
Lemma n2 : (2%:R : F) != 0. Proof. by rewrite pnatr_eq0. Qed.
Lemma n3 : (3%:R : F) != 0. Proof. by rewrite pnatr_eq0. Qed.
Lemma g_integ (p : {poly F}) a b : (size p <= 3)%N ->
  integ p a b = p`_0 * (b - a) + p`_1 / 2%:R * (b ^+ 2 - a ^+ 2) + p`_2 / 3%:R * (b ^+ 3 - a ^+ 3).
Proof.
move=> sp; pose q : {poly F} := p`_0 *: 'X + (p`_1 / 2%:R) *: 'X^2 + (p`_2 / 3%:R) *: 'X^3.
rewrite -(@prim_unique _ _ q); last first.
  rewrite /q !derivD !derivZ derivX !derivXn /=; apply/polyP => i.
  rewrite !coefD !coefZ !coefMn coefX coefXn coef1 /=.
  case: i => [|[|[|i]]]; rewrite ?mulr0 ?mulr1 ?addr0 ?add0r ?mul0rn ?mulr0 ?addr0 ?add0r //.
  - by rewrite mulfVK ?n2.
  - by rewrite mulfVK ?n3.
  - by rewrite nth_default // (leq_trans sp).
rewrite /q !hornerD !hornerZ !hornerX !hornerXn; move: (p`_0) (p`_1 / 2%:R) (p`_2 / 3%:R) => x y z; ring.
Qed.
Lemma glgr_contract K : (1 <= K <= 2)%N -> lgr_contract K (glgr K).
Proof.
case: K => [|[|[|K]]] // _.
- split=> //=; [by rewrite andbT -subr_gt0 opprK addr_gt0 ?ltr01|by rewrite ltr0Sn|].
  move=> p sp; rewrite g_integ; last by apply: leq_trans sp _.
  have [c ->] : exists c, p = c%:P by exists p`_0; apply: size1_polyC.
  rewrite /= big_seq1 /= hornerC !coefC /=; by field.
- split=> //=.
  + by rewrite andbT -subr_gt0 opprK addr_gt0 ?invr_gt0 ?ltr0Sn ?ltr01 // invf_lt1 ?ltr0Sn // ltr1n.
  + by rewrite andbT invr_gt0 ltr0Sn mulr_gt0 ?invr_gt0 ?ltr0Sn.
  move=> p sp; rewrite g_integ // /= !big_cons big_nil /=.
  have E x : p.[x] = p`_0 + p`_1 * x + p`_2 * x ^+ 2.
    rewrite (horner_coef_wide x sp) !big_ord_recl big_ord0 /= expr0 mulr1 addr0 addrA expr1.
    by rewrite /bump /=.
  rewrite !E; move: (p`_0) (p`_1) (p`_2) => x y z; by field.
Qed.
End Lgr.

Section Inst.
Variable F : realFieldType.
Local Notation dp := (dprm F true false).
Local Notation ev := (env0 F true 3 3).
Definition bf (t : F) (x u : 'cV[F]_1) (k : nat) : F := vget u k.
Definition bdf (t : F) (x u : 'cV[F]_1) (k c : nat) : F := (c == 1 + k)%N%:R.
Definition bq : MpcModel.params F := MpcModel.Params 1 1 true.
Definition bm : mesh F := [:: (1%N, 0)].
Local Notation Pl := (fun a b : F => a + b).
Local Notation Mn := (fun a b : F => a - b).
Local Notation bsolve fuel := (mpc_solve ev dp fuel).
Local Notation bnew := (mpc_new 1 Pl 0 1 (@glgr F) bf bdf true bf bdf (fun=> -1) (fun=> 1) (@mpc_analyze F 3 3)).
Local Notation bcall fuel := (mpc_call 1 Pl 0 1 (@glgr F) bf bdf true bf bdf (fun=> -1) (fun=> 1) (bsolve fuel)).
Local Notation brun fuel := (mpc_run 1 Pl Mn 0 1 (@glgr F) bf bdf true bf bdf (fun=> -1) (fun=> 1) (bsolve fuel)).
Lemma bnewE : exists co, bnew bq = Some co /\ msh co.2 = bm.
Proof.
by rewrite /mpc_new /=; eexists; split; first by [].
Qed.
Lemma bm_hN : (\sum_(i < size bm) N_colloc_ival bm i < uint_mod)%N.
Proof.
rewrite (_ : (\sum_(i < size bm) N_colloc_ival bm i)%N = 1%N); last by rewrite !big_ord_recl big_ord0.
by rewrite -[1%N]/(2 ^ 0)%N; rewrite ltn_exp2l.
Qed.
Lemma bm_N : N_colloc bm = 1%N.
Proof. by have [_ h _] := C26_N_colloc_partial bm; rewrite h ?bm_hN // !big_ord_recl big_ord0. Qed.
Lemma b_input : cr_input 1 bf bdf.
Proof.
split=> //; split=> // t x u k b; rewrite ltnS leqn0 => /eqP ->; split=> //.
  by rewrite ltnS leqn0 => /eqP ->.
Qed.
Lemma b_ns : all_nodes 1 1 (@glgr F) bm = [:: 0; 1].
Proof. rewrite /all_nodes /= /tau0 /half_len /tauf /= addNr mulr0 addr0 add0r subr0; congr [:: _; _]; by field. Qed.
Section Hist.
(** The reference x = t with the input 1, and calls with the desired state at the times ts. *)
Definition ops1 : seq (mop F 1 1 F) := [:: SetUdes _ (fun=> 1); SetXdes _ (fun t => t%:M) (fun=> 1)].
Definition hist (ts : seq F) : seq (mop F 1 1 F) := ops1 ++ [seq Call 1 t t%:M | t <- ts].
Lemma v1 k (t : F) : (k < 1)%N -> vget (t%:M : 'cV[F]_1) k = t.
Proof. by case: k => // _; rewrite (vgetE _ (isT : (0 < 1)%N)) mxE. Qed.
Lemma cur_hist ts : [/\ cur_xdes Mn (hist ts) = (fun t => t%:M), cur_dxdes Mn (hist ts) = (fun=> 1) & cur_udes Mn (hist ts) = (fun=> 1)].
Proof. by rewrite /hist; elim/last_ind: ts => [//|ts t [h1 h2 h3]]; rewrite map_rcons -cats1 catA /cur_xdes /cur_dxdes /cur_udes !foldl_cat. Qed.
Lemma hist_split ts o1 t x o2 : hist ts = o1 ++ Call 1 t x :: o2 -> exists2 ts1, o1 = hist ts1 & x = t%:M.
Proof.
rewrite /hist; case: o1 => [|a [|b o1]] //= [<- <-] E.
suff [ts1 -> ->] : exists2 ts1, o1 = [seq Call 1 t t%:M | t <- ts1] & x = t%:M by exists ts1.
elim: ts o1 E => [|t0 ts IH] [|c o1] //=; first by case=> -> -> _; exists [::].
by case=> <- /IH[ts1 -> ->]; exists (t0 :: ts1).
Qed.
End Hist.
Variables (co : cell F 1 1 F * mobj F 1 1 F (obj F 3 3)).
Hypotheses (e : bnew bq = Some co) (em : msh co.2 = bm).
Lemma b_hN : (\sum_(i < size (msh co.2)) N_colloc_ival (msh co.2) i < uint_mod)%N.
Proof. by rewrite em bm_hN. Qed.
Lemma b_n : 3%N = (1 * (N_colloc (msh co.2) + 1) + 1 * N_colloc (msh co.2))%N.
Proof. by rewrite em bm_N. Qed.
Lemma b_m : 3%N = (1 * N_colloc (msh co.2) + 1 * N_colloc (msh co.2) + 1)%N.
Proof. by rewrite em bm_N. Qed.
Lemma ref1 ts t : on_ref 1 Pl Mn 0 1 (@glgr F) bf true bf (fun=> -1) (fun=> 1) bq co (hist ts) t t%:M.
Proof.
have [h1 h2 h3] := cur_hist ts; rewrite /on_ref h1 h2 h3; split=> [|i k _ hk|i k _ hk]; first by rewrite addr0.
  by rewrite /bf.
by rewrite /bf v1 // lexx andbT -subr_ge0 opprK addr_ge0 // ler01.
Qed.
Lemma hist_ref ts : ref_history 1 Pl Mn 0 1 (@glgr F) bf true bf (fun=> -1) (fun=> 1) bq co (hist ts).
Proof. by move=> o1 t x o2 /hist_split[ts1 -> ->]; exact: ref1. Qed.
Lemma p01 a : ~~ Qle_bool a (0#1) -> 0 <= q2f F a. Proof. by move=> h; apply: ltW; exact: pos01. Qed.
(** Calls at any times, each with the desired state: every call returns the input 1 and the trajectory t, t + 1. *)
Example C88_case ts t fuel : (1 < fuel)%N -> let out := (bcall fuel t t%:M (brun fuel (hist ts) co).1).2 in
  [/\ o_code out = Optimal, o_u out = 1, nth 0 (o_xs out) 0 = t%:M & nth 0 (o_xs out) 1 = (t + 1)%:M].
Proof.
move=> hf; cbv zeta.
have := C88_reference (e := ev) (qprm := dp) (qfuel := fuel) (isT : (0 < 1)%N) e b_hN b_n b_m (@glgr_contract F)
  (@env0_sqrt F true 3 3) (dprm_rho F _ _) (@pos01 F (1#1000000) isT) (@p01 (1#1000) isT) (@p01 (1#1000) isT) erefl isT _ _ ler01 isT hf (@hist_ref ts) (ref1 ts t).
rewrite /is_ref; have [h1 _ h3] := cur_hist ts; rewrite h1 h3 em bm_N => -[//|//|c1 c2 _ c4]; split=> //.
  by rewrite c4 // /time b_ns mulr0 addr0.
by rewrite c4 // /time b_ns mulr1.
Qed.
(** The same calls: the trajectory starts at the state that was passed and the input is within its bounds, up to the
    tolerance of the solver. *)
Example C86_case ts t fuel : (1 < fuel)%N -> let out := (bcall fuel t t%:M (brun fuel (hist ts) co).1).2 in
  let T := mtol 1 Pl Mn 0 1 (@glgr F) bf bdf true bf bdf (fun=> -1) (fun=> 1) ev dp fuel co (hist ts) t t%:M in
  [/\ o_code out = Optimal, `|vget (nth 0 (o_xs out) 0) 0 - t| <= T, -1 - T <= vget (o_u out) 0 & vget (o_u out) 0 <= 1 + T].
Proof.
move=> hf; cbv zeta; have [c1 _ _ _] := C88_case ts t hf.
have er : 0 <= eps_rel dp < 1 by rewrite (@p01 (1#1000) isT) /= -(q2f1 F) q2f_lt.
have h1 := C86_initial (isT : (0 < 1)%N) e b_hN b_n b_m (@glgr_contract F) (@env0_sqrt F true 3 3) (dprm_rho F _ _) erefl er c1 (isT : (0 < 1)%N).
have [h2 h3] := C86_input (isT : (0 < 1)%N) e b_hN b_n b_m (@glgr_contract F) (@env0_sqrt F true 3 3) (dprm_rho F _ _) erefl er isT b_input c1 (isT : (0 < 1)%N).
by split=> //; rewrite v1 in h1.
Qed.
(** After any operations: the stored entries are those of the constructor, and the solution is that of a new solver. *)
Example C87_case ops t x fuel r c : let out := (bcall fuel t x (brun fuel ops co).1).2 in
  isSome (oA (o_qp out) r c) = isSome (oA (mqp co.2) r c) /\
  o_sol out = (mpc_solve ev dp fuel (@obj_new F 3 3) (o_qp out) (o_guess out)).2.
Proof. by split; [exact: C87_pattern e _ _ _ _ _|exact: (C87_fresh _ _ _ _ (isT : (0 < 1)%N) e b_hN)]. Qed.
End Inst.

Print Assumptions C86_initial.
Print Assumptions C86_dynamics.
Print Assumptions C86_running.
Print Assumptions C86_input.
Print Assumptions C87_pattern.
Print Assumptions C87_fresh.
Print Assumptions C88_cold.
Print Assumptions C88_reference.
