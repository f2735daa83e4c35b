(** Concrete cases for EndQp.v and EndAsif.v, and the axioms used. *)
From Coq Require Import QArith.
From mathcomp Require Import all_ssreflect all_algebra.
From mathcomp.algebra_tactics Require Import ring.
From Verif Require Import LinAlg QF QpModel QpSpec QpFacts QpAdmm QpLoop QpProps QpConv QpCodes QpInfeas QpCex QpExamples EndQp.
From Verif Require Import SparseModel MeshFunModel NlpModel NlpSol MpcModel AsifModel AsifProps AsifThms AsifThms2 AsifThms3 AsifCases EndAsif.
Set Implicit Arguments.
Unset Strict Implicit.
Unset Printing Implicit Defensive.
Import Order.TTheory GRing.Theory Num.Theory.
Local Open Scope ring_scope.

Section Qp.
Variable F : realFieldType.
Local Notation dp := (dprm F true false).
Lemma dp_rel : 0 <= eps_rel dp < 1.
Proof. by rewrite /= -(q2f0 F) -(q2f1 F) q2f_lt q2f_le. Qed.
Example C82_case : exists r o', [/\ solve_dense (env0 F false 1 1) dp 2 (@obj_new F 1 1) (p15 F) None = Some (r, o'), code r = Optimal &
  forall i, row_near (ql (p15 F) i) (qu (p15 F) i) ((qA (p15 F) *m primal r) i 0) (row_tol dp (linf (qA (p15 F) *m primal r)))].
Proof.
have [r [o' [hs hc]]] := run15 F false; exists r, o'; split=> //.
exact: (C82_rows (@env0_sqrt F false 1 1) (dprm_rho F _ _) erefl dp_rel (rd_new _ _) hs hc).
Qed.
(** min x1^2 + x1 x2 + x2^2 - 3 x1 - 3 x2, started at its solution (1, 1). *)
Lemma run12 fuel : (1 < fuel)%N -> exists r o', [/\ solve_dense (env0 F true 2 1) dp fuel (@obj_new F 2 1) (p12 F (1#1)) (Some (w12 F)) = Some (r, o'),
  code r = Optimal, primal r = primal (w12 F) & dual r = dual (w12 F)].
Proof.
move=> hf; apply: (@C85_returns F 2 1 _ dp) => //; try exact: rd_new; try exact: conv12; try exact: kkt12; try exact: pos01; apply: ltW; exact: pos01.
Qed.
Example C85_case : exists r o', solve_dense (env0 F true 2 1) dp 2 (@obj_new F 2 1) (p12 F (1#1)) (Some (w12 F)) = Some (r, o') /\
  primal r = v2 F (1#1) (1#1).
Proof. by have [r [o' [h1 _ h2 _]]] := run12 (fuel := 2) isT; exists r, o'. Qed.
(** The eigenvalues of P are 1 and 3. *)
Example C83_case : exists r o', [/\ solve_dense (env0 F true 2 1) dp 2 (@obj_new F 2 1) (p12 F (1#1)) (Some (w12 F)) = Some (r, o'), code r = Optimal &
  exists2 z : 'cV[F]_1, forall i, between (ql (p12 F (1#1)) i) (qu (p12 F (1#1)) i) (z i 0) &
    1 * (\sum_i (primal r i 0 - primal (w12 F) i 0) ^+ 2) <= tol_dual dp (p12 F (1#1)) (primal r) (dual r) * norm1 (primal r - primal (w12 F))
       + tol_primal dp (p12 F (1#1)) (primal r) z * norm1 (dual (w12 F) - dual r)].
Proof.
have [r [o' [h1 h2 _ _]]] := run12 (fuel := 2) isT; exists r, o'; split=> //.
apply: (C83_distance (@env0_sqrt F true 2 1) (dprm_rho F _ _) erefl (rd_new _ _) h1 h2 _ (kkt12 F)) => x.
rewrite qf_dot dotE !big_ord_recl !big_ord0 !mxE !big_ord_recl !big_ord0 !mxE /= !addr0.
move: (x 0 0) (x (lift _ _) 0) => a b.
have -> : q2f F (2#1) = 1 + 1 by rewrite -(q2f1 F) -q2fD; exact: q2f_eq.
rewrite q2f1 -subr_ge0.
have -> : a * ((1 + 1) * a + 1 * b) + b * (1 * a + (1 + 1) * b) - 1 * (a ^+ 2 + b ^+ 2) = (a + b) ^+ 2 by ring.
exact: sqr_ge0.
Qed.
End Qp.

Section Filter.
Variable F : realFieldType.
Local Notation V := ('cV[F]_1).
Local Notation dp := (dprm F true false).
(** The single integrator of AsifCases.v with the solver of the library: two program rows for the barrier, one for the input
    bounds -1 <= u <= 1 and one for the relaxation. *)
Local Notation bsolve fuel := (builtin (env0 F true 2 (2 * 1 + 1 + 1)) dp fuel).
Local Notation fcall fuel := (filter_call (nh := 1) (@add1 F) (@noad F) (@add1 F) (@sub1 F) (@ex_f F) (@ex_dfu F) (bsolve fuel) (ex_fprm F) 4).
Local Notation frun fuel := (filter_run (nh := 1) (@add1 F) (@noad F) (@add1 F) (@sub1 F) (@ex_f F) (@ex_dfu F) (bsolve fuel) (ex_fprm F) 4).
Lemma b_fcall qf x u s : exists s' out, fcall qf (ex_call x u) s = Some (s', out).
Proof.
rewrite /filter_call; have [q e] := @C57_case F x u (fqp s) 4 isT.
by move: e; rewrite /ex_up /ex_p /= => ->; eexists; eexists.
Qed.
(** Two safe calls. *)
Example C85_filter_case : exists s outs s' out, [/\ frun 2 [:: ex_call 0 0] (filter_new F) = Some (s, outs), fcall 2 (ex_call 0 0) s = Some (s', out),
  fo_code out = Optimal & fo_u out = 0].
Proof.
have [s [out1 e1]] := b_fcall 2 0 0 (filter_new F); have [s' [out e2]] := b_fcall 2 0 0 s.
have er : frun 2 [:: ex_call 0 0] (filter_new F) = Some (s, [:: out1]) by rewrite /= e1.
exists s, [:: out1], s', out.
have [hq e3 _ _] := last_call er e2.
have er0 : frun 2 [::] (filter_new F) = Some (filter_new F, [::]) by [].
have [hq0 e30 _ _] := last_call er0 e1.
have [] := C85_filter (nh := 1) (prm := ex_fprm F) (e := env0 F true 2 (2 * 1 + 1 + 1)) (@env0_sqrt F true 2 _) (dprm_rho F _ _) _ _ _ _ _ _ _ _ _ _ er e2 => //; try exact: pos01; try (by apply: ltW; exact: pos01).
- by move=> k; rewrite mxE ler01.
- by rewrite ler0n.
- by move=> o [<-|[<-|[]]]; [exact: safe0 hq e3|exact: safe0 hq0 e30].
by move=> h1 h2; split=> //; rewrite h2 /add1 addr0.
Qed.
(** A first call for any state and any input. *)
Example C84_case qf x u : exists s' out, fcall qf (ex_call x u) (filter_new F) = Some (s', out) /\
  (fo_code out = Optimal -> let t := o_tol 1 (ex_fprm F) dp out in
    [/\ -1 - t <= fo_u out 0 0 <= 1 + t, - t <= o_d 1 out &
     exists n tt xx S idx, [/\ propagated (@add1 F) (@noad F) (fun t x => ex_f x (ex_bu t x)) (@ex_J F) x n tt xx S,
      forall k, (k < 2)%N -> (idx k <= n)%N /\ 1 / 2%:R * k%:R <= tt (idx k) < 1 / 2%:R * k%:R + Num.min (1 / 3%:R) (1 / 2%:R) &
      forall k (j : 'I_1), (k < 2)%N -> 0 <= ex_ht (tt (idx k)) (xx (idx k)) j 0 + (ex_hx (tt (idx k)) (xx (idx k)) *m S (idx k) *m fo_u out) j 0
         + 1 * ex_h (tt (idx k)) (xx (idx k)) j 0 + o_d 1 out + t]]).
Proof.
have [s' [out e2]] := b_fcall qf x u (filter_new F); exists s', out; split=> // ho t.
have er0 : frun qf [::] (filter_new F) = Some (filter_new F, [::]) by [].
have [|h1 h2] := C84_bounds (nh := 1) (prm := ex_fprm F) (e := env0 F true 2 (2 * 1 + 1 + 1)) er0 e2 ho (@env0_sqrt F true 2 _) (dprm_rho F _ _) erefl (dp_rel F).
  by move=> mu; rewrite /sub1 /add1 addrAC.
split.
- by have := h1 0; rewrite /= mul1mx /sub1 subr0.
- exact: h2.
apply: (C84_barrier (nh := 1) (prm := ex_fprm F) (e := env0 F true 2 (2 * 1 + 1 + 1)) er0 e2 ho (@env0_sqrt F true 2 _) (dprm_rho F _ _) erefl (dp_rel F) (n0 := 2)) => //; first exact: h13.
- exact: ltr01.
- exact: h30.
by move=> mu; apply: ex_aff.
Qed.
(** An input that is safe, after calls for any states and inputs. *)
Example C84_safe_case qf x u : exists s outs s' out, [/\ frun qf [:: ex_call x u] (filter_new F) = Some (s, outs), fcall qf (ex_call 0 0) s = Some (s', out) &
  fo_code out = Optimal -> 2%:R^-1 * (fo_u out 0 0 ^+ 2 + 100%:R * o_d 1 out ^+ 2) <=
    tol_dual dp (dense_qp 2 4 (fo_qp out)) (stack (o_mu 1 out) (o_d 1 out)) (o_y 1 (ex_fprm F) out) * (`|fo_u out 0 0| + `|o_d 1 out|)
    + o_tol 1 (ex_fprm F) dp out * norm1 (o_y 1 (ex_fprm F) out)].
Proof.
have [s [out1 e1]] := b_fcall qf x u (filter_new F); have [s' [out e2]] := b_fcall qf 0 0 s.
have er : frun qf [:: ex_call x u] (filter_new F) = Some (s, [:: out1]) by rewrite /= e1.
exists s, [:: out1], s', out; split=> // ho.
have [hq e3 _ eu] := last_call er e2.
have := C84_safe (nh := 1) (prm := ex_fprm F) (e := env0 F true 2 (2 * 1 + 1 + 1)) er e2 ho (@env0_sqrt F true 2 _) (dprm_rho F _ _) erefl (dp_rel F) _ _ (safe0 hq e3).
have -> : fo_u out 0 0 = o_mu 1 out 0 0 by rewrite eu /= /add1 add0r.
rewrite /wcost !big_ord1 mxE mul1r; apply; last by rewrite ler0n.
by move=> k; rewrite mxE ler01.
Qed.
End Filter.

Print Assumptions C82_rows.
Print Assumptions C82_rows_sparse.
Print Assumptions C83_distance.
Print Assumptions C83_distance_sparse.
Print Assumptions C84_bounds.
Print Assumptions C84_barrier.
Print Assumptions C84_cost.
Print Assumptions C84_safe.
Print Assumptions C85_returns.
Print Assumptions C85_filter.
