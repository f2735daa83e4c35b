(** Counterexamples for C07, C08, C11-C15 and concrete cases for the theorems about the QP solver. *)
From Coq Require Import ZArith QArith.
From mathcomp Require Import all_ssreflect all_algebra.
From mathcomp.algebra_tactics Require Import ring.
From Verif Require Import QF LinAlg QpModel QpSpec QpFacts QpAdmm QpLoop QpProps QpConv QpCodes.
Set Implicit Arguments.
Unset Strict Implicit.
Unset Printing Implicit Defensive.
Import Order.TTheory GRing.Theory Num.Theory.
Local Open Scope ring_scope.

Local Arguments Qred : simpl never.
Local Arguments Qplus : simpl never.
Local Arguments Qmult : simpl never.
Local Arguments Qopp : simpl never.
Local Arguments Qinv : simpl never.
Local Arguments Qdiv : simpl never.
Local Arguments Qminus : simpl never.
Ltac qpush := match goal with |- ?c _ = _ => rewrite /c end; congr const_mx; rewrite ?(q2fD, q2fM, q2fN, q2fB, q2fV, q2f_red).
Section Scalar.
Variable F : realFieldType.
Notation f := (q2f F).
Definition cst (a : Q) : 'M[F]_1 := const_mx (f a).
Lemma cstM a b : cst a *m cst b = cst (Qmult a b).
Proof. by apply/matrixP => i j; rewrite !mxE big_ord1 !mxE q2fM. Qed.
Lemma cstD a b : cst a + cst b = cst (Qplus a b).
Proof. by apply/matrixP => i j; rewrite !mxE q2fD. Qed.
Lemma cstN a : - cst a = cst (Qopp a).
Proof. by apply/matrixP => i j; rewrite !mxE q2fN. Qed.
Lemma cstT a : (cst a)^T = cst a.
Proof. by apply/matrixP => i j; rewrite !mxE. Qed.
Lemma cstZ a b : f a *: cst b = cst (Qmult a b).
Proof. by apply/matrixP => i j; rewrite !mxE q2fM. Qed.
Lemma cst_cmul a b : cmul (cst a) (cst b) = cst (Qmult a b).
Proof. by apply/matrixP => i j; rewrite [j]ord1 !mxE q2fM. Qed.
Lemma cst_cinv a : cinv (cst a) = cst (Qinv a).
Proof. by apply/matrixP => i j; rewrite [j]ord1 !mxE q2fV. Qed.
Lemma cst_norm a : norm (cst a) = f (qabs a).
Proof.
rewrite -q2f_abs; apply/le_anti/andP; split.
  by apply/norm_leP => // i; rewrite mxE.
by have := norm_within (cst a) 0; rewrite mxE.
Qed.
Lemma cst_eq a b : Qeq_bool a b -> cst a = cst b.
Proof. by rewrite /cst => /(q2f_eq F) ->. Qed.
Lemma cst0 : cst (0 # 1) = 0.
Proof. by apply/matrixP => i j; rewrite !mxE q2f0. Qed.
Lemma cst1 : cst (1 # 1) = ones F 1.
Proof. by apply/matrixP => i j; rewrite !mxE q2f1. Qed.

Inductive extq := NI | Fi of Q | PI.
Definition ef (b : extq) : ext F := match b with NI => NegInf | Fi a => Fin (f a) | PI => PosInf end.
Definition clampq (l u : extq) (v : Q) : Q :=
  let v1 := if l is Fi a then qmax v a else v in
  if u is Fi b then qmin v1 b else v1.
Lemma clampE l u v : clamp (ef l) (ef u) (f v) = f (clampq l u v).
Proof. by case: l => [|a|]; case: u => [|b|] //=; rewrite ?q2f_max ?q2f_min. Qed.

Definition p1 (P q A : Q) (l u : extq) : qp F 1 1 := Qp (cst P) (cst q) (cst A) (fun=> ef l) (fun=> ef u).
Definition st (x y z : Q) : xyz F 1 1 := XYZ (cst x) (cst y) (cst z).
Notation s1 := (Scaling 1 (ones F 1) (ones F 1)).

Section Step.
Variables (P q A : Q) (l u : extq) (sg al rho : Q) (prm : params F).
Hypotheses (hsg : sigma prm = f sg) (hal : alpha prm = f al) (rb : 0 < rho_bar prm).
Hypothesis hrho : rho_vec prm (p1 P q A l u) s1 = cst rho.
Hypothesis pos : [&& Qle_bool (0#1) P, ~~ Qle_bool sg (0#1) & ~~ Qle_bool rho (0#1)].
Definition xtq (x y z : Q) : Q :=
  Qdiv (Qplus (Qminus (Qminus (Qmult sg x) q) (Qmult A y)) (Qmult rho (Qmult A z)))
       (Qplus (Qplus P sg) (Qmult rho (Qmult A A))).
Definition stepq (v : Q * Q * Q) : Q * Q * Q :=
  let: (x, y, z) := v in
  let xt := Qred (xtq x y z) in
  let w := Qred (Qplus (Qplus z (Qdiv y rho)) (Qmult al (Qminus (Qmult A xt) z))) in
  let z' := Qred (clampq l u w) in
  (Qred (Qplus x (Qmult al (Qminus xt x))), Qred (Qmult rho (Qminus w z')), z').
Definition stv (v : Q * Q * Q) := st v.1.1 v.1.2 v.2.

Lemma psd1 : psd (cst P).
Proof.
have /and3P[p0 _ _] := pos; rewrite -(q2f_le F) q2f0 in p0.
move=> x; rewrite /qf !mxE big_ord1 !mxE big_ord1 !mxE mulrAC -expr2.
by apply: mulr_ge0 => //; exact: sqr_ge0.
Qed.
Lemma step1 v : admm_step prm (p1 P q A l u) s1 (Hd prm (p1 P q A l u) s1) (stv v) = stv (stepq v).
Proof.
have /and3P[p0 s0 r0] := pos; rewrite -(q2f_lt F) q2f0 in s0; rewrite -(q2f_lt F) q2f0 in r0.
rewrite -(q2f_le F) q2f0 in p0.
case: v => [[x y] z].
have g1 : good_scaling s1 by split=> [|i|i]; rewrite ?mxE ltr01.
have sm k : symU (cst k) = cst k by apply/matrixP => i j; rewrite !mxE; case: ifP.
have hu : Hd prm (p1 P q A l u) s1 \in unitmx.
  by apply: Hd_unit => //=; [rewrite hsg|rewrite sm; exact: psd1].
pose xt := Qred (xtq x y z); pose nu := Qplus y (Qmult rho (Qminus (Qmult A xt) z)).
apply: (step_unique hu rb (xt := cst xt) (nu := cst nu)).
have eP : sP' (p1 P q A l u) s1 = cst P by rewrite /sP' scaledP_1 sm.
have eA : sA' (p1 P q A l u) s1 = cst A by rewrite /sA' scaledA_1.
have eq : sq' (p1 P q A l u) s1 = cst q by rewrite /sq' /= scale1r cmul1.
rewrite /srel eP eA eq /rho' hrho; split.
- split=> /=; last first.
    by rewrite !(cstM, cstN, cstD, cst_cmul) /nu; qpush; ring.
  rewrite hsg !(cstM, cstN, cstD, cst_cmul, cstZ, cstT) /nu /xt; qpush; rewrite /xtq; rewrite ?(q2fD, q2fM, q2fN, q2fB, q2f_red, q2f_div).
  have dn : f P + f sg + f rho * (f A * f A) != 0.
    rewrite gt_eqF //; apply: ltr_paddr; first by rewrite -expr2 mulr_ge0 ?sqr_ge0 // ltW.
    exact: ltr_paddl.
  by field.
- rewrite /stv /stepq -/xt; move: (xt) => t; by rewrite /st /it_x /fst /snd hal !(cstM, cstN, cstD, cstZ); qpush; try ring.
- rewrite /stv /stepq -/xt; move: (xt) => t.
  exists (cst (Qred (Qplus (Qplus z (Qdiv y rho)) (Qmult al (Qminus (Qmult A t) z))))).
    rewrite /shadow /= hal cst_cinv !(cstM, cstN, cstD, cst_cmul, cstZ); qpush; rewrite ?q2f_div; have r0' := lt0r_neq0 r0.
    by field.
  split; last by rewrite /= !(cstN, cstD, cst_cmul); qpush; ring.
  apply/matrixP => i j; rewrite /sl' /su' !mxE /snd q2f_red -clampE /=; congr clamp.
    by case: (l) => //= a; rewrite mul1r.
  by case: (u) => //= a; rewrite mul1r.
Qed.
End Step.

Section Checks.
Variables (P q A : Q) (l u : extq) (ea er ep ed : Q) (prm : params F).
Hypotheses (hea : eps_abs prm = f ea) (her : eps_rel prm = f er) (hep : eps_pinf prm = f ep) (hed : eps_dinf prm = f ed).
Definition optq (x y z : Q) : bool :=
  Qle_bool (qabs (Qminus (Qmult A x) z)) (Qplus ea (Qmult er (qmax (qabs (Qmult A x)) (qabs z)))) &&
  Qle_bool (qabs (Qplus (Qmult P x) (Qplus q (Qmult A y))))
    (Qplus ea (Qmult er (qmax (qabs (Qmult P x)) (qmax (qabs q) (qabs (Qmult A y)))))).
Lemma optqE x y z : check_optimal prm (p1 P q A l u) (cst x) (cst y) (cst z) = optq x y z.
Proof.
rewrite /check_optimal /= hea her !(cstM, cstN, cstD, cstT) !cst_norm !q2f_max -!q2fM -!q2fD !q2f_le.
by [].
Qed.
Definition evq (b : extq) : Q := if b is Fi a then a else 0#1.
Lemma evqE b : ext_val (ef b) = f (evq b).
Proof. by case: b => [|a|] //=; rewrite q2f0. Qed.
Definition isPI (b : extq) := if b is PI then true else false.
Definition isNI (b : extq) := if b is NI then true else false.
Lemma isPIE b : is_posinf (ef b) = isPI b. Proof. by case: b. Qed.
Lemma isNIE b : is_neginf (ef b) = isNI b. Proof. by case: b. Qed.
Definition pinfq (dy : Q) : bool :=
  let en := qabs dy in
  let tol := Qmult ep en in
  let up := if isPI u then (if ~~ Qle_bool dy tol then None else Some (0#1))
            else Some (Qplus (0#1) (Qmult (evq u) (qmax (0#1) dy))) in
  if up is Some a1 then
    let lo := if isNI l then (if ~~ Qle_bool (Qopp tol) dy then None else Some a1)
              else Some (Qplus a1 (Qmult (evq l) (qmin (0#1) dy))) in
    if lo is Some a2 then ~~ Qle_bool tol (qmax (qabs (Qmult A dy)) a2) else false
  else false.
Lemma pinfqE dy : check_primal_inf prm (p1 P q A l u) (cst dy) = pinfq dy.
Proof.
rewrite /check_primal_inf /= hep !(cstT, cstM) !cst_norm -q2fM.
have -> : enum 'I_1 = [:: 0] by rewrite enum_ordSl; congr cons; apply/size0nil; rewrite size_map size_enum_ord.
rewrite /= !mxE isPIE isNIE !evqE -!(q2f0 F) q2f_max q2f_min -!q2fN !q2f_lt -!q2fM -q2fD /pinfq.
case: (isPI u); [case: (~~ _) => //|]; (case: (isNI l); [case: (~~ _) => //|]); by rewrite -?q2fD q2f_max q2f_lt.
Qed.
Definition dinfq (dx : Q) : bool :=
  let t := Qmult ed (qabs dx) in
  [&& Qle_bool (qabs (Qmult P dx)) t, Qle_bool (Qmult q dx) t &
      match u with PI => Qle_bool (Qopp t) (Qmult A dx)
      | _ => match l with NI => Qle_bool (Qmult A dx) t | _ => ~~ Qle_bool t (qabs (Qmult A dx)) end end].
Lemma dinfqE dx : check_dual_inf prm (p1 P q A l u) (cst dx) = dinfq dx.
Proof.
rewrite /check_dual_inf /= hed !(cstT, cstM) !cst_norm -q2fM q2f_le !mxE q2f_le /dinfq; congr [&& _, _ & _].
apply/forallP/idP => [/(_ 0)|h i]; rewrite mxE.
  by case: (u) => [|b|] /=; case: (l) => [|a|] /=; rewrite -?q2fN ?q2f_abs ?q2f_le ?q2f_lt.
by move: h; case: (u) => [|b|] /=; case: (l) => [|a|] /=; rewrite -?q2fN ?q2f_abs ?q2f_le ?q2f_lt.
Qed.
End Checks.

(** The default parameters, qp_solver.hpp:29-68. *)
Definition dprm (sc po : bool) : params F :=
  Params (f (8#5)) (f (1#10)) (f (1#1000000)) sc (f (1#1000)) (f (1#1000)) (f (1#10000)) (f (1#10000))
    None false 25 po 5 (f (1#1000000)).
Lemma dprm_rho sc po : 0 < rho_bar (dprm sc po).
Proof. by rewrite /= -(q2f0 F) q2f_lt. Qed.

(** A verdict at the first check, made in iteration 1. *)
Lemma run2 n m (e : env F n m) prm p s Hs ws c : stop_check_iter prm = 25%N -> max_iter prm = None ->
  ldlt_ok e Hs -> trivially_infeasible p = false -> verdict e prm p s Hs (start p s ws) 1 = Some c ->
  solve_core e prm 2 p s Hs ws = Some (finish e prm p s (2%N, traj prm p s Hs (start p s ws) 2, Some c)).
Proof.
move=> hc hm lok ti hv; rewrite /solve_core /ret0 lok ti.
have c0 : is_check prm 0 = false by rewrite /is_check hc mod0n.
have c1 : is_check prm 1 by rewrite /is_check hc modn_small.
have lim k : at_limit prm k = false by rewrite /at_limit hm.
rewrite /main_loop !lim hc c0 c1 /=.
move: hv; rewrite /verdict /traj /= => ->.
by [].
Qed.

Section Run.
Variables (P q A : Q) (l u : extq) (rho : Q) (sc po : bool) (e : env F 1 1).
Notation prm := (dprm sc po).
Notation p := (p1 P q A l u).
Hypothesis hrho : rho_vec prm p s1 = cst rho.
Hypothesis pos : [&& Qle_bool (0#1) P, true & ~~ Qle_bool rho (0#1)].
Notation stp := (stepq P q A l u (1#1000000) (8#5) rho).
Lemma trajq k v : traj prm p s1 (Hd prm p s1) (stv v) k = stv (iter k stp v).
Proof.
elim: k => [|k IH] //; rewrite /traj !iterS -/(traj _ _ _ _ _ k) IH.
by apply: step1 => //; exact: dprm_rho.
Qed.
Definition verdictq (v v' : Q * Q * Q) : option status :=
  if optq P q A (1#1000) (1#1000) v'.1.1 v'.1.2 v'.2 then Some Optimal
  else if pinfq A l u (1#10000) (Qminus v'.1.2 v.1.2) then Some PrimalInfeasible
  else if dinfq P q A l u (1#10000) (Qminus v'.1.1 v.1.1) then Some DualInfeasible else None.
Lemma unscale_x1 (a : 'cV[F]_1) : unscale_x s1 a = a. Proof. exact: cmul1. Qed.
Lemma unscale_y1 (a : 'cV[F]_1) : unscale_y s1 a = a.
Proof. by rewrite /unscale_y /= cmul1 invr1 scale1r. Qed.
Lemma unscale_z1 (a : 'cV[F]_1) : unscale_z s1 a = a.
Proof. by rewrite /unscale_z /= cinv1 cmul1. Qed.
Lemma verdictE v k : verdict e prm p s1 (Hd prm p s1) (stv v) k = verdictq (iter k stp v) (iter k.+1 stp v).
Proof.
rewrite /verdict /check_iter !trajq; move: (iter k stp v) (iter k.+1 stp v) => w w'.
rewrite !unscale_x1 !unscale_y1 unscale_z1 /= !(cstN, cstD) /check_stopping.
rewrite (@optqE P q A l u (1#1000) (1#1000)) // (@pinfqE P q A l u (1#10000)) // (@dinfqE P q A l u (1#10000)) //.
rewrite -!/(Qminus _ _) /verdictq.
by case: ifP => // _; case: ifP => // _; case: ifP.
Qed.
End Run.

Lemma start1 (p : qp F 1 1) : start p s1 None = stv ((0#1), (0#1), (0#1))%Q.
Proof. by rewrite /stv /st cst0. Qed.
Lemma rho1 P q A l u sc po r : rho_row (dprm sc po) 1 (ef l) (ef u) = f r -> rho_vec (dprm sc po) (p1 P q A l u) s1 = cst r.
Proof. by move=> h; apply/matrixP => i j; rewrite !mxE /= ?mxE. Qed.
Lemma ti1 P q A l u : contradictory (ef l) (ef u) = false -> trivially_infeasible (p1 P q A l u) = false.
Proof. by move=> h; apply/negbTE/existsPn => i; rewrite /= h. Qed.

(** * C07 *)
(** min x subject to 1e-5 x = 0: feasible, but reported as primal infeasible. *)
Definition p07 := p1 (0#1) (1#1) (1#100000) (Fi (0#1)) (Fi (0#1)).
Lemma run07 (e : env F 1 1) : (forall M, ldlt_ok e M) ->
  exists r o', solve_dense e (dprm false false) 2 (@obj_new F 1 1) p07 None = Some (r, o') /\ code r = PrimalInfeasible.
Proof.
move=> lok; have hr : rho_vec (dprm false false) p07 s1 = cst (100#1).
  apply: rho1; rewrite /= subrr normr0 mulr0 invr_gt0 exprn_gt0 ?ltr0n // (q2f_nat F) q2fX -q2fM.
  exact: q2f_eq.
rewrite /solve_dense /= (@run2 _ _ e (dprm false false) p07 s1 _ None PrimalInfeasible) //; last 2 first.
- by apply: ti1; rewrite /contradictory /= -q2fB -(q2f0 F) q2f_lt.
- by rewrite start1 -/(Hd (dprm false false) p07 s1) (verdictE (rho := (100#1))).
by do 2 eexists; split; first reflexivity.
Qed.
Theorem C07_refuted : exists (prm : params F) (p : qp F 1 1), (exists x, optimal p x) /\
  forall e : env F 1 1, (forall M, ldlt_ok e M) ->
  exists r o', solve_dense e prm 2 (@obj_new F 1 1) p None = Some (r, o') /\ code r = PrimalInfeasible.
Proof.
exists (dprm false false), p07; split; last exact: run07.
  have feas x : feasible p07 x -> x = cst (0#1).
    move=> /(_ 0); rewrite /= /between /= mxE big_ord1 mxE q2f0 => /andP[h1 h2].
    apply/matrixP => i j; rewrite !ord1 mxE q2f0.
    have := @le_anti _ _ 0 (f (1 # 100000) * x 0 0); rewrite h1 h2 => /(_ isT) /esym /eqP.
    rewrite mulf_eq0 => /orP[/eqP h|/eqP //].
    by have := q2f_lt F (0#1) (1#100000); rewrite h q2f0 ltxx.
  have f0 : feasible p07 (cst (0#1)).
    by move=> i; rewrite /= cstM mxE /between /= !q2f_le.
  by exists (cst (0#1)); split=> // v /feas ->.
Qed.

(** * C08 *)
Lemma scale1 (e : env F 1 1) P q l u : Qeq_bool P (0#1) -> Qle_bool (qabs q) (1#1) -> sqrt e 1 = 1 ->
  scale e (p1 P q (1#1) l u) = Some s1.
Proof.
move=> /(q2f_eq F) P0 q1 sq; rewrite /scale; have -> : (0 < 1)%N && (0 < 1)%N by [].
have bm (g : 'I_1 -> F) : \big[Num.max/0]_i `|g i| = `|g 0| by rewrite big_ord_recl big_ord0; apply: max_l.
have m1 k : Num.max 1 (em F k) = 1.
  by rewrite max_l // /em invf_le1 ?exprn_gt0 ?ltr0n // exprn_ege1 // ler1n.
have c1 : cost_scale (p1 P q (1#1) l u) = 1.
  rewrite /cost_scale /= cst_norm big_ord1 /cost_cols /unit0 !mxE bm !mxE P0 q2f0 normr0 eqxx divr1.
  rewrite (@max_l _ _ 1 (f (qabs q))); last by rewrite -[1](q2f1 F) q2f_le.
  by rewrite maxC m1 divr1.
rewrite c1.
have xi : x_inc (p1 P q (1#1) l u) s1 = ones F 1.
  apply/matrixP => i j; rewrite [j]ord1 [i]ord1 /x_inc /unit0 !mxE !bm !mxE /= ?mxE P0 q2f0 q2f1 !mulr0 !mulr1 normr0 normr1.
  by rewrite max_r ?ler01 // oner_eq0.
have yi : y_inc (p1 P q (1#1) l u) s1 = ones F 1.
  by apply/matrixP => i j; rewrite [j]ord1 [i]ord1 /y_inc /unit0 !mxE !bm !mxE /= ?mxE q2f1 !mulr1 normr1 oner_eq0.
have ai : apply_inc e (ones F 1) (ones F 1) = ones F 1.
  by apply/matrixP => i j; rewrite [j]ord1 !mxE m1 invr1 sq mulr1.
have sr : scale_round e (p1 P q (1#1) l u) s1 = s1 by rewrite /scale_round xi yi ai.
have sp : 1 / 10%:R < spread (p1 P q (1#1) l u) s1 = false.
  by rewrite /spread xi yi !subrr !norm0 maxxx ltNge divr_ge0 ?ler0n ?ler01.
have sl k : scale_loop e k.+1 (p1 P q (1#1) l u) s1 = s1.
  by have -> : scale_loop e k.+1 (p1 P q (1#1) l u) s1 =
    if 1 / 10%:R < spread (p1 P q (1#1) l u) s1 then scale_loop e k (p1 P q (1#1) l u) (scale_round e (p1 P q (1#1) l u) s1)
    else scale_round e (p1 P q (1#1) l u) s1 by []; rewrite sp.
by rewrite (sl 9%N).
Qed.
(** min 0 subject to x >= 1000. *)
Definition p08 := p1 (0#1) (0#1) (1#1) (Fi (1000#1)) PI.
Lemma run08 (e : env F 1 1) po : (forall M, ldlt_ok e M) -> sqrt e 1 = 1 ->
  exists r o', solve_dense e (dprm true po) 2 (@obj_new F 1 1) p08 None = Some (r, o') /\ code r = DualInfeasible.
Proof.
move=> lok sq; have hr : rho_vec (dprm true po) p08 s1 = cst (1#10) by apply: rho1.
rewrite /solve_dense /cur_scale (scale1 (P := 0#1) (q := 0#1)) //=.
rewrite (@run2 _ _ e (dprm true po) p08 s1 _ None DualInfeasible) //; last 2 first.
- exact: ti1.
- by rewrite start1 -/(Hd (dprm true po) p08 s1) (verdictE (rho := (1#10))).
by do 2 eexists; split; first reflexivity.
Qed.
Theorem C08_refuted : exists (p : qp F 1 1), (exists x, optimal p x) /\
  forall (e : env F 1 1) po, (forall M, ldlt_ok e M) -> sqrt e 1 = 1 ->
  exists r o', solve_dense e (dprm true po) 2 (@obj_new F 1 1) p None = Some (r, o') /\ code r = DualInfeasible.
Proof.
exists p08; split; last exact: run08.
  exists (cst (1000#1)); split=> [i|v _]; first by rewrite /= cstM mxE /between /= q2f_le.
  rewrite /cost /= cst0 /dot trmx0 !mul0mx /qf !mulmx0 !mul0mx mxE.
  by [].
Qed.

(** * C11 *)
Lemma no_check_loop n m (e : env F n m) prm p s Hs fuel : (forall k, is_check prm k = false) -> max_iter prm = None ->
  forall k v, main_loop e prm fuel k p s Hs v None = None.
Proof.
move=> nc hm; elim: fuel => [|fuel IH] k v /=; rewrite /at_limit hm /= ?nc; first by case: ifP.
by case: ifP.
Qed.
(** With stop_check_iter = 1 (a check in every iteration) no check is ever made, and without iteration
    limit no call returns that gets to the iteration. *)
Theorem C11_refuted : exists prm : params F, [/\ stop_check_iter prm = 1%N, forall k, is_check prm k = false &
  forall n m (e : env F n m) fuel o p ws, (forall M, ldlt_ok e M) -> ~ empty_row p ->
    solve_dense e prm fuel o p ws = None].
Proof.
pose prm : params F := Params (f (8#5)) (f (1#10)) (f (1#1000000)) true (f (1#1000)) (f (1#1000)) (f (1#10000)) (f (1#10000))
    None false 1 true 5 (f (1#1000000)).
have nc k : is_check prm k = false by rewrite /is_check modn1.
exists prm; split=> // n m e fuel o p ws lok ne; rewrite /solve_dense; case: (cur_scale _ _ _ _) => // s.
by rewrite /solve_core /ret0 lok (negbTE (introN (emptyP p) ne)) no_check_loop.
Qed.

(** * C12 *)
Definition v2 (a b : Q) : 'cV[F]_2 := \col_i (if i == 0 then f a else f b).
Definition m2 (a b c d : Q) : 'M[F]_2 :=
  \matrix_(i, j) (if i == 0 then (if j == 0 then f a else f b) else (if j == 0 then f c else f d)).
Definition r2 (a b : Q) : 'M[F]_(1, 2) := \row_j (if j == 0 then f a else f b).
Definition p12 (low : Q) : qp F 2 1 :=
  Qp (m2 (2#1) (1#1) low (2#1)) (v2 (-3#1) (-3#1)) (r2 (1#1) (0#1)) (fun=> NegInf) (fun=> PosInf).
Lemma m2v a b c d x y : m2 a b c d *m v2 x y = v2 (Qplus (Qmult a x) (Qmult b y)) (Qplus (Qmult c x) (Qmult d y)).
Proof.
apply/matrixP => i j; rewrite !mxE !big_ord_recl big_ord0 !mxE /= addr0 !q2fD !q2fM.
by case: (i == 0).
Qed.
Lemma v2D a b c d : v2 a b + v2 c d = v2 (Qplus a c) (Qplus b d).
Proof. by apply/matrixP => i j; rewrite !mxE !q2fD; case: ifP. Qed.
Lemma v2_norm a b : norm (v2 a b) = f (qmax (qabs a) (qabs b)).
Proof. by rewrite /norm !big_ord_recl big_ord0 !mxE /= !q2f_abs (max_l (_ : 0 <= f (qabs b))) ?q2f_max // -q2f_abs. Qed.
Lemma v2_eq a b c d : Qeq_bool a c -> Qeq_bool b d -> v2 a b = v2 c d.
Proof. by move=> /(q2f_eq F) h1 /(q2f_eq F) h2; apply/matrixP => i j; rewrite !mxE h1 h2. Qed.
Lemma v20 : v2 (0#1) (0#1) = 0.
Proof. by apply/matrixP => i j; rewrite !mxE q2f0; case: ifP. Qed.
Definition w12 : qsol F 2 1 := QSol Optimal 0 (v2 (1#1) (1#1)) 0 0.
Lemma conv12 : convex (p12 (1#1)).
Proof.
split=> [|x].
  by apply/matrixP => i j; rewrite !mxE; case: (i == 0); case: (j == 0).
rewrite qf_dot dotE !big_ord_recl big_ord0 !mxE !big_ord_recl !big_ord0 !mxE /= !addr0.
move: (x 0 0) (x (lift _ _) 0) => a b.
have -> : f (2#1) = 1 + 1 by rewrite -(q2f1 F) -q2fD; exact: q2f_eq.
rewrite q2f1; have -> : a * ((1 + 1) * a + 1 * b) + b * (1 * a + (1 + 1) * b) = a ^+ 2 + b ^+ 2 + (a + b) ^+ 2 by ring.
by rewrite !addr_ge0 // sqr_ge0.
Qed.
Lemma kkt12 : kkt (p12 (1#1)) (primal w12) (dual w12).
Proof.
split=> [i|/=|i] //; last by have -> : dual w12 i 0 = 0; [rewrite mxE|exact: mult0].
by rewrite mulmx0 addr0 m2v v2D -v20; exact: v2_eq.
Qed.
Theorem C12_refuted : exists (p1 p2 : qp F 2 1) ws, [/\ same_upper p1 p2, convex p1 &
  forall e : env F 2 1, (forall M, ldlt_ok e M) ->
  exists r1 r2 o1 o2, [/\ solve_dense e (dprm false false) 2 (@obj_new F 2 1) p1 ws = Some (r1, o1),
    solve_dense e (dprm false false) 2 (@obj_new F 2 1) p2 ws = Some (r2, o2), code r1 = Optimal & code r2 = DualInfeasible]].
Proof.
exists (p12 (1#1)), (p12 (0#1)), (Some w12).
have su : same_upper (p12 (1#1)) (p12 (0#1)).
  split=> // i j ij; rewrite !mxE; case: eqP => // i0; case: eqP => // j0.
  by move: ij; rewrite j0 leqn0 => /eqP i0'; case: i0; exact: val_inj.
split=> //; first exact: conv12.
move=> e lok; set prm := dprm false false; set s := Scaling 1 (ones F 2) (ones F 1).
have sx i : 0 < s_x s i 0 by rewrite mxE ltr01.
have sy i : 0 < s_y s i 0 by rewrite mxE ltr01.
have sg : 0 < sigma prm by rewrite /= -(q2f0 F) q2f_lt.
have sc : 0 < s_c s := ltr01.
have fx k := C04_solution_fixed k sc sx sy sg (dprm_rho false false) conv12 kkt12.
have ux (a : 'cV[F]_2) : unscale_x s a = a by exact: cmul1.
have uy (a : 'cV[F]_1) : unscale_y s a = a by rewrite /unscale_y /= cmul1 invr1 scale1r.
have uz (a : 'cV[F]_1) : unscale_z s a = a by rewrite /unscale_z /= cinv1 cmul1.
have st k : start (p12 k) s (Some w12) = XYZ (primal w12) (dual w12) (qA (p12 k) *m primal w12).
  by rewrite /start /s /= !cinv1 !cmul1 scale1r.
have ti k : trivially_infeasible (p12 k) = false by apply/negbTE/existsPn => i.
have v1 : verdict e prm (p12 (1#1)) s (Hd prm (p12 (1#1)) s) (start (p12 (1#1)) s (Some w12)) 1 = Some Optimal.
  rewrite /verdict /check_iter; have [-> _ _] := fx 1%N; have [-> _ _] := fx 2%N.
  rewrite ux uy uz st /check_stopping.
  have -> : check_optimal prm (p12 (1#1)) (primal w12) (dual w12) (qA (p12 (1#1)) *m primal w12) => //.
  have [_ gr _] := kkt12; rewrite /check_optimal subrr norm0 addrA gr norm0.
  have ea : 0 <= eps_abs prm by rewrite /= -(q2f0 F) q2f_le.
  have er : 0 <= eps_rel prm by rewrite /= -(q2f0 F) q2f_le.
  by rewrite !addr_ge0 // mulr_ge0 // le_maxr !norm_ge0 ?orbT.
have v2' : verdict e prm (p12 (0#1)) s (Hd prm (p12 (0#1)) s) (start (p12 (0#1)) s (Some w12)) 1 = Some DualInfeasible.
  rewrite /verdict /check_iter.
  have E k : traj prm (p12 (0#1)) s (Hd prm (p12 (0#1)) s) (start (p12 (0#1)) s (Some w12)) k = start (p12 (1#1)) s (Some w12).
    by rewrite -(C12_iterates_partial _ _ _ _ su); have [-> _ _] := fx k.
  rewrite !E ux uy uz st /= !subrr ux uy /check_stopping.
  have -> : check_optimal prm (p12 (0#1)) (v2 (1#1) (1#1)) 0 (r2 (1#1) (0#1) *m v2 (1#1) (1#1)) = false.
    rewrite /check_optimal /= mulmx0 addr0 m2v v2D !v2_norm !norm0 -(q2f0 F) !q2f_max -q2fM -q2fD q2f_le.
    by rewrite andbC.
  have -> : check_primal_inf prm (p12 (0#1)) 0 = false.
    rewrite /check_primal_inf norm0 mulr0; case: (support _ _ _ _ _) => // a.
    by apply/negbTE; rewrite -leNgt le_maxr norm_ge0.
  have -> : check_dual_inf prm (p12 (0#1)) 0 => //.
  rewrite /check_dual_inf /= norm0 mulr0 !mulmx0 norm0 mxE lexx /=; apply/forallP => i.
  by rewrite mxE oppr0.
rewrite /solve_dense /= (run2 _ _ _ (ti _) v1) // (run2 _ _ _ (ti _) v2') //.
by do 4 eexists; split; reflexivity.
Qed.

(** * C13 *)
Definition sp13 (a : option F) : sqp F 1 1 := Sqp (fun _ _ => None) 0 (fun _ _ => a) (fun=> NegInf) (fun=> PosInf).
(** The same object used for a problem with other stored entries: the factorization uses the analysis of
    the first problem, with undefined result; a new object returns. *)
Theorem C13_refuted : exists (prm : params F) (p p' : sqp F 1 1),
  forall e : env F 1 1, (forall M, ldlt_ok e M) ->
  exists r o, [/\ solve_sparse e prm 0 (@obj_new F 1 1) p None = Some (r, o),
    forall fuel, solve_sparse e prm fuel o p' None = None,
    forall fuel, solve_sparse e prm fuel (analyze o) p' None = None &
    solve_sparse e prm 0 (@obj_new F 1 1) p' None <> None].
Proof.
pose prm : params F := Params (f (8#5)) (f (1#10)) (f (1#1000000)) false (f (1#1000)) (f (1#1000)) (f (1#10000)) (f (1#10000))
    (Some 0%N) false 25 false 5 (f (1#1000000)).
exists prm, (sp13 None), (sp13 (Some 1)) => e lok.
have ti a : trivially_infeasible (dense_of (sp13 a)) = false by apply/negbTE/existsPn.
have fresh a : exists r o, solve_sparse e prm 0 (@obj_new F 1 1) (sp13 a) None = Some (r, o) /\
  o_pat o = Some (pattern (fill_sparse prm false (fun _ _ => None) (sp13 a) s1)).
  rewrite /solve_sparse /cur_scale /= /solve_core /ret0 lok ti /=.
  rewrite ?mod0n /=.
  by do 2 eexists; split; first reflexivity.
have [r [o [ho pat]]] := fresh None; exists r, o; split=> //.
- move=> fuel; rewrite /solve_sparse; case: (cur_scale _ _ _ _) => // s.
  have -> : pattern_ok (o_pat o) (fill_sparse prm (o_cmp o) (o_h o) (sp13 (Some 1)) s) = false => //.
  rewrite pat; apply/negbTE/forallPn; exists (lshift 1 0); apply/forallPn; exists (rshift 1 0).
  by rewrite negb_imply /= /pattern /fill_sparse (unsplitK (inl _)) (unsplitK (inr _)).
- move=> fuel; rewrite /solve_sparse; case: (cur_scale _ _ _ _) => // s.
  have -> : pattern_ok (o_pat (analyze o)) (fill_sparse prm (o_cmp (analyze o)) (o_h (analyze o)) (sp13 (Some 1)) s) = false => //.
  rewrite /= pat; apply/negbTE/forallPn; exists (lshift 1 0); apply/forallPn; exists (rshift 1 0).
  by rewrite negb_imply /= /pattern /fill_sparse (unsplitK (inl _)) (unsplitK (inr _)).
Qed.

(** * C14 *)
(** Failed polishing is reported as Optimal, with the default parameters. *)
Definition p14 := p1 (0#1) (0#1) (1#1) (Fi (-1#1)) (Fi (1#1)).
Lemma rho14 P q sc po : rho_vec (dprm sc po) (p1 P q (1#1) (Fi (-1#1)) (Fi (1#1))) s1 = cst (1#10).
Proof.
apply: rho1; rewrite /= -q2fB q2f_abs mul1r.
have -> : em F 5 = f (1#100000) by rewrite /em (q2f_nat F) q2fX -q2fV; exact: q2f_eq.
by rewrite q2f_lt.
Qed.
Lemma ti14 P q : trivially_infeasible (p1 P q (1#1) (Fi (-1#1)) (Fi (1#1))) = false.
Proof. by apply: ti1; rewrite /contradictory /= -q2fB -(q2f0 F) q2f_lt. Qed.
Theorem C14_refuted : exists p : qp F 1 1, forall e : env F 1 1, (forall M, ldlt_ok e M) -> sqrt e 1 = 1 ->
  (forall k (M : 'M[F]_(1 + k)), pol_ok e M = false) ->
  exists r o', solve_dense e (dprm true true) 2 (@obj_new F 1 1) p None = Some (r, o') /\ code r = Optimal.
Proof.
exists p14 => e lok sq pf.
rewrite /solve_dense /cur_scale (scale1 (P := 0#1) (q := 0#1)) //=.
rewrite (@run2 _ _ e (dprm true true) p14 s1 _ None Optimal) //; last 2 first.
- exact: ti14.
- by rewrite start1 -/(Hd (dprm true true) p14 s1) (verdictE (rho := (1#10))) // rho14.
by do 2 eexists; split; first reflexivity.
Qed.

(** * C15 *)
(** min 1e-4 x subject to -1 <= x <= 1, default parameters: reported Optimal with x = -500. *)
Definition p15 := p1 (0#1) (1#10000) (1#1) (Fi (-1#1)) (Fi (1#1)).
Lemma t_hat15 (e : env F 1 1) prm y : LU e p15 y = [::] -> delta prm != 0 ->
  usubmx (t_hat e prm p15 s1 y) = ((polish_iter prm)%:R / delta prm) *: (- qq p15).
Proof.
move=> h d0; have no (a : 'I_(size (LU e p15 y))) : False by case: a; rewrite h.
have E1 : symU (pol_H e p15 s1 y) = 0.
  apply/matrixP => i j; rewrite [RHS]mxE mxE /pol_H scaledP_1.
  case: (split_ordP i) => i' ->; last by case: (no i').
  case: (split_ordP j) => j' ->; last by case: (no j').
  by rewrite !block_mxEul !mxE q2f0; case: ifP.
have E2' (i j : 'I_1) : pol_Hp e prm p15 s1 y (lshift _ i) (lshift _ j) = delta prm *+ (i == j).
  by rewrite /pol_Hp mxE /pol_H scaledP_1 block_mxEul block_mxEul !mxE q2f0 add0r.
have E2 : symU (pol_Hp e prm p15 s1 y) = (delta prm)%:M.
  apply/matrixP => i j; rewrite [RHS]mxE mxE.
  case: (split_ordP i) => i' ->; last by case: (no i').
  case: (split_ordP j) => j' ->; last by case: (no j').
  by rewrite !E2' eq_lshift [j' == i']eq_sym; case: ifP.
have R t : refine prm s1 (e := e) (p := p15) (y := y) t = t + (delta prm)^-1 *: pol_h e p15 s1 y.
  by rewrite /refine E1 E2 mul0mx subr0 invmx_scalar mul_scalar_mx.
have T k : iter k (refine prm s1 (e := e) (p := p15) (y := y)) 0 = (k%:R / delta prm) *: pol_h e p15 s1 y.
  by elim: k => [|k IH]; rewrite ?mul0r ?scale0r // iterS R IH -scalerDl mulrSr mulrDl mul1r.
rewrite /t_hat T linearZ /= /pol_h col_mxKu cmul1 scaleN1r.
by [].
Qed.
Theorem C15_refuted : exists p : qp F 1 1, convex p /\
  forall e : env F 1 1, (forall M, ldlt_ok e M) -> sqrt e 1 = 1 ->
  (forall k (M : 'M[F]_(1 + k)), pol_ok e M) -> 0 <= macheps e ->
  exists r o', [/\ solve_dense e (dprm true true) 2 (@obj_new F 1 1) p None = Some (r, o'), code r = Optimal &
    forall z, ~ approx_kkt p (primal r) (dual r) z (tol_primal (dprm true true) p (primal r) z)
                          (tol_dual (dprm true true) p (primal r) (dual r))].
Proof.
exists p15; split.
  by split; [rewrite /symm cstT|rewrite /= cst0 => x; rewrite /qf mulmx0 mul0mx mxE].
move=> e lok sq pok me; set prm := dprm true true.
rewrite /solve_dense /cur_scale (scale1 (P := 0#1) (q := 1#10000)) //=.
rewrite (@run2 _ _ e prm p15 s1 _ None Optimal) //; last 2 first.
- exact: ti14.
- by rewrite start1 -/(Hd prm p15 s1) (verdictE (rho := (1#10))) // rho14.
do 2 eexists; split; [reflexivity|by []|].
rewrite start1 -/(Hd prm p15 s1) (trajq (rho := (1#10))) ?rho14 //.
set v := iter _ _ _; have vy : v.1.2 = (0#1) by vm_compute.
have yv : it_y (stv v) = cst (0#1) by rewrite -vy.
have e0 : 0 <= 100%:R * macheps e by apply: mulr_ge0; [exact: ler0n|exact: me].
have hL : LU e p15 (it_y (stv v)) = [::].
  rewrite /LU /actL /actU yv cst0; move: (100%:R * macheps e) e0 => c c0.
  have nl (a : pred 'I_1) : (forall i, a i = false) -> [seq i <- enum 'I_1 | a i] = [::].
    by move=> h; rewrite (eq_filter h) filter_pred0.
  have cat0 (s t : seq 'I_1) : s = [::] -> t = [::] -> s ++ t = [::] by move=> -> ->.
  apply: cat0.
  - by apply: nl => i; rewrite mxE oppr_gt0 ltNge c0.
  - by apply: nl => i; rewrite mxE ltNge c0.
have d0 : delta prm != 0 by apply: lt0r_neq0; change (0 < f (1#1000000)); rewrite -(q2f0 F) q2f_lt.
have tt := t_hat15 hL d0.
have px : primal (finish e prm p15 s1 (2%N, stv v, Some Optimal)) = cst (-500#1).
  rewrite /finish /= /polish_qp pok unscale_x1 tt /= (q2f_nat F) -q2f_div cstN cstZ; exact: cst_eq.
move=> z [+ + _ _]; rewrite px => /(_ 0) bz /(_ 0); rewrite /tol_primal.
move: bz; rewrite /between /lo_ok /hi_ok.
change (f (-1#1) <= z 0 0 <= f (1#1) -> `|(cst (1#1) *m cst (-500#1) - z) 0 0| <=
  f (1#1000) + f (1#1000) * Num.max (norm (cst (1#1) *m cst (-500#1))) (norm z) -> False).
clear -z.
rewrite cstM (@cst_eq _ (-500#1)) // cst_norm => /andP[z1 z2].
have nz : norm z <= f (500#1).
  apply/norm_leP; first by rewrite -(q2f0 F) q2f_le.
  move=> i; rewrite [i]ord1 ler_norml -q2fN (le_trans _ z1) ?q2f_le //=.
  by apply: le_trans z2 _; rewrite q2f_le.
rewrite (_ : qabs (-500#1) = (500#1)%Q) // (max_idPl nz) leNgt => /negP; apply.
apply: lt_le_trans (_ : f (499#1) <= _); first by rewrite -q2fM -q2fD q2f_lt.
rewrite mxE [cst _ 0 0]mxE [(- z) 0 0]mxE distrC; apply: le_trans (ler_norm _).
have -> : f (499#1) = f (-1#1) - f (-500#1) by rewrite -q2fB; exact: q2f_eq.
by rewrite ler_add2r.
Qed.
End Scalar.
