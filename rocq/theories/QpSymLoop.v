(** Property C98, continued: stopping tests and the main loop. *)
From mathcomp Require Import all_ssreflect all_fingroup all_algebra.
From mathcomp.algebra_tactics Require Import ring.
From Verif Require Import LinAlg QF QpModel QpSpec QpFacts QpAdmm QpLoop QpSym.
Set Implicit Arguments.
Unset Strict Implicit.
Unset Printing Implicit Defensive.
Import Order.TTheory GRing.Theory Num.Theory.
Local Open Scope ring_scope.

Section Loop.
Variables (F : realFieldType) (n m : nat) (e : env F n m) (prm : params F).
Variables (s : {perm 'I_m}) (b : 'I_m -> bool) (r : {perm 'I_n}) (c : 'I_n -> bool).
Notation qmap := (qmap s b r c).
Notation smap := (smap s r).
Notation vmap := (vmap s b r c).
Notation rmap := (rmap s b r c).
Implicit Types (p : qp F n m) (t : scaling_t F n m).

Lemma unx_map t x : unscale_x (smap t) (sv r c x) = sv r c (unscale_x t x).
Proof. exact: cmul_sv. Qed.
Lemma uny_map t y : unscale_y (smap t) (sv s b y) = sv s b (unscale_y t y).
Proof. by rewrite /unscale_y /= cmul_sv svZ. Qed.
Lemma unz_map t z : unscale_z (smap t) (sv s b z) = sv s b (unscale_z t z).
Proof. by rewrite /unscale_z /= cinv_pv cmul_sv. Qed.
Lemma opt_map p x y z : check_optimal prm (qmap p) (sv r c x) (sv s b y) (sv s b z) = check_optimal prm p x y z.
Proof. by rewrite /check_optimal /= sm_tr !sm_mul -!svN -!svD !sv_norm. Qed.
(** The sum of the test for primal infeasibility. *)
Definition row_ok p (dy : 'cV[F]_m) tol i := ~~ (is_posinf (qu p i) && (tol < dy i 0)) && ~~ (is_neginf (ql p i) && (dy i 0 < - tol)).
Definition row_term p (dy : 'cV[F]_m) i :=
  (if is_posinf (qu p i) then 0 else ext_val (qu p i) * Num.max 0 (dy i 0)) + (if is_neginf (ql p i) then 0 else ext_val (ql p i) * Num.min 0 (dy i 0)).
Lemma supportE p dy tol acc idx :
  support p dy tol acc idx = if all (row_ok p dy tol) idx then Some (acc + \sum_(i <- idx) row_term p dy i) else None.
Proof.
elim: idx acc => [|i idx IH] acc /=; first by rewrite big_nil addr0.
rewrite big_cons /row_ok /row_term; case: (is_posinf (qu p i)) => /=.
  case: ifP => _ //=; case: (is_neginf (ql p i)) => /=; last by rewrite IH addrA add0r.
  by case: ifP => _ //=; rewrite IH !add0r.
case: (is_neginf (ql p i)) => /=; last by rewrite IH !addrA.
by case: ifP => _ //=; rewrite IH addr0 addrA.
Qed.
Lemma all_enum k (P : pred 'I_k) : all P (enum 'I_k) = [forall i, P i].
Proof.
apply/allP/forallP => h i; first by apply: h; rewrite mem_enum.
by move=> _; exact: h.
Qed.
Lemma row_ok_map p dy tol i : row_ok (qmap p) (sv s b dy) tol i = row_ok p dy tol (s i).
Proof.
rewrite /row_ok /= lo_neginf up_posinf mxE; case: (b i); rewrite /sg ?expr1 ?expr0 ?mulN1r ?mul1r // andbC ltr_opp2.
by rewrite ltr_oppr.
Qed.
Lemma row_term_map p dy i : row_term (qmap p) (sv s b dy) i = row_term p dy (s i).
Proof.
rewrite /row_term /= lo_neginf up_posinf mxE /up /lo; case: (b i); rewrite /sg ?expr1 ?expr0 ?mulN1r ?mul1r // !ext_val_neg addrC.
congr (_ + _); case: ifP => _ //; rewrite mulNr -mulrN ?oppr_max ?oppr_min ?oppr0 ?opprK //.
Qed.
Lemma support_map p dy tol : support (qmap p) (sv s b dy) tol 0 (enum 'I_m) = support p dy tol 0 (enum 'I_m).
Proof.
rewrite !supportE !all_enum.
have -> : [forall i, row_ok (qmap p) (sv s b dy) tol i] = [forall i, row_ok p dy tol i].
  apply/forallP/forallP => h i; last by rewrite row_ok_map.
  by have := h ((s^-1)%g i); rewrite row_ok_map permKV.
case: ifP => _ //; congr (Some (_ + _)); rewrite !big_enum /= [RHS](reindex_inj (@perm_inj _ s)).
by apply: eq_bigr => i _; exact: row_term_map.
Qed.
Lemma pinf_map p dy : check_primal_inf prm (qmap p) (sv s b dy) = check_primal_inf prm p dy.
Proof. by rewrite /check_primal_inf sv_norm support_map /= sm_tr sm_mul sv_norm. Qed.
(** Rows that change their sign have a bound. *)
Definition flips_bounded p := forall i, b i -> ~~ (is_neginf (ql p (s i)) && is_posinf (qu p (s i))).
Lemma dinf_map p dx : flips_bounded p -> check_dual_inf prm (qmap p) (sv r c dx) = check_dual_inf prm p dx.
Proof.
move=> fb; rewrite /check_dual_inf sv_norm /= !sm_mul sv_norm sv_dot; congr [&& _, _ & _].
move: (eps_dinf prm * norm dx) (qA p *m dx) => t a.
have E i : (if is_posinf (up (b i) (ql p (s i)) (qu p (s i))) then - t <= sv s b a i 0
   else if is_neginf (lo (b i) (ql p (s i)) (qu p (s i))) then sv s b a i 0 <= t else `|sv s b a i 0| < t) =
  (if is_posinf (qu p (s i)) then - t <= a (s i) 0 else if is_neginf (ql p (s i)) then a (s i) 0 <= t else `|a (s i) 0| < t).
  rewrite lo_neginf up_posinf mxE sg_norml; have := fb i; case: (b i); rewrite /sg ?expr1 ?expr0 ?mulN1r ?mul1r // => /(_ isT).
  by case: (is_neginf _); case: (is_posinf _) => //= _; rewrite ?ler_opp2 // ler_oppl.
apply/forallP/forallP => h i; last by rewrite E.
by have := h ((s^-1)%g i); rewrite E permKV.
Qed.
Lemma check_map p t v v' k : flips_bounded p ->
  check_iter e prm (qmap p) (smap t) (vmap v) (vmap v') k = check_iter e prm p t v v' k.
Proof.
move=> fb; rewrite /check_iter /vmap /= -!svN -!svD !unx_map !uny_map unz_map.
by rewrite /check_stopping opt_map pinf_map dinf_map.
Qed.
Definition lmap (x : nat * xyz F n m * option status) := let: (k, v, rc) := x in (k, vmap v, rc).
Lemma loop_map fuel k p t v rc : symm (qP p) -> good_scaling t -> flips_bounded p -> (no_contra p \/ rc <> None) ->
  main_loop e prm fuel k (qmap p) (smap t) (Hd prm (qmap p) (smap t)) (vmap v) rc = omap lmap (main_loop e prm fuel k p t (Hd prm p t) v rc).
Proof.
move=> h g fb; elim: fuel k v rc => [|fuel IH] k v rc nc /=; case: ifP => // al; case: ifP => // _.
have {}nc : no_contra p by case: nc => //; case: rc al => // x; rewrite orbT.
by rewrite step_map // check_map // IH //; left.
Qed.
End Loop.
