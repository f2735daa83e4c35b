(** Properties C30 and C31: re-use of output objects, residuals and error estimates of polynomial trajectories. *)
From mathcomp Require Import all_ssreflect all_algebra zify.
From mathcomp.algebra_tactics Require Import ring.
From Verif Require Import Calc MeshModel MeshSpec PolyFacts MeshFacts MeshQuad MeshEval MeshProps.
From Verif Require Import SparseModel SparseFacts MeshFunModel MeshFunFacts MeshFunLoops MeshFunDyn MeshFunProps.
Set Implicit Arguments.
Unset Strict Implicit.
Unset Printing Implicit Defensive.
Import Order.TTheory GRing.Theory Num.Theory.
Local Open Scope ring_scope.
Local Arguments muln : simpl never.

(** * C30 *)
Section Reuse.
Variable F : realFieldType.
Variables nx nu nf : nat.
Local Notation nz := (1 + nx + nu)%N.
Variables (fv : 'cV[F]_nz -> nat -> F) (df d2f : 'cV[F]_nz -> smat F).
Variables (Kmin Kmax : nat) (lgr : nat -> seq F * seq F) (kinc : nat -> F -> F -> nat).
Variable m : mesh F.
Local Notation N := (N_colloc m).
Local Notation taus := (all_nodes Kmin Kmax lgr m).
Local Notation ws := (all_weights Kmin Kmax lgr m).
(** Same values: F for the rows below n, Jacobian and Hessian everywhere (stored zeros do not count). *)
Definition same_values (n : nat) (o1 o2 : mval F) : Prop :=
  [/\ forall r, (r < n)%N -> mvF o1 r = mvF o2 r,
      forall r c, val (mvdF o1) r c = val (mvdF o2) r c & forall r c, val (mvd2F o1) r c = val (mvd2F o2) r c].

Theorem C30_eval scale v o1 o2 : mvlam o1 = mvlam o2 ->
  same_values (nf * N) (mesh_eval nf fv df d2f Kmin Kmax lgr m (v 0%N) (v 1%N) (var_x nx v) (var_u nx nu N v) scale o1)
                       (mesh_eval nf fv df d2f Kmin Kmax lgr m (v 0%N) (v 1%N) (var_x nx v) (var_u nx nu N v) scale o2).
Proof.
move=> e; have [_ a1 b1] := evalR nf fv df d2f N taus ws scale v o1; have [_ a2 b2] := evalR nf fv df d2f N taus ws scale v o2.
split=> [r hr|r c|r c]; last 2 first.
- exact: etrans (a1 r c) (esym (a2 r c)).
- by apply: etrans (b1 r c) (esym (etrans (b2 r c) _)); rewrite e.
have [hi [hj ->]] := row_split hr.
by rewrite !C27_value.
Qed.
Theorem C30_integrate v o1 o2 : mvlam o1 = mvlam o2 ->
  same_values nf (mesh_integrate nf fv df d2f Kmin Kmax lgr m (v 0%N) (v 1%N) (var_x nx v) (var_u nx nu N v) o1)
                 (mesh_integrate nf fv df d2f Kmin Kmax lgr m (v 0%N) (v 1%N) (var_x nx v) (var_u nx nu N v) o2).
Proof.
move=> e; have [_ a1 b1] := intR nf fv df d2f N taus ws v o1; have [_ a2 b2] := intR nf fv df d2f N taus ws v o2.
split=> [r hr|r c|r c]; last 2 first.
- exact: etrans (a1 r c) (esym (a2 r c)).
- by apply: etrans (b1 r c) (esym (etrans (b2 r c) _)); rewrite e.
by rewrite !C28_value.
Qed.
End Reuse.

Section Dyn.
Variable F : realFieldType.
Variables nx nu : nat.
Local Notation nz := (1 + nx + nu)%N.
Variables (fv : 'cV[F]_nz -> nat -> F) (df d2f : 'cV[F]_nz -> smat F).
Variables (Kmin Kmax : nat) (lgr : nat -> seq F * seq F) (kinc : nat -> F -> F -> nat).
Variable m : mesh F.
Hypotheses (k0 : (0 < Kmin)%N) (km : (Kmin <= Kmax)%N).
Hypothesis Hl : forall K, (Kmin <= K <= Kmax.+1)%N -> lgr_contract K (lgr K).
Hypothesis rm : reachable Kmin Kmax kinc m.
Hypothesis hN : (\sum_(i < size m) N_colloc_ival m i < uint_mod)%N.
Local Notation N := (N_colloc m).
Local Notation taus := (all_nodes Kmin Kmax lgr m).
Local Notation ws := (all_weights Kmin Kmax lgr m).
Local Notation K := (N_colloc_ival m).
Local Notation zn v i := (@node_arg F nx nu (v 0%N) (v 1%N) (var_x nx v) (var_u nx nu N v) (nth 0 taus i) i).
Local Notation T v := (v 1%N - v 0%N).
Local Notation dy v out := (mesh_dyn fv df d2f Kmin Kmax lgr m (v 0%N) (v 1%N) (var_x nx v) (var_u nx nu N v) out).
(** Time of point a of interval I. *)
Definition t_of (t0 tf : F) (I a : nat) : F := t0 + (tf - t0) * nth 0 (interval_nodes Kmin Kmax lgr m I) a.

Let EN : N = nb K (size m).
Proof. by have [_ h _] := C26_N_colloc_partial m; rewrite h. Qed.
Let mp : is_partition m.
Proof. by have [] := C17_mesh_is_partition k0 km rm. Qed.
Let Hr : all (fun x : nat * F => Kmin <= x.1 <= Kmax.+1)%N m.
Proof. by have [om [os [c e]]] := rm; have [_ r] := run_inv k0 km c e. Qed.

Theorem C30_dyn v o1 o2 : mvlam o1 = mvlam o2 -> same_values (nx * N) (dy v o1) (dy v o2).
Proof.
move=> e.
have E o := dynE fv df d2f lgr k0 km rm hN o v.
have [_ a1 b1] := dynR fv df d2f N taus ws v o1; have [_ a2 b2] := dynR fv df d2f N taus ws v o2.
have A o := addpsE nx (size m) K (interval_weights Kmin Kmax lgr m) (fun i => (interval_diffmat_unscaled lgr m i).1) (fun i => mget (interval_diffmat_unscaled lgr m i).2) (var_x nx v) o.
split=> [r hr|r c|r c].
- have [I [j [k [hI hk ->]]]] := dyn_row hN hr.
  by rewrite !(dyn_val fv df d2f lgr k0 km rm hN).
- rewrite !E; case: (A (foldl (dyn_step fv df d2f N taus ws (v 0%N) (v 1%N) (xs_of nx v) (us_of nx nu N v)) (mprep o1) (iota 0 N))) => _ _ _ ->.
  case: (A (foldl (dyn_step fv df d2f N taus ws (v 0%N) (v 1%N) (xs_of nx v) (us_of nx nu N v)) (mprep o2) (iota 0 N))) => _ _ _ ->.
  by rewrite a1 a2.
- rewrite !E; case: (A (foldl (dyn_step fv df d2f N taus ws (v 0%N) (v 1%N) (xs_of nx v) (us_of nx nu N v)) (mprep o1) (iota 0 N))) => _ -> _ _.
  case: (A (foldl (dyn_step fv df d2f N taus ws (v 0%N) (v 1%N) (xs_of nx v) (us_of nx nu N v)) (mprep o2) (iota 0 N))) => _ -> _ _.
  by rewrite b1 b2 e.
Qed.

(** * C31 *)
Lemma traj_diff (q : {poly F}) t0 tf I (j : 'I_(K I)) : (I < size m)%N -> (size q <= (K I).+1)%N ->
  \sum_(a < (K I).+1) q.[t_of t0 tf I a] * interval_diffmat lgr m I a j = (tf - t0) * q^`().[t_of t0 tf I j].
Proof.
move=> hI sq; have [_ H] := C22_diffmat_intmat Hl k0 km rm hI.
pose p := q \Po ((tf - t0) *: 'X + t0%:P).
have pE x : p.[x] = q.[t0 + (tf - t0) * x] by rewrite /p horner_comp !hornerE addrC.
have sp : (size p <= (K I).+1)%N.
  case: (eqVneq tf t0) => [e|ne]; last by rewrite /p size_comp_affine ?subr_eq0.
  rewrite /p e subrr scale0r add0r comp_polyCr.
  by rewrite (leq_trans (size_polyC_leq1 _)).
have [/rowP/(_ j) e _] := H p sp; rewrite !mxE in e.
transitivity (p^`().[nth 0 (interval_nodes Kmin Kmax lgr m I) j]).
  by rewrite -e; apply: eq_bigr => a _; rewrite !mxE pE.
by have := deriv_comp_affine q (tf - t0) t0 1; rewrite !derivn1 -/p => ->; rewrite expr1 hornerZ horner_comp !hornerE [_ * _ + _]addrC.
Qed.

(** The interpolation property: component k of the trajectory on interval I is the polynomial q I k. *)
Definition interpolates (xs : nat -> nat -> F) (t0 tf : F) (q : nat -> nat -> {poly F}) : Prop :=
  forall I k, (I < size m)%N -> (k < nx)%N -> (size (q I k) <= (K I).+1)%N /\
    forall a, (a <= K I)%N -> (q I k).[t_of t0 tf I a] = xs (N_before m I + a)%N k.

Theorem C31_residual_polynomial v q out : v 0%N != v 1%N -> interpolates (var_x nx v) (v 0%N) (v 1%N) q ->
  (forall r, (r < nx * N)%N -> mvF (dy v out) r = 0) <->
  (forall I j k, (I < size m)%N -> (j < K I)%N -> (k < nx)%N ->
     (q I k)^`().[t_of (v 0%N) (v 1%N) I j] = fv (zn v (N_before m I + j)%N) k).
Proof.
move=> vT hq; have T0 : T v != 0 by rewrite subr_eq0 eq_sym.
have [_ wp _ _ _] := (C21_nodes_weights Hl k0 km rm).2.
have SN : sumn [seq x.1 | x <- m] = N.
  by rewrite EN /nb sumnE big_map (big_nth (0%N, 0)) big_mkord; apply: eq_bigr.
rewrite SN in wp.
have R I (j : 'I_(K I)) k : (I < size m)%N -> (k < nx)%N ->
  mvF (dy v out) (nx * (N_before m I + j) + k) = nth 0 (all_weights Kmin Kmax lgr m) (N_before m I + j) *
    (T v * (fv (zn v (N_before m I + j)%N) k - (q I k)^`().[t_of (v 0%N) (v 1%N) I j])).
  move=> hI hk; have [sq e] := hq I k hI hk.
  rewrite (C29_value fv df d2f k0 km Hl rm hN) //; congr (_ * _); rewrite mulrBr; congr (_ - _).
  by rewrite -traj_diff //; apply: eq_bigr => a _; rewrite e // -ltnS.
have lt I (j : 'I_(K I)) : (I < size m)%N -> (N_before m I + j < N)%N.
  by move=> hI; rewrite -(nbE (ltnW hI)); exact: (row_lt k0 km rm hN).
split=> [h I j k hI hj hk|h r hr].
  have L := lt I (Ordinal hj) hI.
  have := h (nx * (N_before m I + j) + k)%N; rewrite (R I (Ordinal hj)) //= => H.
  have: nth 0 (all_weights Kmin Kmax lgr m) (N_before m I + j) * (T v * (fv (zn v (N_before m I + j)%N) k - (q I k)^`().[t_of (v 0%N) (v 1%N) I j])) = 0.
    apply: H; move: L => /=; move: (N_before m I + j)%N => i L.
    by rewrite -(leq_pmul2l (leq_ltn_trans (leq0n k) hk)) in L; lia.
  by move/eqP; rewrite !mulf_eq0 gt_eqF ?wp // (negbTE T0) subr_eq0 => /eqP.
have [I [j [k [hI hk ->]]]] := dyn_row hN hr.
by rewrite nbE 1?ltnW // R // h // subrr !mulr0.
Qed.

(** Such polynomials always exist: zero residuals mean that the values are those of a polynomial solution. *)
Theorem C31_residual v out : v 0%N != v 1%N ->
  (forall r, (r < nx * N)%N -> mvF (dy v out) r = 0) <->
  exists2 q, interpolates (var_x nx v) (v 0%N) (v 1%N) q &
    forall I j k, (I < size m)%N -> (j < K I)%N -> (k < nx)%N ->
     (q I k)^`().[t_of (v 0%N) (v 1%N) I j] = fv (zn v (N_before m I + j)%N) k.
Proof.
move=> vT; split=> [h|[q hq h]]; last exact/(C31_residual_polynomial _ vT hq).
have T0 : T v != 0 by rewrite subr_eq0 eq_sym.
pose ts I := [seq t_of (v 0%N) (v 1%N) I a | a <- iota 0 (K I).+1].
have nts I a : (a <= K I)%N -> nth 0 (ts I) a = t_of (v 0%N) (v 1%N) I a.
  by move=> ha; rewrite (nth_map 0%N) ?size_iota // nth_iota.
have sts I : size (ts I) = (K I).+1 by rewrite size_map size_iota.
pose q I k := interp (ts I) (fun a => var_x nx v (N_before m I + a) k).
suff hq : interpolates (var_x nx v) (v 0%N) (v 1%N) q.
  by exists q => //; apply/(C31_residual_polynomial out vT hq).
move=> I k hI hk; split; first by rewrite -(sts I); exact: size_interp.
move=> a ha; rewrite -nts // interp_node ?sts //.
rewrite map_inj_in_uniq ?iota_uniq // => a1 a2; rewrite !mem_iota !add0n !ltnS /= => h1 h2.
move/addrI/(mulfI T0); rewrite !(inodes_nth Hl Hr) // => e.
have c := lgr_at Hl Hr hI.
have P x y : (x < y <= K I)%N -> nth 0 (lgr_plus_one lgr (K I)).1 x < nth 0 (lgr_plus_one lgr (K I)).1 y := lp_lt k0 Hr c.
case: (ltngtP a1 a2) => // lt.
  by have := phi_lt mp hI (P a1 a2 _); rewrite e ltxx lt h2 => /(_ isT).
by have := phi_lt mp hI (P a2 a1 _); rewrite e ltxx lt h1 => /(_ isT).
Qed.
End Dyn.

Section Error.
Variables (F : rcfType) (nx nu : nat).
Variables (Kmin Kmax : nat) (lgr : nat -> seq F * seq F) (kinc : nat -> F -> F -> nat) (m : mesh F).
Hypotheses (k0 : (0 < Kmin)%N) (km : (Kmin <= Kmax)%N).
Hypothesis Hl : forall K, (Kmin <= K <= Kmax.+1)%N -> lgr_contract K (lgr K).
Hypothesis rm : reachable Kmin Kmax kinc m.
Variable f : F -> 'cV[F]_nx -> 'cV[F]_nu -> 'cV[F]_nx.
Variables (t0 tf : F) (xfun : F -> 'cV[F]_nx) (ufun : F -> 'cV[F]_nu).
Local Notation K := (N_colloc_ival m).
Local Notation t_ I a := (t_of Kmin Kmax lgr m t0 tf I a).

Lemma foldl_max_ge (x : F) s : x <= foldl Order.max x s /\ forall y, y \in s -> y <= foldl Order.max x s.
Proof.
elim: s x => [|z s IH] x //=; have [h1 h2] := IH (Order.max x z); split.
  by apply: le_trans h1; rewrite le_maxr lexx.
move=> y; rewrite inE => /orP[/eqP ->|/h2 //]; apply: le_trans h1; by rewrite le_maxr lexx orbT.
Qed.
Lemma foldl_max_mem (x : F) s : foldl Order.max x s \in x :: s.
Proof.
elim: s x => [|z s IH] x /=; first by rewrite inE.
have := IH (Order.max x z); rewrite !inE => /orP[/eqP ->|->]; last by rewrite !orbT.
by case: (leP x z); rewrite eqxx ?orbT.
Qed.
Lemma max_coeff0 n (v : 'I_n -> F) : (0 < n)%N -> (forall k, 0 <= v k) -> max_coeff v = 0 <-> forall k, v k = 0.
Proof.
move=> n0 v0; rewrite /max_coeff; set s := [seq v k | k <- enum 'I_n].
have ms k : v k \in s by rewrite map_f // mem_enum.
have ss : s = head 0 s :: behead s.
  have : (0 < size s)%N by rewrite size_map -cardE card_ord.
  by case: (s).
split=> [e k|h].
  apply/eqP; rewrite eq_le v0 andbT -e; have := ms k; rewrite ss inE => /orP[/eqP ->|h] /=.
    by have [] := foldl_max_ge (head 0 s) (behead s).
  by have [_] := foldl_max_ge (head 0 s) (behead s); apply.
have := foldl_max_mem (head 0 s) (behead s); rewrite -ss => /mapP[k _ ->]; exact: h.
Qed.
Lemma norm2_ge0 (x : 'cV[F]_nx) : 0 <= norm2 x. Proof. exact: sqrtr_ge0. Qed.
Lemma norm2_eq0 (x : 'cV[F]_nx) : norm2 x = 0 <-> x = 0.
Proof.
have S0 : 0 <= \sum_k x k 0 ^+ 2 by apply: sumr_ge0 => k _; exact: sqr_ge0.
split=> [/eqP|->]; last first.
  by rewrite /norm2 big1 ?sqrtr0 // => k _; rewrite mxE expr0n.
rewrite sqrtr_eq0 => h; have /eqP : \sum_k x k 0 ^+ 2 = 0 by apply/eqP; rewrite eq_le h S0.
rewrite psumr_eq0 => [/allP H|k _]; last exact: sqr_ge0.
apply/matrixP => k z; rewrite ord1 mxE; have := H k; rewrite mem_index_enum => /(_ isT).
by rewrite sqrf_eq0 => /eqP.
Qed.
Lemma max_coeff_ge0 n (v : 'I_n -> F) : (forall k, 0 <= v k) -> 0 <= max_coeff v.
Proof.
move=> v0; rewrite /max_coeff; set s := [seq v k | k <- enum 'I_n].
have h : forall x, x \in s -> 0 <= x by move=> x /mapP[k _ ->].
case: s h => [//|x s] h /=; apply: h; exact: foldl_max_mem.
Qed.

Let mp : is_partition m.
Proof. by have [] := C17_mesh_is_partition k0 km rm. Qed.
Let Hr : all (fun x : nat * F => Kmin <= x.1 <= Kmax.+1)%N m.
Proof. by have [om [os [c e]]] := rm; have [_ r] := run_inv k0 km c e. Qed.

(** If x(t) runs on interval I through the values of polynomials q_k of degree at most K, then the error estimate of the
    interval is zero exactly if q' = f(t, x, u) at the K collocation points. *)
Theorem C31_dyn_error I (q : 'I_nx -> {poly F}) : t0 != tf -> (I < size m)%N ->
  (forall k, (size (q k) <= (K I).+1)%N) -> (forall k a, (a <= K I)%N -> (q k).[t_ I a] = xfun (t_ I a) k 0) ->
  nth 0 (mesh_dyn_error Kmin Kmax lgr m f t0 tf xfun ufun) I = 0 <->
  forall k j, (j < K I)%N -> (q k)^`().[t_ I j] = f (t_ I j) (xfun (t_ I j)) (ufun (t_ I j)) k 0.
Proof.
move=> tt hI sq hq; rewrite (nth_map 0%N) ?size_iota // nth_iota // add0n /ival_error.
have T0 : tf - t0 != 0 by rewrite subr_eq0 eq_sym.
have K0 : (0 < K I)%N by have := C18_mesh_degrees k0 km rm hI; lia.
set den := 1 + max_coeff _; have d0 : 0 < den.
  by apply: ltr_paddr; [apply: max_coeff_ge0 => k; exact: norm2_ge0|exact: ltr01].
rewrite (max_coeff0 K0); last by move=> k; rewrite divr_ge0 ?norm2_ge0 // ltW.
have [U H] := C22_diffmat_intmat Hl k0 km rm hI.
pose p k := q k \Po ((tf - t0) *: 'X + t0%:P).
have pE k x : (p k).[x] = (q k).[t0 + (tf - t0) * x] by rewrite /p horner_comp !hornerE addrC.
have sp k : (size (p k) <= (K I).+1)%N by rewrite /p size_comp_affine.
have dpE k x : (p k)^`().[x] = (tf - t0) * (q k)^`().[t0 + (tf - t0) * x].
  by have := deriv_comp_affine (q k) (tf - t0) t0 1; rewrite !derivn1 -/(p k) => ->; rewrite expr1 hornerZ horner_comp !hornerE [_ * _ + _]addrC.
pose nd a := nth 0 (interval_nodes Kmin Kmax lgr m I) a.
pose Fm : 'M[F]_(nx, K I) := \matrix_(k, j) f (t_ I j) (xfun (t_ I j)) (ufun (t_ I j)) k 0.
pose Dm : 'M[F]_(nx, K I) := \matrix_(k, j) (q k)^`().[t_ I j].
have IU : interval_intmat lgr m I \in unitmx by rewrite unitmx_inv.
have E k j : (((tf - t0) *: Dm) *m interval_intmat lgr m I) k j = xfun (t_ I j.+1) k 0 - xfun (t_ I 0%N) k 0.
  have [_ /rowP/(_ j)] := H (p k) (sp k); rewrite [RHS]mxE !pE !hq // => <-.
  by rewrite !mxE; apply: eq_bigr => b _; rewrite !mxE dpE.
set M := ival_est _ _ _ _ _ _ _ _ _ _ - _.
have EE : M = (tf - t0) *: ((Fm - Dm) *m interval_intmat lgr m I).
  have -> : M = (\matrix_(k, j) xfun (t_ I 0%N) k 0) + (tf - t0) *: (Fm *m interval_intmat lgr m I) - \matrix_(k, j) xfun (t_ I j.+1) k 0.
    rewrite /M /ival_est; congr (_ + _).
      congr (_ + _); first by apply/matrixP => k j; rewrite !mxE.
      by congr (_ *: (_ *m _)); apply/matrixP => k j; rewrite !mxE.
    by congr (- _); apply/matrixP => k j; rewrite !mxE /ival_t lift0.
  rewrite mulmxBl scalerBr (scalemxAl _ Dm) [_ + _ *: _]addrC -addrA; congr (_ + _).
  by apply/matrixP => k j; rewrite [in RHS]mxE E !mxE opprB.
split=> [h k j hj|h j].
  have Z : M = 0.
    apply/matrixP => k' j'; have := h j'; move/eqP; rewrite mulf_eq0 invr_eq0 (gt_eqF d0) orbF => /eqP/norm2_eq0/matrixP/(_ k' 0).
    by rewrite !mxE.
  move: Z; rewrite EE => /eqP; rewrite scaler_eq0 (negbTE T0) /= => /eqP Z.
  have: Fm - Dm = 0 by rewrite -[LHS](mulmxK IU) Z mul0mx.
  by move/matrixP/(_ k (Ordinal hj)); rewrite !mxE => /eqP; rewrite subr_eq0 => /eqP.
have -> : M = 0.
  rewrite EE (_ : Fm = Dm) ?subrr ?mul0mx ?scaler0 //.
  by apply/matrixP => k b; rewrite !mxE h.
by rewrite (norm2_eq0 _).2 ?mul0r //; apply/matrixP => k z; rewrite !mxE.
Qed.

(** In particular an exact polynomial solution has error estimate zero on every interval. *)
Corollary C31_dyn_error_exact (q : 'I_nx -> {poly F}) : t0 != tf ->
  (forall k, (size (q k) <= Kmin.+1)%N) -> (forall t k, xfun t k 0 = (q k).[t]) ->
  (forall t k, (q k)^`().[t] = f t (xfun t) (ufun t) k 0) ->
  forall I, (I < size m)%N -> nth 0 (mesh_dyn_error Kmin Kmax lgr m f t0 tf xfun ufun) I = 0.
Proof.
move=> tt sq hq h I hI; apply/(C31_dyn_error (q := q)) => //.
by move=> k; apply: leq_trans (sq k) _; have := C18_mesh_degrees k0 km rm hI; lia.
Qed.
End Error.
