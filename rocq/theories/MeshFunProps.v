(** Properties C27-C31: functions evaluated over a mesh and their derivatives. *)
From mathcomp Require Import all_ssreflect all_algebra zify.
From mathcomp.algebra_tactics Require Import ring.
From Verif Require Import Calc MeshModel MeshSpec PolyFacts MeshFacts MeshQuad MeshEval MeshProps.
From Verif Require Import SparseModel SparseFacts MeshFunModel MeshFunFacts MeshFunLoops MeshFunDyn.
Set Implicit Arguments.
Unset Strict Implicit.
Unset Printing Implicit Defensive.
Import Order.TTheory GRing.Theory Num.Theory.
Local Open Scope ring_scope.
Local Arguments muln : simpl never.

Section Spec.
Variable F : realFieldType.
Variables nx nu : nat.
Local Notation nz := (1 + nx + nu)%N.
(** The variables v = [t0, tf, x_0 .. x_N, u_0 .. u_(N-1)] of the mesh functions. *)
Definition var_x (v : nat -> F) (i k : nat) : F := v (2 + nx * i + k)%N.
Definition var_u (N : nat) (v : nat -> F) (i k : nat) : F := v (2 + nx * (N + 1) + nu * i + k)%N.
(** (t_i, x_i, u_i) for a node at tau. *)
Definition node_arg (t0 tf : F) (xs us : nat -> nat -> F) (tau : F) (i : nat) : 'cV[F]_nz :=
  \col_a if a == 0%N :> nat then t0 + (tf - t0) * tau
         else if (a < 1 + nx)%N then xs i (a - 1)%N else us i (a - (1 + nx))%N.
(** df, d2f are the derivatives of the components fv z 0 .. fv z (nf - 1) of a function of z = (t, x, u);
    column nz * j + b of row a of d2f is the second derivative of component j in directions a and b. *)
Definition derivs (nf : nat) (fv : 'cV[F]_nz -> nat -> F) (df d2f : 'cV[F]_nz -> smat F) : Prop :=
  (forall z j (a : 'I_nz), (j < nf)%N -> partial (fun z => fv z j) z a (val (df z) j a)) /\
  (forall z j (a b : 'I_nz), (j < nf)%N -> partial (fun z => val (df z) j a) z b (val (d2f z) a (nz * j + b))).
End Spec.

Section Props.
Variable F : realFieldType.
Variables nx nu nf : nat.
Local Notation nz := (1 + nx + nu)%N.
Variables (fv : 'cV[F]_nz -> nat -> F) (df d2f : 'cV[F]_nz -> smat F).
Variables (Kmin Kmax : nat) (lgr : nat -> seq F * seq F) (kinc : nat -> F -> F -> nat).
Variable m : mesh F.
Local Notation N := (N_colloc m).
Local Notation taus := (all_nodes Kmin Kmax lgr m).
Local Notation ws := (all_weights Kmin Kmax lgr m).
Local Notation zn v i := (@node_arg F nx nu (v 0%N) (v 1%N) (var_x nx v) (var_u nx nu N v) (nth 0 taus i) i).

Lemma znE v i : @zof F nx nu N taus v i = zn v i.
Proof. by []. Qed.
Lemma setn_id (v : nat -> F) c k : setn v c (v c) k = v k.
Proof. by rewrite /setn; case: eqP => [->|]. Qed.
Lemma zn_id v c i : zn (setn v c (v c)) i = zn v i.
Proof. by apply/matrixP => a b; rewrite !mxE /var_x /var_u !setn_id. Qed.
Lemma row_split n r : (r < nf * n)%N -> (r %/ nf < n)%N /\ (r %% nf < nf)%N /\ r = (nf * (r %/ nf) + r %% nf)%N.
Proof.
move=> h; have f0 : (0 < nf)%N by case: nf h => //; rewrite mul0n.
split; first by rewrite ltn_divLR // mulnC.
by split; [rewrite ltn_pmod|rewrite mulnC; exact: divn_eq].
Qed.

Local Notation X0 i := (2 + nx * i)%N.
Local Notation U0 i := (2 + nx * (N + 1) + nu * i)%N.
Local Notation arg i := (argn nx nu (X0 i) (U0 i)).
Local Notation cof i := (cofn nx nu (X0 i) (U0 i) (tau_at taus i)).
Local Notation T v := (v 1%N - v 0%N).
Lemma d_fv v i c j n : derivs n fv df d2f -> (i < N)%N -> (j < n)%N ->
  partialn (fun v => fv (zn v i) j) v c (cof i c * val (df (zn v i)) j (arg i c)).
Proof. by move=> [h1 _] hi hj; apply: (deriv_node (phi := fun z => fv z j)) => // a <-; exact: h1. Qed.
Lemma d_df v i a c j n : derivs n fv df d2f -> (i < N)%N -> (j < n)%N ->
  partialn (fun v => val (df (zn v i)) j (arg i a)) v c (cof i c * val (d2f (zn v i)) (arg i a) (nz * j + arg i c)).
Proof.
move=> [_ h2] hi hj.
have aP := @argn_lt F nx nu _ _ (tau_at taus i) (X0_2 nx i) (U0_X0 nx nu hi) a.
apply: (deriv_node (phi := fun z => val (df z) j (arg i a))) => // b' <-.
exact: (h2 (zn v i) j (Ordinal aP) b').
Qed.
Lemma d_T1 v i c j n : derivs n fv df d2f -> (i < N)%N -> (j < n)%N ->
  partialn (fun v => T v * fv (zn v i) j) v c (dTn F c * fv (zn v i) j + T v * (cof i c * val (df (zn v i)) j (arg i c))).
Proof.
move=> dd hi hj; have := deriv_mul (deriv_T v c) (d_fv v c dd hi hj).
by rewrite zn_id !setn_id.
Qed.
Lemma d_T2 v i a b j n : derivs n fv df d2f -> (i < N)%N -> (j < n)%N ->
  partialn (fun v => dTn F a * fv (zn v i) j + T v * (cof i a * val (df (zn v i)) j (arg i a))) v b
   (T v * (cof i a * cof i b * val (d2f (zn v i)) (arg i a) (nz * j + arg i b)) +
     dTn F a * (cof i b * val (df (zn v i)) j (arg i b)) + dTn F b * (cof i a * val (df (zn v i)) j (arg i a))).
Proof.
move=> dd hi hj; have D1 := deriv_scale (dTn F a) (d_fv v b dd hi hj).
have D2 := deriv_mul (deriv_T v b) (deriv_scale (cof i a) (d_df v a b dd hi hj)).
have := deriv_add D1 D2; rewrite zn_id !setn_id; apply: deriv_eq.
by move: (val _ _ _) (val _ _ _) (val _ _ _) => p q r; ring.
Qed.

(** * C27 *)
Section Eval.
Variables (scale : bool) (out : mval F).
Local Notation ev v := (mesh_eval nf fv df d2f Kmin Kmax lgr m (v 0%N) (v 1%N) (var_x nx v) (var_u nx nu N v) scale out).
Local Notation wt i := (if scale then nth 0 ws i else 1).

Theorem C27_value v i j : (i < N)%N -> (j < nf)%N -> mvF (ev v) (nf * i + j) = wt i * fv (zn v i) j.
Proof. exact: evalF. Qed.

Theorem C27_jacobian v r c : derivs nf fv df d2f -> (r < nf * N)%N ->
  partialn (fun v => mvF (ev v) r) v c (val (mvdF (ev v)) r c).
Proof.
move=> dd hr; have [hi [hj ->]] := row_split hr; set i := (r %/ nf)%N; set j := (r %% nf)%N.
have [_ -> _] := evalR nf fv df d2f N taus ws scale v out.
rewrite -(sum_iota N (fun k => if inr (nf * k) nf (nf * i + j) then wt k * (cof k c * val (df (zn v k)) (nf * i + j - nf * k) (arg k c)) else 0)).
rewrite pick_row // addKn.
apply: (deriv_ext (f := fun s => wt i * fv (zn (setn v c s) i) j)).
  by move=> s; rewrite /= -C27_value.
by apply: deriv_scale; apply: d_fv dd _ _.
Qed.

Theorem C27_hessian v a b : derivs nf fv df d2f ->
  ((a <= b)%N -> hessn (fun v => \sum_(r < nf * N) mvlam out r * mvF (ev v) r) v a b (val (mvd2F (ev v)) a b)) /\
  ((b < a)%N -> val (mvd2F (ev v)) a b = 0).
Proof.
move=> dd; have [_ _ E] := evalR nf fv df d2f N taus ws scale v out.
split=> hab; last first.
  by rewrite E big1 // => i _; rewrite big1 // => j _; rewrite leqNgt hab.
exists (fun w => \sum_(r < nf * N) mvlam out r * val (mvdF (ev w)) r a).
  by move=> w; apply: deriv_sum => r _; apply: deriv_scale; apply: C27_jacobian.
rewrite E hab.
apply: (deriv_ext (f := fun s => \sum_(i < N) \sum_(j < nf) (wt i * mvlam out (nf * i + j)%N * cof i a) * val (df (zn (setn v b s) i)) j (arg i a))).
  move=> s; rewrite (sum_block nf N (fun r => mvlam out r * val (mvdF (ev (setn v b s))) r a)).
  apply: eq_bigr => i _; apply: eq_bigr => j _.
  have [_ -> _] := evalR nf fv df d2f N taus ws scale (setn v b s) out.
  rewrite -(sum_iota N (fun k => if inr (nf * k) nf (nf * i + j) then wt k * (cof k a * val (df (zn (setn v b s) k)) (nf * i + j - nf * k) (arg k a)) else 0)).
  rewrite pick_row // addKn; move: (val _ _ _) => q; ring.
apply: deriv_sum => i _; apply: deriv_sum => j _.
apply: (deriv_eq (d := wt i * mvlam out (nf * i + j)%N * cof i a * (cof i b * val (d2f (zn v i)) (arg i a) (nz * j + arg i b)))); first by rewrite !mulrA.
by apply: deriv_scale; apply: d_df dd _ _.
Qed.
End Eval.

(** * C28 *)
Section Integrate.
Variable out : mval F.
Local Notation it v := (mesh_integrate nf fv df d2f Kmin Kmax lgr m (v 0%N) (v 1%N) (var_x nx v) (var_u nx nu N v) out).

Theorem C28_value v j : (j < nf)%N -> mvF (it v) j = (v 1%N - v 0%N) * \sum_(i < N) nth 0 ws i * fv (zn v i) j.
Proof.
move=> hj; rewrite [LHS]intF // mulr_sumr; apply: eq_bigr => i _; rewrite mulrCA mulrA; congr (_ * _).
Qed.

Theorem C28_jacobian v j c : derivs nf fv df d2f -> (j < nf)%N ->
  partialn (fun v => mvF (it v) j) v c (val (mvdF (it v)) j c).
Proof.
move=> dd hj; have [_ -> _] := intR nf fv df d2f N taus ws v out; rewrite inrE /= add0n hj.
apply: (deriv_ext (f := fun s => \sum_(i < N) nth 0 ws i * (T (setn v c s) * fv (zn (setn v c s) i) j))).
  by move=> s; rewrite C28_value // mulr_sumr; apply: eq_bigr => i _; rewrite mulrCA.
by apply: deriv_sum => i _; apply: deriv_scale; apply: d_T1 dd _ _.
Qed.
Theorem C28_hessian v a b : derivs nf fv df d2f ->
  ((a <= b)%N -> hessn (fun v => \sum_(r < nf) mvlam out r * mvF (it v) r) v a b (val (mvd2F (it v)) a b)) /\
  ((b < a)%N -> val (mvd2F (it v)) a b = 0).
Proof.
move=> dd; have [_ _ E] := intR nf fv df d2f N taus ws v out.
split=> hab; last first.
  by rewrite E big1 // => i _; rewrite big1 // => j _; rewrite leqNgt hab.
exists (fun w => \sum_(r < nf) mvlam out r * val (mvdF (it w)) r a).
  by move=> w; apply: deriv_sum => r _; apply: deriv_scale; apply: C28_jacobian.
rewrite E hab exchange_big.
apply: (deriv_ext (f := fun s => \sum_(j < nf) \sum_(i < N) (nth 0 ws i * mvlam out j) *
   (dTn F a * fv (zn (setn v b s) i) j + T (setn v b s) * (cof i a * val (df (zn (setn v b s) i)) j (arg i a))))).
  move=> s; apply: eq_bigr => j _.
  have [_ -> _] := intR nf fv df d2f N taus ws (setn v b s) out; rewrite inrE /= add0n ltn_ord mulr_sumr.
  by apply: eq_bigr => i _; rewrite [RHS]mulrCA [RHS]mulrA.
by apply: deriv_sum => j _; apply: deriv_sum => i _; apply: deriv_scale; apply: d_T2 dd _ _.
Qed.

(** For integrands that are polynomials in t along the trajectory the result is the exact integral. *)
Theorem C28_exact v j (p : {poly F}) : (0 < Kmin)%N -> (Kmin <= Kmax)%N ->
  (forall K, (Kmin <= K <= Kmax.+1)%N -> lgr_contract K (lgr K)) -> reachable Kmin Kmax kinc m ->
  (\sum_(i < size m) N_colloc_ival m i < uint_mod)%N -> (j < nf)%N -> (size p <= (2 * Kmin).-1)%N ->
  (forall i, (i < N)%N -> fv (zn v i) j = p.[v 0%N + (v 1%N - v 0%N) * nth 0 taus i]) ->
  mvF (it v) j = integ p (v 0%N) (v 1%N).
Proof.
move=> k0 km Hl rm hN hj sp h; rewrite C28_value //.
have [EN] := C26_N_colloc_partial m; move/(_ hN) => EN' _.
have SN : sumn [seq x.1 | x <- m] = N.
  rewrite EN' sumnE big_map (big_nth (0%N, 0)) big_mkord; exact: eq_bigr.
have [_ [_ _ w0 _ Q]] := C21_nodes_weights Hl k0 km rm; rewrite SN in w0 Q.
case: (eqVneq (T v) 0) => [t0|t0].
  by rewrite t0 mul0r /integ; move/eqP: t0; rewrite subr_eq0 => /eqP ->; rewrite subrr.
have := Q (p \Po (T v *: 'X + (v 0%N)%:P)); rewrite size_comp_affine // => /(_ sp).
rewrite big_ord_recr /= w0 mul0r addr0 => e.
have -> : integ p (v 0%N) (v 1%N) = T v * integ (p \Po (T v *: 'X + (v 0%N)%:P)) 0 1.
  by rewrite integ_affine mulr0 add0r mulr1 subrK.
rewrite -e; congr (_ * _); apply: eq_bigr => i _; congr (_ * _).
by rewrite h // horner_comp !hornerE addrC.
Qed.
End Integrate.
End Props.

(** * C29 *)
Section DynProps.
Variable F : realFieldType.
Variables nx nu : nat.
Local Notation nz := (1 + nx + nu)%N.
Variables (fv : 'cV[F]_nz -> nat -> F) (df d2f : 'cV[F]_nz -> smat F).
Variables (Kmin Kmax : nat) (lgr : nat -> seq F * seq F) (kinc : nat -> F -> F -> nat).
Variable m : mesh F.
Hypotheses (k0 : (0 < Kmin)%N) (km : (Kmin <= Kmax)%N).
Hypothesis Hl : forall K, (Kmin <= K <= Kmax.+1)%N -> lgr_contract K (lgr K).
Hypothesis rm : reachable Kmin Kmax kinc m.
Hypothesis hN : (\sum_(i < size m) N_colloc_ival m i < uint_mod)%N.
Local Notation N := (N_colloc m).
Local Notation taus := (all_nodes Kmin Kmax lgr m).
Local Notation ws := (all_weights Kmin Kmax lgr m).
Local Notation K := (N_colloc_ival m).
Local Notation zn v i := (@node_arg F nx nu (v 0%N) (v 1%N) (var_x nx v) (var_u nx nu N v) (nth 0 taus i) i).
Local Notation T v := (v 1%N - v 0%N).
Local Notation X0 i := (2 + nx * i)%N.
Local Notation U0 i := (2 + nx * (N + 1) + nu * i)%N.
Local Notation arg i := (argn nx nu (X0 i) (U0 i)).
Local Notation cof i := (cofn nx nu (X0 i) (U0 i) (tau_at taus i)).
Variable out : mval F.
Local Notation dy v := (mesh_dyn fv df d2f Kmin Kmax lgr m (v 0%N) (v 1%N) (var_x nx v) (var_u nx nu N v) out).

Let mp : is_partition m.
Proof. by have [] := C17_mesh_is_partition k0 km rm. Qed.
Let Hr : all (fun x : nat * F => Kmin <= x.1 <= Kmax.+1)%N m.
Proof. by have [om [os [c e]]] := rm; have [_ r] := run_inv k0 km c e. Qed.
Let m0 : (0 < size m)%N := size_m0 mp.
Let K0 I : (I < size m)%N -> (0 < K I)%N.
Proof. by move=> h; have := C18_mesh_degrees k0 km rm h; lia. Qed.
Let EN : N = nb K (size m).
Proof. by have [_ h _] := C26_N_colloc_partial m; rewrite h. Qed.
Lemma nbE I : (I <= size m)%N -> nb K I = N_before m I.
Proof.
elim: I => [|I IH] h; first by rewrite /nb big_ord0 /N_before take0.
by rewrite nbS IH 1?ltnW // /N_before (take_nth (0%N, 0)) // -cats1 map_cat sumn_cat /= addn0.
Qed.
Lemma weights_at I j : (I < size m)%N -> (j < K I)%N -> nth 0 ws (nb K I + j) = nth 0 (interval_weights Kmin Kmax lgr m I) j.
Proof.
move=> h hj; rewrite nbE 1?ltnW // /all_weights nth_flatten.
have hn : (j < n_take m I)%N by rewrite /n_take; case: ifP => _ //; apply: leqW.
have -> : shape [seq take (n_take m i) (interval_weights Kmin Kmax lgr m i) | i <- iota 0 (size m)]
  = [seq n_take m i | i <- iota 0 (size m)].
  by rewrite /shape -map_comp; apply/eq_in_map => i; rewrite mem_iota add0n => hi /=; exact: (size_wseg Hl Hr).
set sh := [seq n_take m i | i <- iota 0 (size m)].
have ssh : size sh = size m by rewrite size_map size_iota.
have -> : (N_before m I + j)%N = flatten_index sh I j by rewrite /flatten_index (N_before_shape k0 Hr).
have nsh : nth 0%N sh I = n_take m I by rewrite (nth_map 0%N) ?size_iota // nth_iota.
rewrite flatten_indexKl ?flatten_indexKr ?nsh ?ssh //.
by rewrite (nth_map 0%N) ?size_iota // nth_iota // add0n nth_take.
Qed.

Local Notation cf I a j := (coef (interval_weights Kmin Kmax lgr m) (fun i => (interval_diffmat_unscaled lgr m i).1)
    (fun i => mget (interval_diffmat_unscaled lgr m i).2) I a j).
Lemma cfE I (a : 'I_(K I).+1) (j : 'I_(K I)) : (I < size m)%N -> cf I a j = - nth 0 ws (nb K I + j) * interval_diffmat lgr m I a j.
Proof.
move=> h; rewrite /coef weights_at // /mget !valK /interval_diffmat [X in _ = _ * X]mxE /= !mulrA.
by [].
Qed.
Lemma dynE v : dy v = foldl (addp nx K (interval_weights Kmin Kmax lgr m) (fun i => (interval_diffmat_unscaled lgr m i).1)
    (fun i => mget (interval_diffmat_unscaled lgr m i).2) (var_x nx v))
  (foldl (dyn_step fv df d2f N taus ws (v 0%N) (v 1%N) (xs_of nx v) (us_of nx nu N v)) (mprep out) (iota 0 N)) (dl K (size m)).
Proof. exact: dyn2E. Qed.
Lemma dyn_lam v : mvlam (dy v) = mvlam out.
Proof. by rewrite dynE; have [-> _ _ _] := addpsE nx (size m) K (interval_weights Kmin Kmax lgr m) (fun i => (interval_diffmat_unscaled lgr m i).1) (fun i => mget (interval_diffmat_unscaled lgr m i).2) (var_x nx v) (foldl (dyn_step fv df d2f N taus ws (v 0%N) (v 1%N) (xs_of nx v) (us_of nx nu N v)) (mprep out) (iota 0 N)); have [-> _ _] := dynR fv df d2f N taus ws v out. Qed.

Local Notation dn v := (foldl (dyn_step fv df d2f N taus ws (v 0%N) (v 1%N) (xs_of nx v) (us_of nx nu N v)) (mprep out) (iota 0 N)).
Lemma pick_ord nf n k j (g : nat -> F) : (k < n)%N -> (j < nf)%N ->
  \sum_(i < n) (if inr (nf * i) nf (nf * k + j) then g i else 0) = g k.
Proof. by move=> hk hj; rewrite -(pick_row g hk hj) (sum_iota n (fun i => if inr (nf * i) nf (nf * k + j) then g i else 0)). Qed.
Lemma dyn_val v I (j : 'I_(K I)) k : (I < size m)%N -> (k < nx)%N ->
  mvF (dy v) (nx * (nb K I + j) + k) = nth 0 ws (nb K I + j) * (T v * fv (zn v (nb K I + j)) k) +
     \sum_(a < (K I).+1) cf I a j * var_x nx v (nb K I + a) k.
Proof.
move=> hI hk; rewrite dynE.
have [_ _ -> _] := addpsE nx (size m) K (interval_weights Kmin Kmax lgr m) (fun i => (interval_diffmat_unscaled lgr m i).1) (fun i => mget (interval_diffmat_unscaled lgr m i).2) (var_x nx v) (dn v).
have hN' : (nb K I + j < N)%N by rewrite EN; have := nb_le K hI; rewrite nbS; have := ltn_ord j; lia.
rewrite dynF; congr (_ + _).
  rewrite (pick_ord (fun i => w_at ws i * T v * fv (zof nx nu N taus v i) (nx * (nb K I + j) + k - nx * i)%N)) // addKn -mulrA.
  by [].
rewrite (pick2 (fun I' a j' => cf I' a j' * var_x nx v (nb K I' + a) (nx * (nb K I + j) + k - nx * (nb K I' + j'))%N)) // addKn.
by [].
Qed.

Theorem C29_value v I (j : 'I_(K I)) k : (I < size m)%N -> (k < nx)%N ->
  let i := (N_before m I + j)%N in
  mvF (dy v) (nx * i + k) = nth 0 ws i *
    ((v 1%N - v 0%N) * fv (zn v i) k - \sum_(a < (K I).+1) var_x nx v (N_before m I + a) k * interval_diffmat lgr m I a j).
Proof.
move=> hI hk /=; rewrite -nbE 1?ltnW // dyn_val // mulrBr; congr (_ + _).
rewrite mulr_sumr -sumrN; apply: eq_bigr => a _; rewrite cfE //.
by rewrite !mulNr mulrAC mulrA.
Qed.

Lemma row_lt I (j : 'I_(K I)) : (I < size m)%N -> (nb K I + j < N)%N.
Proof. by move=> hI; rewrite EN; have := nb_le K hI; rewrite nbS; have := ltn_ord j; lia. Qed.
Local Notation jacT v i w j c := (w * (dTn F c * fv (zn v i) j + T v * (cof i c * val (df (zn v i)) j (arg i c)))).
Lemma dyn_jac v I (j : 'I_(K I)) k c : (I < size m)%N -> (k < nx)%N ->
  val (mvdF (dy v)) (nx * (nb K I + j) + k) c = jacT v (nb K I + j)%N (nth 0 ws (nb K I + j)) k c +
     \sum_(a < (K I).+1) (if (2 + nx * (nb K I + a) + k == c)%N then cf I a j else 0).
Proof.
move=> hI hk; rewrite dynE.
have [_ _ _ ->] := addpsE nx (size m) K (interval_weights Kmin Kmax lgr m) (fun i => (interval_diffmat_unscaled lgr m i).1) (fun i => mget (interval_diffmat_unscaled lgr m i).2) (var_x nx v) (dn v).
have [_ -> _] := dynR fv df d2f N taus ws v out; congr (_ + _).
  rewrite (pick_ord (fun i => jacT v i (w_at ws i) (nx * (nb K I + j) + k - nx * i)%N c)) ?row_lt // addKn.
  by [].
transitivity (\sum_(a < (K I).+1) (if (2 + nx * (nb K I + a) + (nx * (nb K I + j) + k - nx * (nb K I + j)) == c)%N then cf I a j else 0)); last first.
  by apply: eq_bigr => a _; rewrite addKn.
rewrite -(@pick2 F nx (size m) K I j k (fun I' a j' => if (2 + nx * (nb K I' + a) + (nx * (nb K I + j) + k - nx * (nb K I' + j')) == c)%N then cf I' a j' else 0)) //.
by apply: eq_bigr => I' _; apply: eq_bigr => a _; apply: eq_bigr => j' _; case: inr.
Qed.
Lemma dyn_row r : (r < nx * N)%N -> exists I (j : 'I_(K I)) k, [/\ (I < size m)%N, (k < nx)%N & r = (nx * (nb K I + j) + k)%N].
Proof.
move=> hr; have [hi [hk e]] := row_split hr.
have [I [j [hI hj ej]]] := nb_find EN hi.
by exists I, (Ordinal hj), (r %% nx)%N; split=> //=; rewrite -ej.
Qed.
Lemma d_lin v I (j : 'I_(K I)) k c : 
  partialn (fun v => \sum_(a < (K I).+1) cf I a j * var_x nx v (nb K I + a) k) v c
     (\sum_(a < (K I).+1) (if (2 + nx * (nb K I + a) + k == c)%N then cf I a j else 0)).
Proof.
apply: deriv_sum => a _; apply: (deriv_eq (d := cf I a j * (2 + nx * (nb K I + a) + k == c)%N%:R)).
  by case: eqP => _; rewrite ?mulr1 ?mulr0.
apply: deriv_scale; rewrite /var_x /setn; case: (_ == c)%N; [exact: deriv_id|exact: deriv_const].
Qed.

Theorem C29_jacobian v r c : derivs nx fv df d2f -> (r < nx * N)%N ->
  partialn (fun v => mvF (dy v) r) v c (val (mvdF (dy v)) r c).
Proof.
move=> dd hr; have [I [j [k [hI hk ->]]]] := dyn_row hr; rewrite dyn_jac //.
apply: (deriv_ext (f := fun s => nth 0 ws (nb K I + j) * (T (setn v c s) * fv (zn (setn v c s) (nb K I + j)) k) +
   \sum_(a < (K I).+1) cf I a j * var_x nx (setn v c s) (nb K I + a) k)).
  by move=> s; rewrite dyn_val.
by apply: deriv_add; [apply: deriv_scale; apply: d_T1 dd _ _ => //; apply: row_lt|exact: d_lin].
Qed.

Theorem C29_hessian v a b : derivs nx fv df d2f ->
  ((a <= b)%N -> hessn (fun v => \sum_(r < nx * N) mvlam out r * mvF (dy v) r) v a b (val (mvd2F (dy v)) a b)) /\
  ((b < a)%N -> val (mvd2F (dy v)) a b = 0).
Proof.
move=> dd.
have E w : mvd2F (dy w) = mvd2F (dn w).
  by rewrite dynE; have [_ -> _ _] := addpsE nx (size m) K (interval_weights Kmin Kmax lgr m) (fun i => (interval_diffmat_unscaled lgr m i).1) (fun i => mget (interval_diffmat_unscaled lgr m i).2) (var_x nx w) (dn w).
have [_ _ E2] := dynR fv df d2f N taus ws v out.
rewrite E; split=> hab; last first.
  by rewrite E2 big1 // => i _; rewrite big1 // => j _; rewrite leqNgt hab.
exists (fun w => \sum_(r < nx * N) mvlam out r * val (mvdF (dy w)) r a).
  by move=> w; apply: deriv_sum => r _; apply: deriv_scale; apply: C29_jacobian.
rewrite E2 hab.
pose L i k := \sum_(r < nx * N) (if r == (nx * i + k)%N :> nat then val (mvdF (dy v)) r a - jacT v i (nth 0 ws i) k a else 0).
have HL w i k : (i < N)%N -> (k < nx)%N -> val (mvdF (dy w)) (nx * i + k) a = nth 0 ws i * (dTn F a * fv (zn w i) k + T w * (cof i a * val (df (zn w i)) k (arg i a))) + L i k.
  move=> hi hk; have hr : (nx * i + k < nx * N)%N by rewrite -(leq_pmul2l (leq_ltn_trans (leq0n k) hk)) in hi; lia.
  rewrite /L (bigD1 (Ordinal hr)) //= eqxx [X in _ + (_ + X)]big1 ?addr0; last by move=> r; rewrite -val_eqE /= => /negbTE ->.
  have [I [j [hI hj ej]]] := nb_find EN hi.
  by rewrite ej !(@dyn_jac _ I (Ordinal hj)) // [X in _ = _ + X]addrAC subrr add0r.
apply: (deriv_ext (f := fun s => \sum_(i < N) \sum_(j < nx) ((nth 0 ws i * mvlam out (nx * i + j)%N) *
   (dTn F a * fv (zn (setn v b s) i) j + T (setn v b s) * (cof i a * val (df (zn (setn v b s) i)) j (arg i a))) + mvlam out (nx * i + j)%N * L i j))).
  move=> s; rewrite (sum_block nx N (fun r => mvlam out r * val (mvdF (dy (setn v b s))) r a)).
  by apply: eq_bigr => i _; apply: eq_bigr => j _; rewrite HL // [RHS]mulrDr; congr (_ + _); rewrite [RHS]mulrCA [RHS]mulrA.
apply: deriv_sum => i _; apply: deriv_sum => j _; rewrite -[X in deriv _ _ X]addr0.
by apply: deriv_add; [apply: deriv_scale; apply: d_T2 dd _ _|exact: deriv_const].
Qed.
End DynProps.
