(** Facts about the quadratic program of an optimal control problem: entries of the matrices row by row. *)
From mathcomp Require Import all_ssreflect all_algebra zify.
From mathcomp.algebra_tactics Require Import ring.
From Verif Require Import Calc QpModel QpSpec MeshModel MeshSpec MeshFacts MeshQuad MeshEval MeshProps.
From Verif Require Import SparseModel SparseFacts MeshFunModel MeshFunFacts MeshFunLoops MeshFunDyn MeshFunProps NlpModel NlpFacts NlpProps OqpModel.
Set Implicit Arguments.
Unset Strict Implicit.
Unset Printing Implicit Defensive.
Import Order.TTheory GRing.Theory Num.Theory.
Local Open Scope ring_scope.
Local Arguments muln : simpl never.
Local Arguments bexec : simpl never.
Local Arguments interval_diffmat_unscaled : simpl never.

Section Gen.
(** A step of a loop that alone determines an observation. *)
Lemma fold_pick (T : eqType) (St V : Type) (step : St -> T -> St) (obs : St -> V) (l : seq T) x0 s : uniq l -> x0 \in l ->
  (forall s x, x \in l -> x != x0 -> obs (step s x) = obs s) ->
  exists2 s', obs s' = obs s & obs (foldl step s l) = obs (step s' x0).
Proof.
elim: l s => [//|x l IH] s /= /andP[xl ul]; rewrite inE; case: (eqVneq x0 x) => [e _|ne /= xi] h.
  exists s => //; rewrite -e; have : forall y, y \in l -> forall s', obs (step s' y) = obs s'.
    by move=> y yl s'; apply: h; [rewrite inE yl orbT|apply: contraNneq xl => e'; rewrite -e -e'].
  by elim: l {IH xl ul h} (step s x0) => //= y l IH s' h; rewrite IH ?h ?mem_head // => w wl; apply: h; rewrite inE wl orbT.
have h' s' y : y \in l -> y != x0 -> obs (step s' y) = obs s' by move=> yl; apply: h; rewrite inE yl orbT.
have [s' e1 e2] := IH (step s x) ul xi h'.
by exists s' => //; rewrite e1 h ?mem_head // eq_sym.
Qed.
Lemma fold_keep (T : eqType) (St V : Type) (step : St -> T -> St) (obs : St -> V) (l : seq T) s :
  (forall s x, x \in l -> obs (step s x) = obs s) -> obs (foldl step s l) = obs s.
Proof.
elim: l s => //= x l IH s h; rewrite IH ?h ?mem_head // => s' y yl; apply: h; by rewrite inE yl orbT.
Qed.
Variable F : realFieldType.
Lemma sum_in n a k (g z : nat -> F) : (a + k <= n)%N ->
  \sum_(c < n) (if inr a k c then g (c - a)%N else 0) * z c = \sum_(b < k) g b * z (a + b)%N.
Proof.
move=> h; have -> : n = (a + k + (n - a - k))%N by lia.
rewrite !big_split_ord /= big1 ?add0r => [|c _]; last first.
  by rewrite /inr (_ : (_ <= _)%N = false) ?mul0r //; have := ltn_ord c; lia.
rewrite [X in _ + X]big1 ?addr0 => [|c _]; last first.
  by rewrite /inr (_ : (_ && _) = false) ?mul0r //; lia.
by apply: eq_bigr => c _; rewrite /inr leq_addr ltn_add2l ltn_ord addKn.
Qed.
Lemma sum_at n a v (z : nat -> F) : (a < n)%N -> \sum_(c < n) (if a == c :> nat then v else 0) * z c = v * z a.
Proof.
move=> h; rewrite (bigD1 (Ordinal h)) //= eqxx big1 ?addr0 // => c; rewrite -val_eqE /= eq_sym => /negbTE ->.
by rewrite mul0r.
Qed.
End Gen.

Section Dyn.
Variable F : realFieldType.
Variables Nx Nu : nat.
Variables (Kmin Kmax : nat) (lgr : nat -> seq F * seq F) (kinc : nat -> F -> F -> nat) (m : mesh F).
Hypotheses (k0 : (0 < Kmin)%N) (km : (Kmin <= Kmax)%N).
Hypothesis rm : reachable Kmin Kmax kinc m.
Hypothesis hN : (\sum_(i < size m) N_colloc_ival m i < uint_mod)%N.
Local Notation N := (N_colloc m).
Local Notation K := (N_colloc_ival m).
Local Notation nb := (nb K).
Let EN : N = nb (size m).
Proof. by have [_ h _] := C26_N_colloc_partial m; rewrite h. Qed.
Variables (X U : Type) (comm : bool) (ad : (nat -> F) -> nat -> nat -> F).
Variables (f : F -> X -> U -> nat -> F) (df : F -> X -> U -> smat F).
Variables (xl : F -> X) (dxl : F -> nat -> F) (ul : F -> U) (tf : F).
Local Notation point := (dyn_point Nx Nu Kmin Kmax lgr m comm ad f df xl dxl ul tf).
Local Notation dyn := (oqp_dyn Nx Nu Kmin Kmax lgr m comm ad f df xl dxl ul tf).
Local Notation t_ I i := (0 + (tf - 0) * nth 0 (interval_nodes Kmin Kmax lgr m I) i).

(** The two loops as one. *)
Definition points : seq (nat * nat) := flatten [seq [seq (I, i) | i <- iota 0 (K I)] | I <- iota 0 (size m)].
Lemma dyn_points s : dyn s = foldl (fun s x => point x.1 (nb x.1) s x.2)
  (Qpst (oP s) (oq s) (zero_rows (qdcon_L Nx m) (oA s)) (ol s) (ou s) (w_cr s) (w_int s)) points.
Proof using Type.
rewrite /oqp_dyn /points; move: (Qpst _ _ _ _ _ _ _) => s0.
suff G n : foldl (fun (sM : qpst F * nat) I => (foldl (point I sM.2) sM.1 (iota 0 (K I)), (sM.2 + K I)%N)) (s0, 0%N) (iota 0 n) =
  (foldl (fun s x => point x.1 (nb x.1) s x.2) s0 (flatten [seq [seq (I, i) | i <- iota 0 (K I)] | I <- iota 0 n]), nb n).
  by rewrite G.
elim: n => [|n IH]; first by rewrite /MeshFunDyn.nb big_ord0.
rewrite -addn1 iotaD foldl_cat IH add0n map_cat flatten_cat foldl_cat /= cats0 addn1 nbS; congr (_, _).
by elim: (iota 0 (K n)) (foldl _ s0 _) => //= i l IHl s1; rewrite IHl.
Qed.
Lemma mem_points I i : ((I, i) \in points) = (I < size m)%N && (i < K I)%N.
Proof using Type.
apply/flatten_mapP/andP => [[I']|[h1 h2]].
  by rewrite mem_iota => /andP[_ h1] /mapP[i']; rewrite mem_iota => /andP[_ h2] [-> ->].
by exists I; [rewrite mem_iota|apply/mapP; exists i => //; rewrite mem_iota].
Qed.
Lemma uniq_points : uniq points.
Proof using Type.
rewrite /points; elim: (size m) => // n IH; rewrite -addn1 iotaD map_cat flatten_cat cat_uniq IH /= cats0 add0n.
apply/andP; split; last by rewrite map_inj_uniq ?iota_uniq // => i j [].
apply/hasPn => -[I i] /mapP[i' _ [-> ->]]; apply/negP => /flatten_mapP[I']; rewrite mem_iota => /andP[_ h] /mapP[i'' _ [e]].
by move: h; rewrite e ltnn.
Qed.

Lemma contrib_rows (o : bop F) r c : ~~ inr (b_r o) (rows (b_s o)) r -> contrib o r c = 0.
Proof using Type. by rewrite /contrib /inb /inr => /negbTE ->. Qed.
(** What a point adds to its rows of A. *)
Definition point_add (I i k c : nat) : F :=
  let t := t_ I i in let n := (nb I + i)%N in let D := df t (xl t) (ul t) in
  tf * (if inr (Nx * n) Nx c then val D k (1 + (c - Nx * n)) else 0) +
  tf * (if inr (Nx * (N + 1) + Nu * n) Nu c then val D k (1 + Nx + (c - (Nx * (N + 1) + Nu * n))) else 0) +
  (if comm then 0 else - tf / 2%:R * (if inr (Nx * n) Nx c then ad (fun k => f t (xl t) (ul t) k + dxl t k) k (c - Nx * n) else 0)) -
  \sum_(j < (K I).+1) (if (Nx * (nb I + j) + k == c)%N then (interval_diffmat_unscaled lgr m I).1 * mget (interval_diffmat_unscaled lgr m I).2 j i else 0).
Lemma pointE I i s r c : val (oA (point I (nb I) s i)) r c = val (oA s) r c +
  if inr (Nx * (nb I + i)) Nx r then point_add I i (r - Nx * (nb I + i)) c else 0.
Proof using Type.
rewrite /point /=.
set A1 := bexec _ _; set A2 := (if comm then A1 else _); set h := (fun (A : smat F) j => _).
have G n A : val (foldl h A (iota 0 n)) r c = val A r c + \sum_(j < n) (if inr (Nx * (nb I + i)) Nx r && (Nx * (nb I + j) + (r - Nx * (nb I + i)) == c)%N
   then - ((interval_diffmat_unscaled lgr m I).1 * mget (interval_diffmat_unscaled lgr m I).2 j i) else 0).
  elim: n => [|n IH]; first by rewrite big_ord0 addr0.
  rewrite -addn1 iotaD foldl_cat add0n /= {1}/h add_identityE IH addn1 big_ord_recr /= addrA; congr (_ + _).
  by rewrite !(mulnC _ Nx) /inr.
have E2 : val A2 r c = val A1 r c + (if comm then 0 else if inr (Nx * (nb I + i)) Nx r && inr (Nx * (nb I + i)) Nx c then
   - tf / 2%:R * ad (fun k => f (t_ I i) (xl (t_ I i)) (ul (t_ I i)) k + dxl (t_ I i) k) (r - Nx * (nb I + i)) (c - Nx * (nb I + i)) else 0).
  rewrite /A2; case: comm; rewrite ?addr0 // val_block_add /inb /srcval /= andbT !(mulnC _ Nx).
  by rewrite -!inrE.
rewrite G E2 /A1 val_bexec !big_cons big_nil addr0 !contribB !andbT !(mulnC _ Nx) (mulnC _ Nu) /qxvar_L.
rewrite -!addrA; congr (_ + _); rewrite ?(addn1 (K I)); case: (inr (Nx * _) _ r) => /=; last by rewrite big1 ?if_same ?addr0.
rewrite /point_add add0n !addrA; congr (_ + _ + _ + _).
- by case: ifP => _; rewrite ?mulr0.
- by case: ifP => _; rewrite ?mulr0.
- by clear; case: comm => //; case: (inr _ _ c); rewrite ?mulr0.
- by rewrite -sumrN; apply: eq_bigr => j _; case: ifP => _; rewrite ?oppr0.
Qed.
Lemma point_b I i s r : inr (Nx * (nb I + i)) Nx r = false ->
  ol (point I (nb I) s i) r = ol s r /\ ou (point I (nb I) s i) r = ou s r.
Proof using Type. by rewrite /inr /= /eseg !(mulnC _ Nx) => ->. Qed.
Lemma rows_ne I i I' i' k : (k < Nx)%N -> (i < K I)%N -> (i' < K I')%N -> (I', i') != (I, i) ->
  inr (Nx * (nb I' + i')) Nx (Nx * (nb I + i) + k) = false.
Proof using Type.
move=> hk hi hi' ne; rewrite inr_row //; apply/eqP => e; have [e1 e2] := nb_inj hi' hi e.
by move: ne; rewrite e1 e2 eqxx.
Qed.
(** The rows of the dynamics after ocp_to_qp_update_dyn. *)
Lemma dyn_rowE s I i k c : (I < size m)%N -> (i < K I)%N -> (k < Nx)%N ->
  [/\ val (oA (dyn s)) (Nx * (nb I + i) + k) c = point_add I i k c,
      ol (dyn s) (Nx * (nb I + i) + k)%N = Fin (- tf * (f (t_ I i) (xl (t_ I i)) (ul (t_ I i)) k - dxl (t_ I i) k)) &
      ou (dyn s) (Nx * (nb I + i) + k)%N = Fin (- tf * (f (t_ I i) (xl (t_ I i)) (ul (t_ I i)) k - dxl (t_ I i) k))].
Proof.
move=> hI hi hk; rewrite dyn_points; set s0 := Qpst _ _ _ _ _ _ _; set r := (Nx * (nb I + i) + k)%N.
have hin : (I, i) \in points by rewrite mem_points hI.
have [|s' e1 e2] := fold_pick (step := fun s x => point x.1 (nb x.1) s x.2)
  (obs := fun s => (val (oA s) r c, ol s r, ou s r)) s0 uniq_points hin.
  move=> s1 [I' i']; rewrite mem_points => /andP[hI' hi'] ne /=.
  have F0 := rows_ne hk hi hi' ne.
  by rewrite pointE F0 addr0; have [] := point_b s1 F0; rewrite /= => -> ->.
case: e2 => -> -> ->; case: e1 => a1 _ _.
rewrite pointE a1 /r inr_row // eqxx addKn /= /eseg !(mulnC _ Nx) -!inrE inr_row // eqxx addKn.
split=> //.
rewrite /s0 /= /val /zero_rows (_ : (_ < qdcon_L _ _)%N = true); last first.
  rewrite /qdcon_L; apply: blk_lt => //; rewrite EN; have := nb_le K hI; rewrite nbS; lia.
by case: (oA s _ _) => [v|] /=; rewrite add0r.
Qed.
(** Nothing else changes. *)
Lemma dyn_other s : [/\ oP (dyn s) = oP s, oq (dyn s) = oq s, w_cr (dyn s) = w_cr s & w_int (dyn s) = w_int s].
Proof.
rewrite dyn_points.
have := @fold_keep _ _ _ (fun s x => point x.1 (nb x.1) s x.2) (fun s => (oP s, oq s, w_cr s, w_int s)) points
  (Qpst (oP s) (oq s) (zero_rows (qdcon_L Nx m) (oA s)) (ol s) (ou s) (w_cr s) (w_int s)).
by move=> /(_ (fun _ _ _ => erefl _)) [-> -> -> ->].
Qed.
End Dyn.

Section Keep.
Variable F : realFieldType.
Lemma block_add_keep (A : smat F) r0 c0 s k up r c : ~~ inr r0 (rows s) r -> block_add A r0 c0 s k up r c = A r c.
Proof. by rewrite /block_add block_opE /inb /inr => /negbTE ->. Qed.
Lemma bexec_keep (A : smat F) l r c : all (fun o => ~~ inr (b_r o) (rows (b_s o)) r) l -> bexec A l r c = A r c.
Proof. by rewrite /bexec; elim: l A => [//|o l IH] A /andP[h1 h2]; rewrite [LHS]IH // block_add_keep. Qed.
Lemma bexec_isSome (A : smat F) l r c : isSome (A r c) -> isSome (bexec A l r c).
Proof.
by rewrite /bexec; elim: l A => [//|o l IH] A h; apply: IH; rewrite /block_add isSome_block_op h.
Qed.
Lemma block_write_keep (A : smat F) r0 c0 s k up r c : ~~ inr r0 (rows s) r -> block_write A r0 c0 s k up r c = A r c.
Proof. by rewrite /block_write block_opE /inb /inr => /negbTE ->. Qed.
Lemma identity_keep (A : smat F) r0 c0 n k r c : ~~ inr r0 n r -> block_add_identity A r0 c0 n k r c = A r c.
Proof.
rewrite /inr /block_add_identity => h; have : forall j, j \in iota 0 n -> (r0 + j)%N != r.
  by move=> j; rewrite mem_iota => hj; apply: contraNneq h => <-; lia.
elim: (iota 0 n) A => //= j l IH A h'; rewrite IH => [|i il]; last by apply: h'; rewrite inE il orbT.
by rewrite /upd eq_sym (negbTE (h' j _)) ?mem_head.
Qed.
Variables Nx Nu : nat.
Variables (Kmin Kmax : nat) (lgr : nat -> seq F * seq F) (kinc : nat -> F -> F -> nat) (m : mesh F).
Local Notation N := (N_colloc m).
Local Notation K := (N_colloc_ival m).
Local Notation nb := (nb K).
Hypothesis EN : N = nb (size m).
Variables (X U : Type) (comm : bool) (ad : (nat -> F) -> nat -> nat -> F).
Variables (f : F -> X -> U -> nat -> F) (df : F -> X -> U -> smat F).
Variables (xl : F -> X) (dxl : F -> nat -> F) (ul : F -> U) (tf : F).
Local Notation point := (dyn_point Nx Nu Kmin Kmax lgr m comm ad f df xl dxl ul tf).
Local Notation dyn := (oqp_dyn Nx Nu Kmin Kmax lgr m comm ad f df xl dxl ul tf).
Lemma point_keep I M s i r c : ~~ inr ((M + i) * Nx) Nx r -> oA (point I M s i) r c = oA s r c.
Proof.
move=> h; rewrite /dyn_point; cbn [oA].
rewrite (@fold_keep _ _ _ _ (fun A : smat F => A r c)); last by move=> A j _; rewrite identity_keep.
by case: (comm); rewrite ?block_add_keep ?bexec_keep //= ?h.
Qed.
(** The other rows stay as they are. *)
Lemma dyn_keep s r c : (Nx * N <= r)%N -> [/\ oA (dyn s) r c = oA s r c, ol (dyn s) r = ol s r & ou (dyn s) r = ou s r].
Proof.
move=> hr; rewrite dyn_points; set s0 := Qpst _ _ _ _ _ _ _.
have H : forall x, x \in points m -> ~~ inr ((nb x.1 + x.2) * Nx) Nx r.
  move=> [I i]; rewrite mem_points => /andP[hI hi] /=; rewrite /inr.
  have : ((nb I + i).+1 * Nx <= N * Nx)%N by rewrite leq_mul2r EN; have := nb_le K hI; rewrite nbS; lia.
  by move: hr; rewrite mulSn (mulnC Nx) /N; lia.
have K1 : forall s1 x, x \in points m -> (fun s => (oA s r c, ol s r, ou s r)) (point x.1 (nb x.1) s1 x.2) = (fun s => (oA s r c, ol s r, ou s r)) s1.
  by move=> s1 x /H hx; rewrite point_keep //= /eseg -!inrE (negbTE hx).
have [-> -> ->] := fold_keep s0 K1.
by rewrite /s0 /= /zero_rows /qdcon_L ltnNge hr.
Qed.
End Keep.

(** The mesh functions along a reference. *)
Section Ref.
Variable F : realFieldType.
Variables Nx Nu nf : nat.
Local Notation nz := (1 + Nx + Nu)%N.
Variables (fv : 'cV[F]_nz -> nat -> F) (df d2f : 'cV[F]_nz -> smat F).
Variables (Kmin Kmax : nat) (lgr : nat -> seq F * seq F) (m : mesh F).
Local Notation N := (N_colloc m).
Variables (t0 tf : F) (xs us : nat -> nat -> F).
(** The variables [t0, tf, x_0 .. x_N, u_0 .. u_(N-1)]. *)
Definition vref (r : nat) : F :=
  if r == 0%N then t0 else if r == 1%N then tf
  else if (r - 2 < Nx * (N + 1))%N then xs ((r - 2) %/ Nx) ((r - 2) %% Nx)
  else us ((r - 2 - Nx * (N + 1)) %/ Nu) ((r - 2 - Nx * (N + 1)) %% Nu).
Lemma vref_x i k : (i <= N)%N -> (k < Nx)%N -> var_x Nx vref i k = xs i k.
Proof.
move=> hi hk; rewrite /var_x /vref -addnA /= !subSS subn0 blk_lt //; last lia.
have N0 : (0 < Nx)%N by lia.
by rewrite mulnC divnMDl // modnMDl divn_small // addn0 modn_small.
Qed.
Lemma vref_u i k : (k < Nu)%N -> var_u Nx Nu N vref i k = us i k.
Proof.
move=> hk; rewrite /var_u /vref -!addnA /= !subSS subn0 ltnNge leq_addr /= addKn.
have N0 : (0 < Nu)%N by lia.
by rewrite mulnC divnMDl // modnMDl divn_small // addn0 modn_small.
Qed.
Lemma ref_eval scale out : mrel (mesh_eval nf fv df d2f Kmin Kmax lgr m t0 tf xs us scale out)
  (mesh_eval nf fv df d2f Kmin Kmax lgr m (vref 0) (vref 1) (var_x Nx vref) (var_u Nx Nu N vref) scale out).
Proof. by apply: eval_ext => // i k hi hk; rewrite ?vref_x ?vref_u. Qed.
Lemma ref_int out : mrel (mesh_integrate nf fv df d2f Kmin Kmax lgr m t0 tf xs us out)
  (mesh_integrate nf fv df d2f Kmin Kmax lgr m (vref 0) (vref 1) (var_x Nx vref) (var_u Nx Nu N vref) out).
Proof. by apply: int_ext => // i k hi hk; rewrite ?vref_x ?vref_u. Qed.
Lemma ref_node i : (i < N)%N -> @node_arg F Nx Nu (vref 0) (vref 1) (var_x Nx vref) (var_u Nx Nu N vref) (nth 0 (all_nodes Kmin Kmax lgr m) i) i =
  @node_arg F Nx Nu t0 tf xs us (nth 0 (all_nodes Kmin Kmax lgr m) i) i.
Proof.
move=> hi; apply/matrixP => a b; rewrite !mxE; case: ifP => // a0; case: ifP => h.
  by rewrite vref_x //; have := ltn_ord a; lia.
by rewrite vref_u //; have := ltn_ord a; lia.
Qed.
Local Notation zr i := (@node_arg F Nx Nu t0 tf xs us (nth 0 (all_nodes Kmin Kmax lgr m) i) i).
Lemma ref_evalF out i j : (i < N)%N -> (j < nf)%N ->
  mvF (mesh_eval nf fv df d2f Kmin Kmax lgr m t0 tf xs us false out) (nf * i + j) = fv (zr i) j.
Proof. by move=> hi hj; have [_ -> _ _ _] := ref_eval false out; rewrite C27_value // mul1r ref_node. Qed.
Lemma ref_evalJ out i j c : (i < N)%N -> (j < nf)%N -> (c < Nx * (N + 1) + Nu * N)%N ->
  val (mvdF (mesh_eval nf fv df d2f Kmin Kmax lgr m t0 tf xs us false out)) (nf * i + j) (2 + c) =
  (if inr (Nx * i) Nx c then val (df (zr i)) j (1 + (c - Nx * i)) else 0) +
  (if inr (Nx * (N + 1) + Nu * i) Nu c then val (df (zr i)) j (1 + Nx + (c - (Nx * (N + 1) + Nu * i))) else 0).
Proof.
move=> hi hj hc; have [_ _ -> _ _] := ref_eval false out.
have [_ E _] := evalR nf fv df d2f N (all_nodes Kmin Kmax lgr m) (all_weights Kmin Kmax lgr m) false vref out.
rewrite [LHS]E (bigD1 (Ordinal hi)) //= big1 ?addr0 => [|i' ne]; last first.
  by rewrite inr_row // (negbTE (_ : (i' != i :> nat))).
rewrite inr_row // eqxx addKn mul1r znE ref_node //.
have hX := X0_2 Nx i; have hU := @U0_X0 Nx Nu N i hi.
have E2 a n : inr (2 + a) n (2 + c) = inr a n c by rewrite /inr; lia.
rewrite -!E2 addnA; case: (clsP _ _ hX hU (2 + c)) => h; rewrite ?mul1r ?mul0r ?addr0 ?add0r //; try by lia.
Qed.
(** Stored entries stay stored. *)
Lemma ref_evalM scale out r c : mvalloc out -> isSome (mvdF out r c) ->
  isSome (mvdF (mesh_eval nf fv df d2f Kmin Kmax lgr m t0 tf xs us scale out) r c).
Proof.
move=> ho h; rewrite /mesh_eval /eval_loop.
have {ho h} : isSome (mvdF (mprep out) r c) by rewrite /mprep ho /= /set_zero; case: (mvdF out r c) h.
by elim: (iota 0 N) (mprep out) => //= i l IH o h; apply: IH; apply: bexec_isSome.
Qed.
Lemma ref_alloc scale out : mvalloc (mesh_eval nf fv df d2f Kmin Kmax lgr m t0 tf xs us scale out).
Proof.
rewrite /mesh_eval /eval_loop; have : mvalloc (mprep out) by [].
by elim: (iota 0 N) (mprep out) => //= i l IH o h; apply: IH.
Qed.
Lemma ref_intlam out : mvlam (mesh_integrate nf fv df d2f Kmin Kmax lgr m t0 tf xs us out) = mvlam out.
Proof.
rewrite /mesh_integrate /int_loop -[RHS]/(mvlam (mprep out)).
by elim: (iota 0 N) (mprep out) => //= i l IH o; rewrite IH.
Qed.
End Ref.
