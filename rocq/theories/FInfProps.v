(** C103: infeasibility verdicts of the QP solver in double arithmetic come with approximate certificates. *)
From Coq Require Import Reals ZArith Lia Lra List Bool Permutation.
From Flocq Require Import Core BinarySingleNaN Relative.
From Verif Require Import LoopModel LoopFacts FPidModel FPidFacts FPidOut FQpModel FQpFacts FQpProps FInfModel.
Import ListNotations.
Open Scope R_scope.

(** The products that the loop adds up. *)
Definition row_pairs (p : fqp) (dy : fvec) (i : nat) : list (b64 * b64) :=
  (if feq (f_u p i) finf then [] else [(f_u p i, fmax (fint 0) (dy i))]) ++
  (if feq (f_l p i) (fneg finf) then [] else [(f_l p i, fmin (fint 0) (dy i))]).
Definition pairs (p : fqp) (dy : fvec) (is : list nat) : list (b64 * b64) := flat_map (row_pairs p dy) is.
Lemma acc_dot L s a b r : dot L s -> facc s a b r -> dot (L ++ [(a, b)]) r.
Proof.
intros d [->| ->].
- eapply dot_add; [exact d|apply dot_one|apply Permutation_refl].
- eapply dot_fma; [exact d|]. symmetry. apply Permutation_cons_append.
Qed.
Lemma feq_fin x b : fin x -> feq x (B754_infinity b) = false.
Proof. unfold fin. destruct x as [[]|[]| |[]], b; easy. Qed.
Lemma up_go p hi dy i s s1 L : f_up p hi dy i s (Some s1) -> dot L s ->
  dot (L ++ (if feq (f_u p i) finf then [] else [(f_u p i, fmax (fint 0) (dy i))])) s1 /\
  (feq (f_u p i) finf = true -> flt hi (dy i) = false).
Proof.
unfold f_up. destruct (feq (f_u p i) finf).
- intros h d. rewrite app_nil_r. destruct (flt hi (dy i)); inversion h. now split.
- intros [v [hv e]] d. inversion e. subst. split; [eapply acc_dot; eassumption|easy].
Qed.
Lemma lo_go p lo dy i s s1 L : f_lo p lo dy i s (Some s1) -> dot L s ->
  dot (L ++ (if feq (f_l p i) (fneg finf) then [] else [(f_l p i, fmin (fint 0) (dy i))])) s1 /\
  (feq (f_l p i) (fneg finf) = true -> flt (dy i) lo = false).
Proof.
unfold f_lo. destruct (feq (f_l p i) (fneg finf)).
- intros h d. rewrite app_nil_r. destruct (flt (dy i) lo); inversion h. now split.
- intros [v [hv e]] d. inversion e. subst. split; [eapply acc_dot; eassumption|easy].
Qed.
Lemma sup_dot p hi lo dy is s r : f_sup p hi lo dy is s r -> forall L, dot L s -> r = finf \/
  dot (L ++ pairs p dy is) r /\ forall i, In i is -> (feq (f_u p i) finf = true -> flt hi (dy i) = false) /\
     (feq (f_l p i) (fneg finf) = true -> flt (dy i) lo = false).
Proof.
induction 1 as [s|i t s h|i t s s1 h1 h2|i t s s1 s2 r h1 h2 h3 IH]; intros L d; try (now left).
- right. change (pairs p dy []) with (@nil (b64 * b64)). rewrite app_nil_r. split; [exact d|]. intros i [].
- destruct (up_go _ _ _ _ _ _ _ h1 d) as [d1 g1]. destruct (lo_go _ _ _ _ _ _ _ h2 d1) as [d2 g2].
  destruct (IH _ d2) as [e|[e g]]; [now left|right]. split.
  + change (pairs p dy (i :: t)) with (row_pairs p dy i ++ pairs p dy t). unfold row_pairs. rewrite !app_assoc in *. exact e.
  + intros k [<-|hk]; [now split|now apply g].
Qed.

Definition bounds_ok (p : fqp) (i : nat) : Prop := (f_l p i = B754_infinity true \/ fin (f_l p i)) /\ (f_u p i = B754_infinity false \/ fin (f_u p i)).
(** Sum of the absolute values of the products of finite bounds. *)
Definition bound_terms (p : fqp) (dy : fvec) (i : nat) : R :=
  (if is_finite (f_u p i) then Rabs (val (f_u p i) * Rmax 0 (val (dy i))) else 0) +
  (if is_finite (f_l p i) then Rabs (val (f_l p i) * Rmin 0 (val (dy i))) else 0).
Lemma asum_row_pairs p dy i : bounds_ok p i -> fin (dy i) -> asum (row_pairs p dy i) = bound_terms p dy i.
Proof.
intros [hl hu] fd. destruct (fint_val 0) as [e0 f0]; [lia|]. destruct (fmax_val _ _ f0 fd) as [e1 _]. destruct (fmin_val _ _ f0 fd) as [e2 _].
unfold row_pairs, bound_terms. rewrite asum_app. f_equal.
- destruct hu as [->|fu]; [reflexivity|]. unfold finf. rewrite (feq_fin _ _ fu). unfold fin in fu. rewrite fu.
  change (asum [(f_u p i, fmax (fint 0) (dy i))]) with (Rabs (val (f_u p i) * val (fmax (fint 0) (dy i))) + 0). rewrite e1, e0. lra.
- destruct hl as [->|fu]; [reflexivity|]. unfold finf, fneg, Bopp. rewrite (feq_fin _ _ fu). unfold fin in fu. rewrite fu.
  change (asum [(f_l p i, fmin (fint 0) (dy i))]) with (Rabs (val (f_l p i) * val (fmin (fint 0) (dy i))) + 0). rewrite e2, e0. lra.
Qed.
Lemma row_pairs_fin p dy i : bounds_ok p i -> fin (dy i) -> fins (row_pairs p dy i) /\ (length (row_pairs p dy i) <= 2)%nat.
Proof.
intros [hl hu] fd. destruct (fint_val 0) as [e0 f0]; [lia|]. destruct (fmax_val _ _ f0 fd) as [_ f1]. destruct (fmin_val _ _ f0 fd) as [_ f2].
unfold row_pairs. split.
- intros ab hin. apply in_app_or in hin. destruct hin as [hin|hin].
  + destruct hu as [h|fu]; [rewrite h in hin; destruct hin|]. unfold finf in hin. rewrite (feq_fin _ _ fu) in hin. destruct hin as [<-|[]]. now split.
  + destruct hl as [h|fu]; [rewrite h in hin; destruct hin|]. unfold finf, fneg, Bopp in hin. rewrite (feq_fin _ _ fu) in hin. destruct hin as [<-|[]]. now split.
- rewrite app_length. destruct (feq (f_u p i) finf), (feq (f_l p i) (fneg finf)); simpl; lia.
Qed.
(** A row of the sum bounds dy_i w_i for values w_i within the bounds. *)
Lemma row_bound p dy i t w : bounds_ok p i -> fin (dy i) -> 0 <= t -> (f_u p i = B754_infinity false -> val (dy i) <= t) ->
  (f_l p i = B754_infinity true -> - t <= val (dy i)) -> (fin (f_l p i) -> val (f_l p i) <= w) -> (fin (f_u p i) -> w <= val (f_u p i)) ->
  val (dy i) * w <= rsum (row_pairs p dy i) + t * Rabs w.
Proof.
intros [hl hu] fd ht tu tl wl wu. destruct (fint_val 0) as [e0 f0]; [lia|]. destruct (fmax_val _ _ f0 fd) as [e1 _]. destruct (fmin_val _ _ f0 fd) as [e2 _].
unfold row_pairs. rewrite rsum_app. set (y := val (dy i)) in *.
assert (U : Rmax 0 y * w <= rsum (if feq (f_u p i) finf then [] else [(f_u p i, fmax (fint 0) (dy i))]) + (if Rle_dec 0 y then t * Rabs w else 0)).
{ destruct hu as [h|fu].
  - rewrite h. change (rsum (if feq (B754_infinity false) finf then [] else [(B754_infinity false, fmax (fint 0) (dy i))])) with 0.
    destruct Rle_dec as [yp|yn].
    + rewrite Rmax_right by exact yp. rewrite Rplus_0_l. specialize (tu h). eapply Rle_trans; [apply Rmult_le_compat_l; [exact yp|apply Rle_abs]|].
      apply Rmult_le_compat_r; [apply Rabs_pos|exact tu].
    + rewrite Rmax_left by lra. lra.
  - unfold finf. rewrite (feq_fin _ _ fu). change (rsum [(f_u p i, fmax (fint 0) (dy i))]) with (val (f_u p i) * val (fmax (fint 0) (dy i)) + 0).
    rewrite e1, e0. fold y. specialize (wu fu). pose proof (Rmax_l 0 y) as m0.
    pose proof (Rmult_le_compat_l _ _ _ m0 wu). pose proof (Rmult_le_pos t (Rabs w) ht (Rabs_pos w)). destruct Rle_dec; lra. }
assert (L : Rmin 0 y * w <= rsum (if feq (f_l p i) (fneg finf) then [] else [(f_l p i, fmin (fint 0) (dy i))]) + (if Rle_dec 0 y then 0 else t * Rabs w)).
{ destruct hl as [h|fl].
  - rewrite h. change (rsum (if feq (B754_infinity true) (fneg finf) then [] else [(B754_infinity true, fmin (fint 0) (dy i))])) with 0.
    destruct Rle_dec as [yp|yn].
    + rewrite Rmin_left by exact yp. lra.
    + rewrite Rmin_right by lra. rewrite Rplus_0_l. specialize (tl h). replace (y * w) with (- y * - w) by ring.
      eapply Rle_trans; [apply Rmult_le_compat_l; [lra|apply Rle_abs]|]. rewrite Rabs_Ropp. apply Rmult_le_compat_r; [apply Rabs_pos|lra].
  - unfold finf, fneg, Bopp. rewrite (feq_fin _ _ fl). change (rsum [(f_l p i, fmin (fint 0) (dy i))]) with (val (f_l p i) * val (fmin (fint 0) (dy i)) + 0).
    rewrite e2, e0. fold y. specialize (wl fl). pose proof (Rmin_l 0 y) as m0.
    pose proof (Rmult_le_compat_l (- Rmin 0 y) _ _ ltac:(lra) wl). pose proof (Rmult_le_pos t (Rabs w) ht (Rabs_pos w)). destruct Rle_dec; lra. }
replace (y * w) with (Rmax 0 y * w + Rmin 0 y * w). 2: { rewrite <- Rmult_plus_distr_r. f_equal. unfold Rmax, Rmin. destruct Rle_dec; lra. }
destruct Rle_dec; lra.
Qed.
Lemma pairs_sums p dy m : (forall i, (i < m)%nat -> bounds_ok p i /\ fin (dy i)) ->
  asum (pairs p dy (seq 0 m)) = rsumn m (bound_terms p dy) /\ fins (pairs p dy (seq 0 m)) /\ (length (pairs p dy (seq 0 m)) <= 2 * m)%nat.
Proof.
induction m as [|m IH]; intros h.
- split; [reflexivity|]. split; [intros ab []|simpl; lia].
- destruct IH as [e [f l]]; [intros; apply h; lia|]. destruct (h m) as [hb hd]; [lia|].
  destruct (row_pairs_fin _ _ _ hb hd) as [f2 l2]. unfold pairs in *. rewrite seq_S, flat_map_app. simpl flat_map at 2 4 6. rewrite app_nil_r.
  split; [|split].
  + rewrite asum_app, e. simpl. f_equal. now apply asum_row_pairs.
  + intros ab hin. apply in_app_or in hin. destruct hin; [now apply f|now apply f2].
  + rewrite app_length. simpl Nat.add. lia.
Qed.
Lemma pairs_bound p dy m t w : (forall i, (i < m)%nat -> bounds_ok p i /\ fin (dy i)) -> 0 <= t ->
  (forall i, (i < m)%nat -> (f_u p i = B754_infinity false -> val (dy i) <= t) /\ (f_l p i = B754_infinity true -> - t <= val (dy i))) ->
  (forall i, (i < m)%nat -> (fin (f_l p i) -> val (f_l p i) <= w i) /\ (fin (f_u p i) -> w i <= val (f_u p i))) ->
  rsumn m (fun i => val (dy i) * w i) <= rsum (pairs p dy (seq 0 m)) + t * rsumn m (fun i => Rabs (w i)).
Proof.
intros h ht h1 h2. induction m as [|m IH]; [simpl; lra|].
assert (I : rsumn m (fun i => val (dy i) * w i) <= rsum (pairs p dy (seq 0 m)) + t * rsumn m (fun i => Rabs (w i))).
{ apply IH; intros i hi; [apply h|apply h1|apply h2]; lia. }
destruct (h m) as [hb hd]; [lia|]. destruct (h1 m) as [a1 a2]; [lia|]. destruct (h2 m) as [c1 c2]; [lia|].
pose proof (row_bound p dy m t (w m) hb hd ht a1 a2 c1 c2) as R. unfold pairs in *. rewrite seq_S, flat_map_app, rsum_app.
simpl flat_map at 2. rewrite app_nil_r. simpl rsumn. simpl Nat.add. lra.
Qed.
Lemma flt_inf_l y : fin y -> flt (B754_infinity false) y = false.
Proof. unfold fin. now destruct y as [[]|[]| |[]]. Qed.
Lemma fmax_inf x : fin x -> fmax x finf = finf.
Proof. unfold fin. now destruct x as [[]|[]| |[]]. Qed.

(** The certificate for primal infeasibility: D bounds the entries of dy, T the sums of absolute values of the terms. *)
Theorem C103_primal (n m : nat) (p : fqp) (ep : b64) (dy : fvec) (D T : R) : f_pinf n m p ep dy ->
  (forall i, (i < m)%nat -> bounds_ok p i) -> (forall i j, (i < m)%nat -> (j < n)%nat -> fin (f_A p i j)) ->
  (forall i, (i < m)%nat -> fin (dy i) /\ Rabs (val (dy i)) <= D) -> fin ep -> 0 <= val ep <= 1073741824 -> 0 <= D <= bpow radix2 900 ->
  INR (2 * m) <= 1125899906842624 -> 0 <= T <= bpow radix2 900 ->
  (forall j, (j < n)%nat -> rsumn m (fun i => Rabs (val (f_A p i j) * val (dy i))) <= T) -> rsumn m (bound_terms p dy) <= T ->
  let t := (1 + / 4503599627370496) * (val ep * D) + bpow radix2 (-1074) in
  (exists i, (i < m)%nat /\ val (dy i) <> 0) /\
  (forall j, (j < n)%nat -> Rabs (rsumn m (fun i => val (f_A p i j) * val (dy i))) <= t + rnd m T) /\
  (forall w : nat -> R, (forall i, (i < m)%nat -> (fin (f_l p i) -> val (f_l p i) <= w i) /\ (fin (f_u p i) -> w i <= val (f_u p i))) ->
     rsumn m (fun i => val (dy i) * w i) <= t * (1 + rsumn m (fun i => Rabs (w i))) + rnd (2 * m) T).
Proof.
intros (Aty & nA & dn & s & hA & hnA & hdn & hs & hlt) hb fA hd fe he hD hN hT sT sB t.
pose proof eta_pos as hp.
assert (hm : INR m <= INR (2 * m)) by (apply le_INR; lia).
destruct (lpnorm_val m dy dn D hdn) as [fdn [vdn adn]]; [intros i hi; now apply hd|lra|intros i hi; now apply hd|].
assert (hR : forall j, (j < n)%nat -> fin (Aty j) /\ Rabs (val (Aty j) - rsumn m (fun i => val (f_A p i j) * val (dy i))) <= rnd m T).
{ intros j hj. apply (fmv_row n m (ftr (f_A p)) dy Aty T j); auto; try lra.
  - intros i hi. split; [now apply fA|now apply hd].
  - now apply sT. }
pose proof (rnd_pos m T ltac:(lra)) as hE0. pose proof (rnd_le m T ltac:(lra) ltac:(lra)) as hE1.
assert (abs_le : forall k f, Rabs (rsumn k f) <= rsumn k (fun i => Rabs (f i))).
{ induction k as [|k IH]; intros f; simpl; [rewrite Rabs_R0; lra|]. eapply Rle_trans; [apply Rabs_triang|]. pose proof (IH f). lra. }
destruct (lpnorm_val n Aty nA (T + rnd m T) hnA) as [fnA [vnA anA]]; [intros j hj; now apply hR|lra| |].
{ intros j hj. eapply near_le; [now apply hR|]. eapply Rle_trans; [apply abs_le|]. now apply sT. }
assert (hm1 : 0 <= val ep * val dn <= val ep * D).
{ split; [apply Rmult_le_pos; lra|apply Rmult_le_compat_l; lra]. }
assert (hm2 : val ep * D <= bpow radix2 940).
{ replace (bpow radix2 940) with (1073741824 * bpow radix2 910).
  - apply Rmult_le_compat; try lra. eapply Rle_trans; [apply hD|]. apply bpow_le. lia.
  - change 940%Z with (30 + 910)%Z. rewrite bpow_plus. reflexivity. }
assert (b1 : bpow radix2 940 <= bpow radix2 1002) by (apply bpow_le; lia).
destruct (mul_lin ep dn fe fdn) as [fh eh]. { rewrite Rabs_pos_eq; lra. }
destruct (neg_val ep fe) as [en fn].
destruct (mul_lin (fneg ep) dn fn fdn) as [fl el]. { rewrite en, Ropp_mult_distr_l_reverse, Rabs_Ropp, Rabs_pos_eq; lra. }
rewrite en, Ropp_mult_distr_l_reverse, Rabs_Ropp in el. rewrite (Rabs_pos_eq (val ep * val dn)) in eh by lra. rewrite (Rabs_pos_eq (val ep * val dn)) in el by lra.
apply Rabs_le_inv in eh. apply Rabs_le_inv in el.
assert (t0 : 0 <= t) by (unfold t; pose proof (bpow_ge_0 radix2 (-1074)); lra).
assert (th : val (fmul ep dn) <= t) by (unfold t; rewrite eta2; lra).
assert (tl : - t <= val (fmul (fneg ep) dn)) by (unfold t; rewrite eta2; lra).
destruct (sup_dot _ _ _ _ _ _ _ hs [] dot_nil) as [einf|[hdot hside]].
{ exfalso. rewrite einf, (fmax_inf _ fnA), flt_inf_l in hlt by exact fh. discriminate. }
rewrite app_nil_l in hdot.
destruct (pairs_sums p dy m) as [ea [ff ll]]. { intros i hi. split; [now apply hb|now apply hd]. }
assert (hlen : INR (length (pairs p dy (seq 0 m))) <= INR (2 * m)) by (now apply le_INR).
destruct (dot_err _ _ hdot ff) as [fs es]; [lra|lra|].
destruct (fmax_val nA s fnA fs) as [em fm]. apply flt_val in hlt; [|assumption..]. rewrite em in hlt.
assert (l1 : val nA < val (fmul ep dn)) by (eapply Rle_lt_trans; [apply Rmax_l|exact hlt]).
assert (l2 : val s < val (fmul ep dn)) by (eapply Rle_lt_trans; [apply Rmax_r|exact hlt]).
split; [|split].
- (* dy = 0 gives norm 0 *)
  assert (hpos : 0 < val dn).
  { destruct (Rle_lt_or_eq_dec _ _ (proj1 vdn)) as [h|h]; [exact h|]. exfalso.
    assert (val (fmul ep dn) = 0); [|lra]. destruct (mul_val ep dn fe fdn) as [e _].
    - rewrite <- h, Rmult_0_r, Rabs_R0. apply bpow_ge_0.
    - rewrite e, <- h, Rmult_0_r. apply RN_0. }
  assert (N : ~ forall i, (i < m)%nat -> val (dy i) = 0).
  { intros z. destruct (lpnorm_val m dy dn 0 hdn) as [_ [[_ b] _]]; [intros i hi; now apply hd|lra| |lra].
    intros i hi. rewrite z by exact hi. rewrite Rabs_R0. lra. }
  clear - N. induction m as [|m IH]; [exfalso; apply N; intros i hi; lia|].
  destruct (Req_dec (val (dy m)) 0) as [z|nz]; [|exists m; split; [lia|exact nz]].
  destruct IH as [i [hi h]]; [|exists i; split; [lia|exact h]].
  intros h. apply N. intros i hi. destruct (Nat.eq_dec i m) as [->|]; [exact z|]. apply h. lia.
- intros j hj. pose proof (anA j hj) as q1. destruct (hR j hj) as [_ q2].
  rewrite Rabs_minus_sym in q2. pose proof (near_le _ _ _ _ q2 q1). lra.
- intros w hw.
  assert (P : rsumn m (fun i => val (dy i) * w i) <= rsum (pairs p dy (seq 0 m)) + t * rsumn m (fun i => Rabs (w i))).
  { apply pairs_bound; auto.
    - intros i hi. split; [now apply hb|now apply hd].
    - intros i hi. destruct (hside i) as [s1 s2]; [apply in_seq; lia|]. destruct (hd i hi) as [fd _]. split; intros h.
      + rewrite h in s1. specialize (s1 eq_refl). apply flt_valF in s1; [|assumption..]. lra.
      + rewrite h in s2. specialize (s2 eq_refl). apply flt_valF in s2; [|assumption..]. lra. }
  rewrite ea in es. apply Rabs_le_inv in es.
  set (k := length (pairs p dy (seq 0 m))) in *.
  assert (Q : 2 * INR k * uu * rsumn m (bound_terms p dy) + kc k * eta <= rnd (2 * m) T).
  { unfold rnd. rewrite eta2. pose proof (kc_le k). pose proof (pos_INR k). pose proof (Rmult_le_compat_r eta _ _ ltac:(lra) H).
    assert (s0 : 0 <= rsumn m (bound_terms p dy)). { rewrite <- ea. apply asum_pos. }
    pose proof (Rmult_le_compat _ _ _ _ H0 s0 hlen sB). pose proof (Rmult_le_compat_r eta _ _ ltac:(lra) hlen). lra. }
  lra.
Qed.

(** The certificate for dual infeasibility: moving along dx changes neither the gradient nor the constraints for the worse, up to
    the tolerance. *)
Theorem C103_dual (n m : nat) (p : fqp) (ed : b64) (dx : fvec) (D T : R) : f_dinf n m p ed dx ->
  (forall i, (i < m)%nat -> bounds_ok p i) -> (forall i j, (i < m)%nat -> (j < n)%nat -> fin (f_A p i j)) ->
  (forall i j, (i < n)%nat -> (j < n)%nat -> fin (f_P p i j)) -> (forall j, (j < n)%nat -> fin (f_q p j)) ->
  (forall j, (j < n)%nat -> fin (dx j) /\ Rabs (val (dx j)) <= D) -> fin ed -> 0 <= val ed <= 1073741824 -> 0 <= D <= bpow radix2 900 ->
  INR n <= 1125899906842624 -> 0 <= T <= bpow radix2 900 ->
  (forall j, (j < n)%nat -> rsumn n (fun k => Rabs (val (f_P p j k) * val (dx k))) <= T) ->
  (forall i, (i < m)%nat -> rsumn n (fun k => Rabs (val (f_A p i k) * val (dx k))) <= T) ->
  rsumn n (fun k => Rabs (val (f_q p k) * val (dx k))) <= T ->
  let t := (1 + / 4503599627370496) * (val ed * D) + bpow radix2 (-1074) in
  (forall j, (j < n)%nat -> Rabs (rsumn n (fun k => val (f_P p j k) * val (dx k))) <= t + rnd n T) /\
  rsumn n (fun k => val (f_q p k) * val (dx k)) <= t + rnd n T /\
  (forall i, (i < m)%nat -> (fin (f_u p i) -> rsumn n (fun k => val (f_A p i k) * val (dx k)) <= t + rnd n T) /\
                            (fin (f_l p i) -> - (t + rnd n T) <= rsumn n (fun k => val (f_A p i k) * val (dx k)))).
Proof.
intros (Ax & dn & Px & nP & qd & hA & hdn & hP & hnP & hq & hleP & hleq & hrows) hb fA fP fq hd fe he hD hN hT sP sA sq t.
pose proof eta_pos as hp.
destruct (lpnorm_val n dx dn D hdn) as [fdn [vdn _]]; [intros i hi; now apply hd|lra|intros i hi; now apply hd|].
assert (hRA : forall i, (i < m)%nat -> fin (Ax i) /\ Rabs (val (Ax i) - rsumn n (fun k => val (f_A p i k) * val (dx k))) <= rnd n T).
{ intros i hi. apply (fmv_row m n (f_A p) dx Ax T i); auto; try lra. intros j hj. split; [now apply fA|now apply hd]. }
assert (hRP : forall i, (i < n)%nat -> fin (Px i) /\ Rabs (val (Px i) - rsumn n (fun k => val (f_P p i k) * val (dx k))) <= rnd n T).
{ intros i hi. apply (fmv_row n n (f_P p) dx Px T i); auto; try lra. intros j hj. split; [now apply fP|now apply hd]. }
assert (hRq : fin qd /\ Rabs (val qd - rsumn n (fun k => val (f_q p k) * val (dx k))) <= rnd n T).
{ apply (fmv_row 1 n (fun _ => f_q p) dx (fun _ => qd) T 0); auto; try lra.
  - intros i hi. exact hq.
  - intros j hj. split; [now apply fq|now apply hd]. }
pose proof (rnd_pos n T ltac:(lra)) as hE0. pose proof (rnd_le n T ltac:(lra) hN) as hE1.
assert (abs_le : forall k f, Rabs (rsumn k f) <= rsumn k (fun i => Rabs (f i))).
{ induction k as [|k IH]; intros f; simpl; [rewrite Rabs_R0; lra|]. eapply Rle_trans; [apply Rabs_triang|]. pose proof (IH f). lra. }
destruct (lpnorm_val n Px nP (T + rnd n T) hnP) as [fnP [vnP anP]]; [intros j hj; now apply hRP|lra| |].
{ intros j hj. eapply near_le; [now apply hRP|]. eapply Rle_trans; [apply abs_le|]. now apply sP. }
assert (hm1 : 0 <= val ed * val dn <= val ed * D).
{ split; [apply Rmult_le_pos; lra|apply Rmult_le_compat_l; lra]. }
assert (hm2 : val ed * D <= bpow radix2 940).
{ replace (bpow radix2 940) with (1073741824 * bpow radix2 910).
  - apply Rmult_le_compat; try lra. eapply Rle_trans; [apply hD|]. apply bpow_le. lia.
  - change 940%Z with (30 + 910)%Z. rewrite bpow_plus. reflexivity. }
assert (b1 : bpow radix2 940 <= bpow radix2 1002) by (apply bpow_le; lia).
destruct (mul_lin ed dn fe fdn) as [fh eh]. { rewrite Rabs_pos_eq; lra. }
destruct (neg_val ed fe) as [en fn].
destruct (mul_lin (fneg ed) dn fn fdn) as [fl el]. { rewrite en, Ropp_mult_distr_l_reverse, Rabs_Ropp, Rabs_pos_eq; lra. }
rewrite en, Ropp_mult_distr_l_reverse, Rabs_Ropp in el. rewrite (Rabs_pos_eq (val ed * val dn)) in eh by lra. rewrite (Rabs_pos_eq (val ed * val dn)) in el by lra.
apply Rabs_le_inv in eh. apply Rabs_le_inv in el.
assert (th : val (fmul ed dn) <= t) by (unfold t; rewrite eta2; lra).
assert (tl : - t <= val (fmul (fneg ed) dn)) by (unfold t; rewrite eta2; lra).
apply fle_val in hleP; [|assumption..]. apply fle_val in hleq; [|apply hRq|assumption].
split; [|split].
- intros j hj. pose proof (anP j hj) as q1. destruct (hRP j hj) as [_ q2]. rewrite Rabs_minus_sym in q2.
  pose proof (near_le _ _ _ _ q2 q1). lra.
- destruct hRq as [_ q2]. apply Rabs_le_inv in q2. lra.
- intros i hi. specialize (hrows i hi). destruct (hRA i hi) as [fa q2]. apply Rabs_le_inv in q2. destruct (hb i hi) as [hl hu].
  assert (U : fin (f_u p i) -> val (Ax i) <= t).
  { intros fu. unfold finf in hrows. rewrite (feq_fin _ _ fu) in hrows. destruct (feq (f_l p i) (fneg (B754_infinity false))).
    - apply fle_val in hrows; [|assumption..]. lra.
    - destruct (fabs_val _ fa) as [ea fab]. apply flt_val in hrows; [|assumption..]. rewrite ea in hrows.
      pose proof (Rle_abs (val (Ax i))). lra. }
  assert (L : fin (f_l p i) -> - t <= val (Ax i)).
  { intros flo. destruct hu as [h|fu].
    - rewrite h in hrows. change (feq (B754_infinity false) finf) with true in hrows. apply fle_val in hrows; [|assumption..]. lra.
    - unfold finf in hrows. rewrite (feq_fin _ _ fu) in hrows. unfold fneg, Bopp in hrows. rewrite (feq_fin _ _ flo) in hrows.
      destruct (fabs_val _ fa) as [ea fab]. apply flt_val in hrows; [|assumption..]. rewrite ea in hrows.
      pose proof (Rabs_le_inv _ _ (Rle_refl (Rabs (val (Ax i))))). lra. }
  split; intros h; [specialize (U h)|specialize (L h)]; lra.
Qed.

(** The direction can be zero: when the iterates do not change any more, the test finds every problem dual infeasible whose rows
    have no upper or no lower bound.  (The primal test needs a nonzero dy.) *)
Lemma dot_zero l r : dot l r -> fins l -> (forall ab, In ab l -> val (snd ab) = 0) -> fin r /\ val r = 0.
Proof.
pose proof (bpow_ge_0 radix2 1023) as b0.
induction 1 as [|a b|l l1 a b r d IH hp|l l1 l2 r1 r2 d1 IH1 d2 IH2 hp]; intros hf hz.
- destruct (fint_val 0) as [e f]; [lia|]. now split.
- destruct (hf (a, b)) as [fa fb]; [now left|]. pose proof (hz (a, b) (or_introl eq_refl)) as z. cbn [fst snd] in *.
  destruct (mul_val a b fa fb) as [e f]; [rewrite z, Rmult_0_r, Rabs_R0; exact b0|]. split; [exact f|]. rewrite e, z, Rmult_0_r. apply RN_0.
- assert (I : In (a, b) l) by (eapply Permutation_in; [symmetry; exact hp|now left]).
  destruct (hf _ I) as [fa fb]. pose proof (hz _ I) as z. cbn [fst snd] in *.
  destruct IH as [f e].
  { intros ab hi. apply hf. eapply Permutation_in; [symmetry; exact hp|now right]. }
  { intros ab hi. apply hz. eapply Permutation_in; [symmetry; exact hp|now right]. }
  destruct (fma_lin a b r fa fb f) as [ff ee]; [rewrite z, e, Rmult_0_r, Rplus_0_r, Rabs_R0; exact b0|]. split; [exact ff|].
  pose proof (Bfma_correct 53 1024 p53_gt0 p53_lt mode_NE a b r fa fb f) as g. cbv zeta in g.
  change (B2R b) with (val b) in g. change (B2R r) with (val r) in g. rewrite z, e, Rmult_0_r, Rplus_0_r in g.
  rewrite round_0, Rabs_R0 in g by apply valid_rnd_N. rewrite Rlt_bool_true in g by apply bpow_gt_0. exact (proj1 g).
- destruct IH1 as [f1 e1].
  { intros ab hi. apply hf. eapply Permutation_in; [symmetry; exact hp|]. apply in_or_app. now left. }
  { intros ab hi. apply hz. eapply Permutation_in; [symmetry; exact hp|]. apply in_or_app. now left. }
  destruct IH2 as [f2 e2].
  { intros ab hi. apply hf. eapply Permutation_in; [symmetry; exact hp|]. apply in_or_app. now right. }
  { intros ab hi. apply hz. eapply Permutation_in; [symmetry; exact hp|]. apply in_or_app. now right. }
  destruct (add_val r1 r2 f1 f2) as [e f]; [rewrite e1, e2, Rplus_0_r, Rabs_R0; exact b0|]. split; [exact f|]. rewrite e, e1, e2, Rplus_0_r. apply RN_0.
Qed.
Lemma dot_some l : exists r, dot l r.
Proof.
induction l as [|[a b] l [r h]]; [eexists; apply dot_nil|]. exists (ffma a b r). eapply dot_fma; [exact h|apply Permutation_refl].
Qed.
Lemma fmv_some m n M x : exists y, fmv m n M x y.
Proof.
induction m as [|m [y h]]; [exists (fun _ => fint 0); intros i hi; lia|]. destruct (dot_some (frow n M x m)) as [r hr].
exists (fun i => if Nat.eqb i m then r else y i). intros i hi. destruct (Nat.eqb i m) eqn:e; [apply Nat.eqb_eq in e; now subst|].
apply Nat.eqb_neq in e. apply h. lia.
Qed.
Theorem C103_stalled (n m : nat) (p : fqp) (ed : b64) (dx : fvec) : fin ed ->
  (forall i j, (i < m)%nat -> (j < n)%nat -> fin (f_A p i j)) -> (forall i j, (i < n)%nat -> (j < n)%nat -> fin (f_P p i j)) ->
  (forall j, (j < n)%nat -> fin (f_q p j)) -> (forall j, (j < n)%nat -> fin (dx j) /\ val (dx j) = 0) ->
  (forall i, (i < m)%nat -> f_u p i = finf \/ f_l p i = fneg finf /\ fin (f_u p i)) -> f_dinf n m p ed dx.
Proof.
intros fe fA fP fq hd hr.
assert (Z : forall k M y, (forall i j, (i < k)%nat -> (j < n)%nat -> fin (M i j)) -> fmv k n M dx y -> forall i, (i < k)%nat -> fin (y i) /\ val (y i) = 0).
{ intros k M y fM hM i hi. apply (dot_zero _ _ (hM i hi)).
  - intros ab hin. apply in_map_iff in hin. destruct hin as [j [<- hj]]. apply in_seq in hj. split; [apply fM; lia|apply hd; lia].
  - intros ab hin. apply in_map_iff in hin. destruct hin as [j [<- hj]]. apply in_seq in hj. apply hd. lia. }
destruct (fmv_some m n (f_A p) dx) as [Ax hA]. destruct (fmv_some n n (f_P p) dx) as [Px hP].
destruct (dot_some (map (fun j => (f_q p j, dx j)) (seq 0 n))) as [qd hq].
pose proof (Z m (f_A p) Ax fA hA) as zA. pose proof (Z n (f_P p) Px fP hP) as zP.
assert (zq : fin qd /\ val qd = 0).
{ apply (Z 1%nat (fun _ => f_q p) (fun _ => qd)) with (i := 0%nat); [intros i j _ hj; now apply fq|intros i hi; exact hq|lia]. }
destruct (lpnorm_val n dx (fnorm n dx) 0) as [fd [vd _]]; [intros _; reflexivity|intros j hj; now apply hd|lra|intros j hj; rewrite (proj2 (hd j hj)), Rabs_R0; lra|].
destruct (lpnorm_val n Px (fnorm n Px) 0) as [fp [vp _]]; [intros _; reflexivity|intros j hj; now apply zP|lra|intros j hj; rewrite (proj2 (zP j hj)), Rabs_R0; lra|].
assert (vd0 : val (fnorm n dx) = 0) by lra. assert (vp0 : val (fnorm n Px) = 0) by lra. pose proof (bpow_ge_0 radix2 1023) as b0.
destruct (neg_val ed fe) as [_ fn].
destruct (mul_val ed (fnorm n dx) fe fd) as [e1 f1]; [rewrite vd0, Rmult_0_r, Rabs_R0; exact b0|]. rewrite vd0, Rmult_0_r, RN_0 in e1.
destruct (mul_val (fneg ed) (fnorm n dx) fn fd) as [e2 f2]; [rewrite vd0, Rmult_0_r, Rabs_R0; exact b0|]. rewrite vd0, Rmult_0_r, RN_0 in e2.
exists Ax, (fnorm n dx), Px, (fnorm n Px), qd. split; [exact hA|]. split; [intros _; reflexivity|]. split; [exact hP|]. split; [intros _; reflexivity|].
split; [exact hq|]. split; [apply fle_val; auto; lra|]. split; [apply fle_val; [apply zq|auto|destruct zq; lra]|].
intros i hi. destruct (zA i hi) as [fa va]. destruct (hr i hi) as [->|[-> fu]].
- change (feq finf finf) with true. cbv iota. apply fle_val; auto. lra.
- unfold finf at 1. rewrite (feq_fin _ _ fu). change (feq (fneg finf) (fneg finf)) with true. cbv iota. apply fle_val; auto. lra.
Qed.
Corollary C103_zero_refuted : exists (p : fqp) (dx : fvec), f_dinf 1 0 p (fdiv (fint 1) (fint 1024)) dx /\ val (dx 0%nat) = 0 /\
  val (f_P p 0%nat 0%nat) = 1 /\ val (f_q p 0%nat) = 1 /\ forall x : R, - / 2 <= / 2 * val (f_P p 0%nat 0%nat) * (x * x) + val (f_q p 0%nat) * x.
Proof.
destruct (fint_val 0) as [e0 f0]; [lia|]. destruct (fint_val 1) as [e1 f1]; [lia|].
exists (one_qp (fint 1) (fint 1) (fint 0) (fint 0) (fint 0)), (fun _ => fint 0). split; [|split; [exact e0|split; [exact e1|split; [exact e1|]]]].
- apply C103_stalled; try (intros; exact f1); try (intros; lia). intros j _. now split.
- intros x. unfold one_qp; cbn [f_P f_q]. rewrite e1. pose proof (Rle_0_sqr (x + 1)) as h. unfold Rsqr in h. lra.
Qed.

(** Overflow: the sum of the products can be NaN, and std::max<Scalar>(norm(Aty_), NaN) is norm(Aty_).  Here the constraints
    are x <= 3 * 2^1022 and x >= 2^1023, all numbers are finite, and dy = (2, -2) is accepted as a certificate. *)
Definition qp103 : fqp := FQp (fun _ _ => fint 0) (fun _ => fint 0) (fun _ _ => fint 1)
  (fun i => if Nat.eqb i 0 then fneg finf else fint (2 ^ 1023)) (fun i => if Nat.eqb i 0 then fint (3 * 2 ^ 1022) else finf).
Definition dy103 : fvec := fun i => if Nat.eqb i 0 then fint 2 else fint (-2).
Theorem C103_overflow_refuted : f_pinf 1 2 qp103 (fdiv (fint 1) (fint 1024)) dy103 /\
  val (f_A qp103 0%nat 0%nat) = 1 /\ val (f_A qp103 1%nat 0%nat) = 1 /\
  f_l qp103 0%nat = B754_infinity true /\ f_u qp103 1%nat = B754_infinity false /\
  exists x : R, val (f_A qp103 0%nat 0%nat) * x < val (f_u qp103 0%nat) /\ val (f_l qp103 1%nat) < val (f_A qp103 1%nat 0%nat) * x.
Proof.
destruct (fint_val 1) as [e1 f1]; [lia|].
assert (ev : forall z m e, B2SF (fint z) = SpecFloat.S754_finite false m e -> val (fint z) = IZR (Zpos m) * bpow radix2 e).
{ intros z m e h. unfold val. rewrite <- SF2R_B2SF, h. reflexivity. }
assert (eu : val (fint (3 * 2 ^ 1022)) = 3 * bpow radix2 1022).
{ rewrite (ev _ 6755399441055744%positive 971%Z) by (vm_compute; reflexivity). replace 1022%Z with (51 + 971)%Z by lia. rewrite bpow_plus.
  change (bpow radix2 51) with 2251799813685248. lra. }
assert (el : val (fint (2 ^ 1023)) = 2 * bpow radix2 1022).
{ rewrite (ev _ 4503599627370496%positive 971%Z) by (vm_compute; reflexivity). replace 1022%Z with (51 + 971)%Z by lia. rewrite bpow_plus.
  change (bpow radix2 51) with 2251799813685248. lra. }
split; [|split; [exact e1|split; [exact e1|split; [reflexivity|split; [reflexivity|]]]]].
- exists (fun _ => fadd (fmul (fint 1) (fint 2)) (fmul (fint 1) (fint (-2)))). do 3 eexists.
  split; [intros i hi; eapply dot_add; [apply dot_one|apply dot_one|apply Permutation_refl]|].
  split; [intros _; reflexivity|]. split; [intros _; reflexivity|]. split.
  + change (seq 0 2) with [0%nat; 1%nat]. eapply sup_go.
    * unfold f_up. replace (feq (f_u qp103 0%nat) finf) with false by (vm_compute; reflexivity). eexists. split; [left; reflexivity|reflexivity].
    * unfold f_lo. replace (feq (f_l qp103 0%nat) (fneg finf)) with true by (vm_compute; reflexivity).
      match goal with |- context [if ?b then _ else _] => replace b with false by (vm_compute; reflexivity) end. reflexivity.
    * eapply sup_go.
      -- unfold f_up. replace (feq (f_u qp103 1%nat) finf) with true by (vm_compute; reflexivity).
         match goal with |- context [if ?b then _ else _] => replace b with false by (vm_compute; reflexivity) end. reflexivity.
      -- unfold f_lo. replace (feq (f_l qp103 1%nat) (fneg finf)) with false by (vm_compute; reflexivity). eexists. split; [left; reflexivity|reflexivity].
      -- apply sup_end.
  + vm_compute. reflexivity.
- exists (5 / 2 * bpow radix2 1022). change (f_A qp103 0%nat 0%nat) with (fint 1). change (f_A qp103 1%nat 0%nat) with (fint 1).
  change (f_u qp103 0%nat) with (fint (3 * 2 ^ 1022)). change (f_l qp103 1%nat) with (fint (2 ^ 1023)). rewrite e1, eu, el.
  pose proof (bpow_gt_0 radix2 1022). lra.
Qed.
