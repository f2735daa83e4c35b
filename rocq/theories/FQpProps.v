(** C102: an Optimal answer of the QP solver in double arithmetic satisfies the requested tolerances up to rounding. *)
From Coq Require Import Reals ZArith Lia Lra List Bool Permutation.
From Flocq Require Import Core BinarySingleNaN Relative.
From Verif Require Import LoopModel LoopFacts FPidModel FPidFacts FPidOut FQpModel FQpFacts.
Import ListNotations.
Open Scope R_scope.

(** Exact sums, and the bound of the rounding error of a sum of N products with absolute values that add up to T. *)
Fixpoint rsumn (n : nat) (f : nat -> R) : R := match n with O => 0 | S k => rsumn k f + f k end.
Definition rnd (N : nat) (T : R) : R := INR N * (/ 4503599627370496 * T + bpow radix2 (-1074)).

Lemma rsum_row n M x i : rsum (frow n M x i) = rsumn n (fun j => val (M i j) * val (x j)).
Proof.
unfold frow. induction n as [|n IH]; [reflexivity|]. rewrite seq_S, map_app, rsum_app, IH. simpl. lra.
Qed.
Lemma asum_row n M x i : asum (frow n M x i) = rsumn n (fun j => Rabs (val (M i j) * val (x j))).
Proof.
unfold frow. induction n as [|n IH]; [reflexivity|]. rewrite seq_S, map_app, asum_app, IH. simpl. lra.
Qed.
Lemma eta2 : bpow radix2 (-1074) = 2 * eta.
Proof. change (-1074)%Z with (1 + -1075)%Z. rewrite bpow_plus. f_equal. Qed.
Lemma rnd_pos N T : 0 <= T -> 0 <= rnd N T.
Proof.
intros h. unfold rnd. pose proof (pos_INR N). pose proof (bpow_ge_0 radix2 (-1074)). apply Rmult_le_pos; lra.
Qed.
Lemma big900 : 2 * eta <= bpow radix2 800 /\ 1000 * bpow radix2 900 <= bpow radix2 910 /\ bpow radix2 800 <= bpow radix2 900 /\ 1000 * bpow radix2 910 <= bpow radix2 1023.
Proof.
repeat split.
- rewrite <- eta2. apply bpow_le. lia.
- change 910%Z with (10 + 900)%Z. rewrite bpow_plus. apply Rmult_le_compat_r; [apply bpow_ge_0|]. simpl. lra.
- apply bpow_le. lia.
- change 1023%Z with (113 + 910)%Z. rewrite bpow_plus. apply Rmult_le_compat_r; [apply bpow_ge_0|]. simpl. lra.
Qed.
Lemma rnd_le N T : 0 <= T <= bpow radix2 900 -> INR N <= 1125899906842624 -> rnd N T <= bpow radix2 900.
Proof.
intros h hn. unfold rnd. destruct big900 as [b1 [_ [b2 _]]]. pose proof eta_pos. pose proof (pos_INR N).
assert (hb : 1125899906842624 * bpow radix2 (-1074) <= / 4 * bpow radix2 900).
{ replace 1125899906842624 with (bpow radix2 50) by (simpl; lra). replace (/ 4) with (bpow radix2 (-2)) by (simpl; lra).
  rewrite <- !bpow_plus. apply bpow_le. lia. }
pose proof (bpow_ge_0 radix2 (-1074)).
eapply Rle_trans; [apply Rmult_le_compat_r; [|exact hn]; lra|]. lra.
Qed.
Lemma fmv_row m n M x y T i : fmv m n M x y -> (i < m)%nat -> (forall j, (j < n)%nat -> fin (M i j) /\ fin (x j)) ->
  rsumn n (fun j => Rabs (val (M i j) * val (x j))) <= T -> T <= bpow radix2 900 -> INR n <= 1125899906842624 ->
  fin (y i) /\ Rabs (val (y i) - rsumn n (fun j => val (M i j) * val (x j))) <= rnd n T.
Proof.
intros h hi hf hT hB hn. pose proof (h i hi) as d. destruct (dot_err _ _ d) as [f e].
- intros ab hin. unfold frow in hin. apply in_map_iff in hin. destruct hin as [j [<- hj]]. apply in_seq in hj. apply hf. lia.
- rewrite asum_row. lra.
- unfold frow. now rewrite map_length, seq_length.
- split; [exact f|]. rewrite rsum_row, asum_row in e.
  replace (length (frow n M x i)) with n in e by (unfold frow; now rewrite map_length, seq_length).
  eapply Rle_trans; [exact e|]. unfold rnd. rewrite eta2. pose proof (kc_le n) as k. pose proof eta_pos as he. pose proof (pos_INR n) as hp.
  pose proof (Rmult_le_compat_r eta _ _ (Rlt_le _ _ he) k) as k2. pose proof (Rmult_le_compat_l (INR n) _ _ hp hT). lra.
Qed.
Lemma near_le a b B e : Rabs (a - b) <= e -> Rabs b <= B -> Rabs a <= B + e.
Proof. intros h1 h2. replace a with ((a - b) + b) by ring. eapply Rle_trans; [apply Rabs_triang|]. lra. Qed.

(** The residual of the constraints.  T bounds the sums of the absolute values of the terms of the rows of A x, B the norms
    of A x and z. *)
Theorem C102_primal (n m : nat) (p : fqp) (ea er : b64) (x y z : fvec) (T B : R) :
  f_optimal n m p ea er x y z ->
  (forall i j, (i < m)%nat -> (j < n)%nat -> fin (f_A p i j)) -> (forall j, (j < n)%nat -> fin (x j)) ->
  (forall i, (i < m)%nat -> fin (z i)) -> fin ea -> fin er -> 0 <= val ea <= bpow radix2 900 -> 0 <= val er <= 1073741824 ->
  INR n <= 1125899906842624 -> 0 <= T <= bpow radix2 900 -> 0 <= B <= bpow radix2 900 ->
  (forall i, (i < m)%nat -> rsumn n (fun j => Rabs (val (f_A p i j) * val (x j))) <= T) ->
  (forall i, (i < m)%nat -> Rabs (rsumn n (fun j => val (f_A p i j) * val (x j))) <= B /\ Rabs (val (z i)) <= B) ->
  forall i, (i < m)%nat ->
    Rabs (rsumn n (fun j => val (f_A p i j) * val (x j)) - val (z i)) <=
      (1 + / 2251799813685248) * (val ea + val er * B) + (1 + 2 * val er) * rnd n T + bpow radix2 (-1073).
Proof.
intros (Ax & Px & Aty & nAx & nz & nr & nPx & nq & nAty & nd & hA & hnA & hnz & hnr & hle & _) fA fx fz fea fer hea her hn hT hB sT sB i hi.
destruct big900 as [b1 [b2 [b3 b4]]]. pose proof eta_pos as he.
assert (hR : forall i, (i < m)%nat -> fin (Ax i) /\ Rabs (val (Ax i) - rsumn n (fun j => val (f_A p i j) * val (x j))) <= rnd n T).
{ intros k hk. apply (fmv_row m); auto; lra. }
pose proof (rnd_pos n T ltac:(lra)) as hE0. pose proof (rnd_le n T ltac:(lra) hn) as hE1.
set (E := rnd n T) in *.
destruct (lpnorm_val m Ax nAx (B + E) hnA) as [f1 [v1 _]]; [intros k hk; now apply hR|lra| |].
{ intros k hk. eapply near_le; [now apply hR|]. now apply sB. }
destruct (lpnorm_val m z nz B hnz fz) as [f2 [v2 _]]; [lra|intros k hk; now apply sB|].
assert (hd : forall k, (k < m)%nat -> Rabs (val (Ax k) - val (z k)) <= 2 * B + E).
{ intros k hk. eapply Rle_trans; [apply Rabs_triang|]. rewrite Rabs_Ropp.
  pose proof (near_le _ _ B E (proj2 (hR k hk)) (proj1 (sB k hk))). pose proof (proj2 (sB k hk)). lra. }
assert (hs : forall k, (k < m)%nat -> fin (fsub (Ax k) (z k)) /\
   Rabs (val (fsub (Ax k) (z k)) - (val (Ax k) - val (z k))) <= uu * Rabs (val (Ax k) - val (z k))).
{ intros k hk. apply sub_lin; [now apply hR|now apply fz|]. pose proof (hd k hk). lra. }
destruct (lpnorm_val m _ nr (2 * (2 * B + E)) hnr) as [f3 [v3 a3]]; [intros k hk; now apply hs|lra| |].
{ intros k hk. pose proof (proj2 (hs k hk)). pose proof (hd k hk). cbv beta.
  pose proof (near_le _ _ _ _ H (Rle_refl _)). lra. }
destruct (fmax_val nAx nz f1 f2) as [e4 f4].
assert (v4 : 0 <= val (fmax nAx nz) <= B + E).
{ rewrite e4. split; [eapply Rle_trans; [apply v1|apply Rmax_l]|apply Rmax_lub; lra]. }
destruct (tol_val ea er _ fea fer f4 hea her) as [f5 e5]; [lra|].
apply fle_val in hle; [|assumption..].
pose proof (a3 i hi) as q1. cbv beta in q1. destruct (hs i hi) as [_ q2]. destruct (hR i hi) as [_ q3].
assert (q4 : Rabs (val (Ax i) - val (z i)) <= uu * Rabs (val (Ax i) - val (z i)) + Rabs (val (fsub (Ax i) (z i)))).
{ pose proof (near_le (val (Ax i) - val (z i)) (val (fsub (Ax i) (z i))) _ _ ltac:(rewrite Rabs_minus_sym; exact q2) (Rle_refl _)). lra. }
assert (q5 : val er * val (fmax nAx nz) <= val er * B + val er * E).
{ rewrite <- Rmult_plus_distr_l. apply Rmult_le_compat_l; lra. }
assert (q6 : 0 <= val er * E) by (apply Rmult_le_pos; lra).
assert (q7 : 0 <= val er * B) by (apply Rmult_le_pos; lra).
change (-1073)%Z with (1 + -1074)%Z. rewrite bpow_plus, eta2. change (bpow radix2 1) with 2.
replace (rsumn n (fun j => val (f_A p i j) * val (x j)) - val (z i)) with
  ((val (Ax i) - val (z i)) - (val (Ax i) - rsumn n (fun j => val (f_A p i j) * val (x j)))) by ring.
eapply Rle_trans; [apply Rabs_triang|]. rewrite Rabs_Ropp.
set (r1 := Rabs (val (Ax i) - val (z i))) in *. set (r2 := Rabs (val (fsub (Ax i) (z i)))) in *.
set (w := val er * val (fmax nAx nz)) in *. set (eB := val er * B) in *. set (eE := val er * E) in *.
replace ((1 + 2 * val er) * E) with (E + 2 * eE) by (unfold eE; ring).
clearbody r1 r2 w eB eE. lra.
Qed.

(** The gradient of the Lagrangian.  T bounds the sums of the absolute values of the terms of P x and of A^T y, B the norms
    of P x, q and A^T y. *)
Theorem C102_dual (n m : nat) (p : fqp) (ea er : b64) (x y z : fvec) (N : nat) (T B : R) :
  f_optimal n m p ea er x y z ->
  (forall i j, (i < m)%nat -> (j < n)%nat -> fin (f_A p i j)) -> (forall i j, (i < n)%nat -> (j < n)%nat -> fin (f_P p i j)) ->
  (forall j, (j < n)%nat -> fin (f_q p j)) -> (forall j, (j < n)%nat -> fin (x j)) -> (forall i, (i < m)%nat -> fin (y i)) ->
  fin ea -> fin er -> 0 <= val ea <= bpow radix2 900 -> 0 <= val er <= 1073741824 ->
  (n <= N)%nat -> (m <= N)%nat -> INR N <= 1125899906842624 -> 0 <= T <= bpow radix2 900 -> 0 <= B <= bpow radix2 900 ->
  (forall j, (j < n)%nat -> rsumn n (fun k => Rabs (val (f_P p j k) * val (x k))) <= T /\
                            rsumn m (fun i => Rabs (val (f_A p i j) * val (y i))) <= T) ->
  (forall j, (j < n)%nat -> Rabs (rsumn n (fun k => val (f_P p j k) * val (x k))) <= B /\ Rabs (val (f_q p j)) <= B /\
                            Rabs (rsumn m (fun i => val (f_A p i j) * val (y i))) <= B) ->
  forall j, (j < n)%nat ->
    Rabs (rsumn n (fun k => val (f_P p j k) * val (x k)) + val (f_q p j) + rsumn m (fun i => val (f_A p i j) * val (y i))) <=
      (1 + / 2251799813685248) * (val ea + val er * B) + / 4503599627370496 * B + (3 + 2 * val er) * rnd N T + bpow radix2 (-1073).
Proof.
intros (Ax & Px & Aty & nAx & nz & nr & nPx & nq & nAty & nd & _ & _ & _ & _ & _ & hP & hA & hnP & hnq & hnA & hnd & hle)
  fA fP fq fx fy fea fer hea her hnN hmN hN hT hB sT sB j hj.
destruct big900 as [b1 [b2 [b3 b4]]]. pose proof eta_pos as he.
assert (mono : forall k, (k <= N)%nat -> rnd k T <= rnd N T).
{ intros k hk. unfold rnd. apply Rmult_le_compat_r; [pose proof (bpow_ge_0 radix2 (-1074)); lra|]. now apply le_INR. }
assert (hR : forall k, (k < n)%nat -> fin (Px k) /\ Rabs (val (Px k) - rsumn n (fun j => val (f_P p k j) * val (x j))) <= rnd N T).
{ intros k hk. destruct (fmv_row n n (f_P p) x Px T k) as [f e]; auto; try apply sT; auto; try lra.
  - pose proof (le_INR _ _ hnN). lra.
  - split; [exact f|]. pose proof (mono n hnN). lra. }
assert (hS : forall k, (k < n)%nat -> fin (Aty k) /\ Rabs (val (Aty k) - rsumn m (fun i => val (f_A p i k) * val (y i))) <= rnd N T).
{ intros k hk. destruct (fmv_row n m (ftr (f_A p)) y Aty T k) as [f e]; auto; try lra.
  - intros i hi. split; [now apply fA|now apply fy].
  - now apply sT.
  - pose proof (le_INR _ _ hmN). lra.
  - split; [exact f|]. pose proof (mono m hmN). unfold ftr in e. lra. }
pose proof (rnd_pos N T ltac:(lra)) as hE0. pose proof (rnd_le N T ltac:(lra) hN) as hE1.
set (E := rnd N T) in *.
assert (bP : forall k, (k < n)%nat -> Rabs (val (Px k)) <= B + E).
{ intros k hk. eapply near_le; [now apply hR|]. now apply sB. }
assert (bA : forall k, (k < n)%nat -> Rabs (val (Aty k)) <= B + E).
{ intros k hk. eapply near_le; [now apply hS|]. now apply sB. }
assert (bq : forall k, (k < n)%nat -> Rabs (val (f_q p k)) <= B) by (intros k hk; now apply sB).
destruct (lpnorm_val n Px nPx (B + E) hnP) as [f1 [v1 _]]; [intros k hk; now apply hR|lra|exact bP|].
destruct (lpnorm_val n _ nq B hnq fq) as [f2 [v2 _]]; [lra|exact bq|].
destruct (lpnorm_val n Aty nAty (B + E) hnA) as [f3 [v3 _]]; [intros k hk; now apply hS|lra|exact bA|].
assert (hs : forall k, (k < n)%nat -> fin (fadd (f_q p k) (Aty k)) /\
   Rabs (val (fadd (f_q p k) (Aty k)) - (val (f_q p k) + val (Aty k))) <= uu * (2 * B + E)).
{ intros k hk. pose proof (bq k hk). pose proof (bA k hk).
  assert (hh : Rabs (val (f_q p k) + val (Aty k)) <= 2 * B + E) by (eapply Rle_trans; [apply Rabs_triang|]; lra).
  destruct (add_lin (f_q p k) (Aty k)) as [f e]; [now apply fq|now apply hS|lra|]. split; [exact f|]. lra. }
assert (bs : forall k, (k < n)%nat -> Rabs (val (Px k) + val (fadd (f_q p k) (Aty k))) <= 4 * B + 4 * E).
{ intros k hk. pose proof (bP k hk). pose proof (bq k hk). pose proof (bA k hk).
  assert (hh : Rabs (val (f_q p k) + val (Aty k)) <= 2 * B + E) by (eapply Rle_trans; [apply Rabs_triang|]; lra).
  pose proof (near_le _ _ _ _ (proj2 (hs k hk)) hh). eapply Rle_trans; [apply Rabs_triang|]. lra. }
assert (hg : forall k, (k < n)%nat -> fin (fadd (Px k) (fadd (f_q p k) (Aty k))) /\
   Rabs (val (fadd (Px k) (fadd (f_q p k) (Aty k))) - (val (Px k) + val (fadd (f_q p k) (Aty k)))) <=
     uu * Rabs (val (Px k) + val (fadd (f_q p k) (Aty k)))).
{ intros k hk. apply add_lin; [now apply hR|now apply hs|]. pose proof (bs k hk). lra. }
destruct (lpnorm_val n _ nd (8 * B + 8 * E) hnd) as [f4 [v4 a4]]; [intros k hk; now apply hg|lra| |].
{ intros k hk. pose proof (proj2 (hg k hk)). pose proof (bs k hk). cbv beta.
  pose proof (near_le _ _ _ _ H (Rle_refl _)). lra. }
destruct (fmax_val nPx nq f1 f2) as [e5 f5]. destruct (fmax_val _ nAty f5 f3) as [e6 f6].
assert (v6 : 0 <= val (fmax (fmax nPx nq) nAty) <= B + E).
{ rewrite e6, e5. split; [eapply Rle_trans; [apply v3|apply Rmax_r]|]. apply Rmax_lub; [apply Rmax_lub|]; lra. }
destruct (tol_val ea er _ fea fer f6 hea her) as [f7 e7]; [lra|].
apply fle_val in hle; [|assumption..].
pose proof (a4 j hj) as q1. cbv beta in q1. destruct (hg j hj) as [_ q2]. destruct (hs j hj) as [_ q3].
destruct (hR j hj) as [_ q4]. destruct (hS j hj) as [_ q5].
set (s := val (fadd (f_q p j) (Aty j))) in *. set (g := val (fadd (Px j) (fadd (f_q p j) (Aty j)))) in *.
assert (q6 : Rabs (val (Px j) + s) <= uu * Rabs (val (Px j) + s) + Rabs g).
{ pose proof (near_le (val (Px j) + s) g _ _ ltac:(rewrite Rabs_minus_sym; exact q2) (Rle_refl _)). lra. }
assert (q7 : val er * val (fmax (fmax nPx nq) nAty) <= val er * B + val er * E).
{ rewrite <- Rmult_plus_distr_l. apply Rmult_le_compat_l; lra. }
assert (q8 : 0 <= val er * E) by (apply Rmult_le_pos; lra).
assert (q9 : 0 <= val er * B) by (apply Rmult_le_pos; lra).
change (-1073)%Z with (1 + -1074)%Z. rewrite bpow_plus, eta2. change (bpow radix2 1) with 2.
set (rp := rsumn n _) in *. set (ra := rsumn m _) in *.
replace (rp + val (f_q p j) + ra) with
  ((val (Px j) + s) + (- (val (Px j) - rp) + (- (val (Aty j) - ra) + - (s - (val (f_q p j) + val (Aty j)))))) by ring.
eapply Rle_trans; [apply Rabs_triang|]. eapply Rle_trans; [apply Rplus_le_compat_l, Rabs_triang|].
eapply Rle_trans; [apply Rplus_le_compat_l, Rplus_le_compat_l, Rabs_triang|]. rewrite !Rabs_Ropp.
set (w := val er * val (fmax (fmax nPx nq) nAty)) in *. set (eB := val er * B) in *. set (eE := val er * E) in *.
replace ((3 + 2 * val er) * E) with (3 * E + 2 * eE) by (unfold eE; ring).
set (r1 := Rabs (val (Px j) + s)) in *. set (r2 := Rabs g) in *.
clearbody r1 r2 w eB eE. lra.
Qed.

(** The clamped and unscaled z lies within the bounds up to rounding. *)
Definition low_ok (l : b64) : Prop := l = B754_infinity true \/ fin l /\ Rabs (val l) <= bpow radix2 400.
Definition upp_ok (u : b64) : Prop := u = B754_infinity false \/ fin u /\ Rabs (val u) <= bpow radix2 400.
Lemma mul_inf s b : fin s -> 0 < val s -> fmul s (B754_infinity b) = B754_infinity b.
Proof.
unfold fin, val. destruct s as [sg| | |sg mm ee hb]; try easy.
- simpl. lra.
- intros _ h. unfold fmul, Bmult. destruct sg; [|now destruct b].
  exfalso. simpl in h. pose proof (F2R_lt_0 radix2 (Float radix2 (Z.neg mm) ee) ltac:(simpl; lia)). lra.
Qed.
Lemma max_neg w : fin w -> fmax w (B754_infinity true) = w. Proof. unfold fin. now destruct w as [[]|[]| |[]]. Qed.
Lemma min_pos w : fin w -> fmin w (B754_infinity false) = w. Proof. unfold fin. now destruct w as [[]|[]| |[]]. Qed.
Lemma scaled_ok s b : fin s -> bpow radix2 (-300) <= val s <= bpow radix2 300 -> fin b -> Rabs (val b) <= bpow radix2 400 ->
  val (fmul s b) = RN (val s * val b) /\ fin (fmul s b) /\ Rabs (val (fmul s b)) <= bpow radix2 700.
Proof.
intros fs hs fb hb. pose proof (bpow_gt_0 radix2 (-300)).
assert (h : Rabs (val s * val b) <= bpow radix2 700).
{ change 700%Z with (300 + 400)%Z. rewrite bpow_plus. apply prod_le; [rewrite Rabs_pos_eq; lra|exact hb]. }
destruct (mul_val s b fs fb) as [e f]. { eapply Rle_trans; [exact h|]. apply bpow_le. lia. }
split; [exact e|]. split; [exact f|]. rewrite e. apply Rabs_le_inv in h. apply Rabs_le. split.
- rewrite <- (RN_id (- bpow radix2 700)); [apply RN_le; lra|]. apply generic_format_opp. apply bpow_fmt. lia.
- rewrite <- (RN_id (bpow radix2 700)); [apply RN_le; lra|]. apply bpow_fmt. lia.
Qed.
Lemma inv_ok s : fin s -> bpow radix2 (-300) <= val s <= bpow radix2 300 ->
  fin (fdiv (fint 1) s) /\ bpow radix2 (-300) <= val (fdiv (fint 1) s) <= bpow radix2 300 /\
  Rabs (val (fdiv (fint 1) s) * val s - 1) <= 2 * uu.
Proof.
intros fs hs. pose proof (bpow_gt_0 radix2 (-300)) as h0. destruct (fint_val 1) as [e1 f1]; [lia|].
assert (hi : bpow radix2 (-300) <= 1 / val s <= bpow radix2 300).
{ unfold Rdiv. rewrite Rmult_1_l. pose proof (bpow_opp radix2 300) as o1. pose proof (bpow_opp radix2 (-300)) as o2.
  change (- (300))%Z with (-300)%Z in o1. change (- -300)%Z with 300%Z in o2.
  split; [rewrite o1|rewrite o2]; apply Rinv_le; lra. }
destruct (fdiv_val (fint 1) s f1) as [e f]; [lra| |].
{ rewrite e1. split; [lra|]. eapply Rle_trans; [apply hi|]. apply bpow_le. lia. }
split; [exact f|]. rewrite e, e1. split.
- split; [rewrite <- (RN_id (bpow radix2 (-300)))|rewrite <- (RN_id (bpow radix2 300))]; try (apply RN_le; lra); apply bpow_fmt; lia.
- destruct (RN_err (1 / val s)) as [d [h [hd [hh E]]]]. rewrite E. rewrite ulp1_val in hd.
  replace ((1 / val s * (1 + d) + h) * val s - 1) with (d + h * val s) by (field; lra).
  eapply Rle_trans; [apply Rabs_triang|].
  assert (Rabs (h * val s) <= uu).
  { eapply Rle_trans; [apply (prod_le _ _ eta (bpow radix2 300)); [exact hh|rewrite Rabs_pos_eq; lra]|].
    rewrite <- bpow_plus. replace uu with (bpow radix2 (-53)) by (simpl; lra). apply bpow_le. lia. }
  lra.
Qed.
(** Scaling a bound and dividing by the factor again. *)
Lemma rescale s b : fin s -> bpow radix2 (-300) <= val s <= bpow radix2 300 -> fin b -> Rabs (val b) <= bpow radix2 400 ->
  Rabs (RN (val (fdiv (fint 1) s) * val (fmul s b)) - val b) <= / 1125899906842624 * Rabs (val b) + bpow radix2 (-774).
Proof.
intros fs hs fb hb. pose proof (bpow_gt_0 radix2 (-300)) as h0.
destruct (inv_ok s fs hs) as [_ [hi ha]]. destruct (scaled_ok s b fs hs fb hb) as [e _].
set (v := val (fdiv (fint 1) s)) in *. rewrite e. set (bb := val b) in *. set (t := val s) in *. clearbody v bb t. clear e fb fs hb.
destruct (RN_err (t * bb)) as [d0 [k0 [hd0 [hk0 E0]]]]. rewrite E0.
destruct (RN_err (v * (t * bb * (1 + d0) + k0))) as [d2 [k2 [hd2 [hk2 E2]]]]. rewrite E2. clear E0 E2.
rewrite ulp1_val in hd0, hd2. pose proof eta_pos as he.
assert (hvk : Rabs (v * k0) <= bpow radix2 (-775)).
{ change (-775)%Z with (300 + -1075)%Z. rewrite bpow_plus. apply prod_le; [rewrite Rabs_pos_eq; lra|exact hk0]. }
assert (hle : eta <= / 1024 * bpow radix2 (-775)).
{ replace (/ 1024) with (bpow radix2 (-10)) by (simpl; lra). rewrite <- bpow_plus. apply bpow_le. lia. }
change (-774)%Z with (1 + -775)%Z. rewrite bpow_plus. change (bpow radix2 1) with 2.
assert (hq : 0 <= Rabs bb) by apply Rabs_pos.
set (a := v * t - 1) in *.
assert (p1 : Rabs (a * bb) <= 2 * uu * Rabs bb) by (apply prod_le; lra).
assert (p2 : Rabs (d0 * bb) <= uu * Rabs bb) by (apply prod_le; lra).
assert (p3 : Rabs (d0 * (a * bb)) <= uu * (2 * uu * Rabs bb)) by (apply prod_le; lra).
set (c := v * (t * bb * (1 + d0) + k0)).
assert (hc : Rabs (c - bb) <= 4 * uu * Rabs bb + bpow radix2 (-775)).
{ replace (c - bb) with (a * bb + d0 * bb + d0 * (a * bb) + v * k0) by (unfold c, a; ring).
  eapply Rle_trans; [apply Rabs_triang|]. eapply Rle_trans; [apply Rplus_le_compat_r, Rabs_triang|].
  eapply Rle_trans; [apply Rplus_le_compat_r, Rplus_le_compat_r, Rabs_triang|]. lra. }
pose proof (near_le _ _ _ _ hc (Rle_refl _)) as hc2.
assert (p4 : Rabs (d2 * c) <= uu * (Rabs bb + (4 * uu * Rabs bb + bpow radix2 (-775)))) by (apply prod_le; lra).
replace (c * (1 + d2) + k2 - bb) with ((c - bb) + d2 * c + k2) by ring.
eapply Rle_trans; [apply Rabs_triang|]. eapply Rle_trans; [apply Rplus_le_compat_r, Rabs_triang|].
pose proof (bpow_gt_0 radix2 (-975)). lra.
Qed.

Theorem C102_bounds (p : fqp) (sy w : fvec) (i : nat) :
  fin (sy i) -> bpow radix2 (-300) <= val (sy i) <= bpow radix2 300 -> fin (w i) -> Rabs (val (w i)) <= bpow radix2 400 ->
  low_ok (f_l p i) -> upp_ok (f_u p i) -> (fin (f_l p i) -> fin (f_u p i) -> val (f_l p i) <= val (f_u p i)) ->
  let z := f_z_us sy (f_clamp sy p w) i in
  fin z /\ Rabs (val z) <= bpow radix2 1000 /\
  (fin (f_l p i) -> val (f_l p i) - (/ 1125899906842624 * Rabs (val (f_l p i)) + bpow radix2 (-774)) <= val z) /\
  (fin (f_u p i) -> val z <= val (f_u p i) + (/ 1125899906842624 * Rabs (val (f_u p i)) + bpow radix2 (-774))).
Proof.
intros fs hs fw hw hl hu hlu z. pose proof (bpow_gt_0 radix2 (-300)) as h0.
assert (b67 : bpow radix2 400 <= bpow radix2 700) by (apply bpow_le; lia).
assert (A : fin (f_clamp sy p w i) /\ Rabs (val (f_clamp sy p w i)) <= bpow radix2 700 /\
  (fin (f_l p i) -> val (fmul (sy i) (f_l p i)) <= val (f_clamp sy p w i)) /\
  (fin (f_u p i) -> val (f_clamp sy p w i) <= val (fmul (sy i) (f_u p i)))).
{ unfold f_clamp.
  assert (L : fin (fmax (w i) (fmul (sy i) (f_l p i))) /\ Rabs (val (fmax (w i) (fmul (sy i) (f_l p i)))) <= bpow radix2 700 /\
    (fin (f_l p i) -> val (fmul (sy i) (f_l p i)) <= val (fmax (w i) (fmul (sy i) (f_l p i))))).
  { destruct hl as [hl|[fl hl]].
    - rewrite hl, mul_inf, max_neg by (try assumption; lra). split; [exact fw|]. split; [lra|]. easy.
    - destruct (scaled_ok _ _ fs hs fl hl) as [_ [f b]]. destruct (fmax_val _ _ fw f) as [e fm]. split; [exact fm|]. rewrite e.
      apply Rabs_le_inv in b. apply Rabs_le_inv in hw. split; [|intros _; apply Rmax_r].
      apply Rabs_le. split; [eapply Rle_trans; [apply b|apply Rmax_r]|apply Rmax_lub; lra]. }
  destruct L as [fL [bL lL]]. destruct hu as [hu|[fu hu]].
  - rewrite hu, mul_inf, min_pos by (try assumption; lra). split; [exact fL|]. split; [exact bL|]. split; [exact lL|]. easy.
  - destruct (scaled_ok _ _ fs hs fu hu) as [eu [f b]]. destruct (fmin_val _ _ fL f) as [e fm]. split; [exact fm|]. rewrite e.
    apply Rabs_le_inv in b. apply Rabs_le_inv in bL. split; [|split; [|intros _; apply Rmin_r]].
    + apply Rabs_le. split; [apply Rmin_glb; lra|eapply Rle_trans; [apply Rmin_r|apply b]].
    + intros fl. apply Rmin_glb; [now apply lL|]. destruct hl as [hl|[_ hl]]; [rewrite hl in fl; easy|].
      destruct (scaled_ok _ _ fs hs fl hl) as [el _]. rewrite el, eu. apply RN_le. apply Rmult_le_compat_l; [lra|auto]. }
destruct A as [fc [bc [lc uc]]]. destruct (inv_ok _ fs hs) as [fi [hi _]].
assert (hp : Rabs (val (fdiv (fint 1) (sy i)) * val (f_clamp sy p w i)) <= bpow radix2 1000).
{ change 1000%Z with (300 + 700)%Z. rewrite bpow_plus. apply prod_le; [rewrite Rabs_pos_eq; lra|exact bc]. }
destruct (mul_val _ _ fi fc) as [e f]. { eapply Rle_trans; [exact hp|]. apply bpow_le. lia. }
unfold z, f_z_us. rewrite e. split; [exact f|]. split.
- apply Rabs_le_inv in hp. apply Rabs_le. split.
  + rewrite <- (RN_id (- bpow radix2 1000)); [apply RN_le; lra|]. apply generic_format_opp. apply bpow_fmt. lia.
  + rewrite <- (RN_id (bpow radix2 1000)); [apply RN_le; lra|]. apply bpow_fmt. lia.
- split.
  + intros fl. destruct hl as [hl|[_ hl]]; [rewrite hl in fl; easy|]. pose proof (rescale _ _ fs hs fl hl) as r. apply Rabs_le_inv in r.
    eapply Rle_trans; [|apply RN_le, Rmult_le_compat_l; [lra|exact (lc fl)]]. lra.
  + intros fu. destruct hu as [hu|[_ hu]]; [rewrite hu in fu; easy|]. pose proof (rescale _ _ fs hs fu hu) as r. apply Rabs_le_inv in r.
    eapply Rle_trans; [apply RN_le, Rmult_le_compat_l; [lra|exact (uc fu)]|]. lra.
Qed.

(** The returned values.  Sx bounds the sums of absolute values of terms, B the values themselves; the constraint values of
    the returned point lie within the bounds up to the tolerance, and the gradient of the Lagrangian vanishes up to it. *)
Lemma rsumn_ext n f g : (forall i, (i < n)%nat -> f i = g i) -> rsumn n f = rsumn n g.
Proof. induction n as [|n IH]; intros h; simpl; [reflexivity|]. rewrite IH, h; [reflexivity|lia|intros; apply h; lia]. Qed.
Definition sized (n m : nat) (p : fqp) (x y z : fvec) (T B : R) : Prop :=
  (forall i, (i < m)%nat -> rsumn n (fun j => Rabs (val (f_A p i j) * val (x j))) <= T /\
     Rabs (rsumn n (fun j => val (f_A p i j) * val (x j))) <= B /\ Rabs (val (z i)) <= B) /\
  (forall j, (j < n)%nat -> rsumn n (fun k => Rabs (val (f_P p j k) * val (x k))) <= T /\
     rsumn m (fun i => Rabs (val (f_A p i j) * val (y i))) <= T /\ Rabs (rsumn n (fun k => val (f_P p j k) * val (x k))) <= B /\
     Rabs (val (f_q p j)) <= B /\ Rabs (rsumn m (fun i => val (f_A p i j) * val (y i))) <= B).
Definition finite_qp (n m : nat) (p : fqp) : Prop :=
  (forall i j, (i < m)%nat -> (j < n)%nat -> fin (f_A p i j)) /\ (forall i j, (i < n)%nat -> (j < n)%nat -> fin (f_P p i j)) /\
  (forall j, (j < n)%nat -> fin (f_q p j)) /\
  (forall i, (i < m)%nat -> low_ok (f_l p i) /\ upp_ok (f_u p i) /\ (fin (f_l p i) -> fin (f_u p i) -> val (f_l p i) <= val (f_u p i))).
Theorem C102_answer (n m : nat) (p : fqp) (ea er c : b64) (sx sy x y w primal dual : fvec) (N : nat) (T B : R) :
  f_returns n m p ea er c sx sy x y w primal dual -> finite_qp n m p ->
  (forall j, (j < n)%nat -> fin (primal j)) -> (forall i, (i < m)%nat -> fin (dual i)) ->
  (forall i, (i < m)%nat -> fin (w i) /\ Rabs (val (w i)) <= bpow radix2 400) ->
  (forall i, (i < m)%nat -> fin (sy i) /\ bpow radix2 (-300) <= val (sy i) <= bpow radix2 300) ->
  fin ea -> fin er -> 0 <= val ea <= bpow radix2 900 -> 0 <= val er <= 1073741824 ->
  (n <= N)%nat -> (m <= N)%nat -> INR N <= 1125899906842624 -> 0 <= T <= bpow radix2 900 -> 0 <= B <= bpow radix2 900 ->
  sized n m p primal dual (f_z_us sy (f_clamp sy p w)) T B ->
  let tol := (1 + / 2251799813685248) * (val ea + val er * B) + / 4503599627370496 * B + (3 + 2 * val er) * rnd N T + bpow radix2 (-1073) in
  (forall i, (i < m)%nat -> fin (f_l p i) ->
     val (f_l p i) - (/ 1125899906842624 * Rabs (val (f_l p i)) + bpow radix2 (-774)) - tol <=
     rsumn n (fun j => val (f_A p i j) * val (primal j))) /\
  (forall i, (i < m)%nat -> fin (f_u p i) -> rsumn n (fun j => val (f_A p i j) * val (primal j)) <=
     val (f_u p i) + (/ 1125899906842624 * Rabs (val (f_u p i)) + bpow radix2 (-774)) + tol) /\
  (forall j, (j < n)%nat ->
     Rabs (rsumn n (fun k => val (f_P p j k) * val (primal k)) + val (f_q p j) + rsumn m (fun i => val (f_A p i j) * val (dual i))) <= tol).
Proof.
intros (hx & hy & ho) (fA & fP & fq & hlu) fx fy hw hs fea fer hea her hn hm hN hT hB (sA & sP) tol.
set (z := f_z_us sy (f_clamp sy p w)) in *.
assert (bz : forall i, (i < m)%nat -> fin (z i) /\
  (fin (f_l p i) -> val (f_l p i) - (/ 1125899906842624 * Rabs (val (f_l p i)) + bpow radix2 (-774)) <= val (z i)) /\
  (fin (f_u p i) -> val (z i) <= val (f_u p i) + (/ 1125899906842624 * Rabs (val (f_u p i)) + bpow radix2 (-774)))).
{ intros i hi. destruct (hw i hi), (hs i hi), (hlu i hi) as [? []]. destruct (C102_bounds p sy w i) as [? [_ ?]]; auto. }
assert (eA : forall i, rsumn n (fun j => val (f_A p i j) * val (primal j)) = rsumn n (fun j => val (f_A p i j) * val (f_x_us sx x j))).
{ intros i. apply rsumn_ext. intros j hj. now rewrite hx. }
assert (eP : forall i, rsumn n (fun j => val (f_P p i j) * val (primal j)) = rsumn n (fun j => val (f_P p i j) * val (f_x_us sx x j))).
{ intros i. apply rsumn_ext. intros j hj. now rewrite hx. }
assert (eY : forall j, rsumn m (fun i => val (f_A p i j) * val (dual i)) = rsumn m (fun i => val (f_A p i j) * val (f_y_us c sy y i))).
{ intros j. apply rsumn_ext. intros i hi. now rewrite hy. }
assert (aA : forall i, rsumn n (fun j => Rabs (val (f_A p i j) * val (primal j))) = rsumn n (fun j => Rabs (val (f_A p i j) * val (f_x_us sx x j)))).
{ intros i. apply rsumn_ext. intros j hj. now rewrite hx. }
assert (aP : forall i, rsumn n (fun j => Rabs (val (f_P p i j) * val (primal j))) = rsumn n (fun j => Rabs (val (f_P p i j) * val (f_x_us sx x j)))).
{ intros i. apply rsumn_ext. intros j hj. now rewrite hx. }
assert (aY : forall j, rsumn m (fun i => Rabs (val (f_A p i j) * val (dual i))) = rsumn m (fun i => Rabs (val (f_A p i j) * val (f_y_us c sy y i)))).
{ intros j. apply rsumn_ext. intros i hi. now rewrite hy. }
assert (fx' : forall j, (j < n)%nat -> fin (f_x_us sx x j)) by (intros j hj; rewrite <- hx by exact hj; auto).
assert (fy' : forall i, (i < m)%nat -> fin (f_y_us c sy y i)) by (intros i hi; rewrite <- hy by exact hi; auto).
assert (nN : INR n <= INR N) by (now apply le_INR).
assert (hp : forall i, (i < m)%nat -> Rabs (rsumn n (fun j => val (f_A p i j) * val (primal j)) - val (z i)) <= tol).
{ intros i hi. rewrite eA.
  eapply Rle_trans; [apply (C102_primal n m p ea er _ _ z T B ho); auto; try lra; try (intros k hk; now apply bz)|].
  - intros k hk. rewrite <- aA. now apply sA.
  - intros k hk. rewrite <- eA. split; now apply sA.
  - unfold tol. assert (rnd n T <= rnd N T).
    { unfold rnd. apply Rmult_le_compat_r; [pose proof (bpow_ge_0 radix2 (-1074)); lra|lra]. }
    pose proof (rnd_pos n T ltac:(lra)). pose proof (Rmult_le_compat_l (1 + 2 * val er) _ _ ltac:(lra) H). lra. }
split; [|split].
- intros i hi fl. pose proof (hp i hi) as h. apply Rabs_le_inv in h. destruct (bz i hi) as [_ [h1 _]]. specialize (h1 fl). lra.
- intros i hi fu. pose proof (hp i hi) as h. apply Rabs_le_inv in h. destruct (bz i hi) as [_ [_ h1]]. specialize (h1 fu). lra.
- intros j hj. rewrite eP, eY. apply (C102_dual n m p ea er _ _ z N T B ho); auto.
  + intros k hk. rewrite <- aP, <- aY. destruct (sP k hk) as [? [? ?]]. now split.
  + intros k hk. rewrite <- eP, <- eY. destruct (sP k hk) as [? [? [? [? ?]]]]. repeat split; assumption.
Qed.

(** Without the restriction of the sizes it is false: if a product overflows, both sides of the test are infinite and the test
    passes.  Here the constraint is 2 x = 0, x is 2^1023 and all given numbers are finite. *)
Definition one_qp (P q A l u : b64) : fqp := FQp (fun _ _ => P) (fun _ => q) (fun _ _ => A) (fun _ => l) (fun _ => u).
Theorem C102_overflow_refuted : exists (p : fqp) (sx sy x y w primal dual : fvec),
  f_returns 1 1 p (fint 1) (fdiv (fint 1) (fint 1024)) (fint 1) sx sy x y w primal dual /\ finite_qp 1 1 p /\
  fin (primal 0%nat) /\ fin (dual 0%nat) /\ fin (w 0%nat) /\ val (sy 0%nat) = 1 /\ val (sx 0%nat) = 1 /\ val (w 0%nat) = 0 /\
  val (f_l p 0%nat) = 0 /\ val (f_u p 0%nat) = 0 /\
  val (f_u p 0%nat) + 500 * (1 + / 1024 * (val (f_A p 0%nat 0%nat) * val (primal 0%nat))) < val (f_A p 0%nat 0%nat) * val (primal 0%nat).
Proof.
set (h := fint (2 ^ 1023)). set (k := fun (b : b64) (_ : nat) => b).
exists (one_qp (fint 0) (fint 0) (fint 2) (fint 0) (fint 0)), (k (fint 1)), (k (fint 1)), (k h), (k (fint 0)), (k (fint 0)),
  (f_x_us (k (fint 1)) (k h)), (f_y_us (fint 1) (k (fint 1)) (k (fint 0))).
destruct (fint_val 0 ltac:(lia)) as [e0 f0]. destruct (fint_val 1 ltac:(lia)) as [e1 f1]. destruct (fint_val 2 ltac:(lia)) as [e2 f2].
assert (ex : f_x_us (k (fint 1)) (k h) 0%nat = h) by (apply B2SF_inj; vm_compute; reflexivity).
assert (eh : val h = bpow radix2 1023).
{ unfold val. rewrite <- SF2R_B2SF. replace (B2SF h) with (SpecFloat.S754_finite false 4503599627370496 971) by (vm_compute; reflexivity).
  unfold SF2R, F2R, cond_Zopp, Fnum, Fexp. change (IZR 4503599627370496) with (bpow radix2 52). now rewrite <- bpow_plus. }
assert (low_ok (fint 0) /\ upp_ok (fint 0)) as [o1 o2].
{ split; right; (split; [exact f0|]); rewrite e0, Rabs_R0; apply bpow_ge_0. }
split; [|split; [|split; [rewrite ex; vm_compute; reflexivity|split; [vm_compute; reflexivity|]]]].
- split; [reflexivity|]. split; [reflexivity|].
  set (d := fun (a b : b64) (_ : nat) => fmul a b).
  exists (d (fint 2) (f_x_us (k (fint 1)) (k h) 0%nat)), (d (fint 0) (f_x_us (k (fint 1)) (k h) 0%nat)),
    (d (fint 2) (f_y_us (fint 1) (k (fint 1)) (k (fint 0)) 0%nat)).
  do 7 eexists.
  split; [intros i hi; replace i with 0%nat by lia; apply dot_one|].
  split; [intros _; reflexivity|]. split; [intros _; reflexivity|]. split; [intros _; reflexivity|].
  split; [vm_compute; reflexivity|].
  split; [intros i hi; replace i with 0%nat by lia; apply dot_one|].
  split; [intros i hi; replace i with 0%nat by lia; apply dot_one|].
  split; [intros _; reflexivity|]. split; [intros _; reflexivity|]. split; [intros _; reflexivity|]. split; [intros _; reflexivity|].
  vm_compute. reflexivity.
- unfold finite_qp, one_qp; simpl f_A; simpl f_P; simpl f_q; simpl f_l; simpl f_u.
  split; [intros; exact f2|]. split; [intros; exact f0|]. split; [intros; exact f0|]. intros i _. split; [exact o1|]. split; [exact o2|].
  intros; lra.
- split; [exact f0|]. split; [exact e1|]. split; [exact e1|]. split; [exact e0|]. split; [exact e0|]. split; [exact e0|].
  rewrite ex, eh. change (val (fint 0) + 500 * (1 + / 1024 * (val (fint 2) * bpow radix2 1023)) < val (fint 2) * bpow radix2 1023).
  rewrite e0, e2. pose proof (bpow_le radix2 100 1023 ltac:(lia)) as hb. change (bpow radix2 100) with 1267650600228229401496703205376 in hb. lra.
Qed.
