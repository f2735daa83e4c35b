(** C99: the PID controller in double arithmetic. *)
From Coq Require Import Reals ZArith Lia Lra List Bool.
From Flocq Require Import Core BinarySingleNaN Relative Plus_error.
From Verif Require Import LoopModel LoopFacts FPidModel FPidFacts.
Import ListNotations.
Local Open Scope R_scope.

(** Times far from overflow; errors that are numbers (infinities included). *)
Definition time_ok (t : b64) : Prop := nan t \/ (fin t /\ Rabs (val t) <= bpow radix2 1022).
Definition num_op (k : nat) (o : fop) : Prop := match o with PCall c => time_ok (c_t c) /\ ~ nan (c_err c k) | _ => True end.

Lemma last_ok k h s : (forall o, In o h -> num_op k o) -> (forall t, f_last s = Some t -> time_ok t) ->
  forall t, f_last (f_run s h) = Some t -> time_ok t.
Proof.
revert s. induction h as [|o h IH]; intros s hh hs; [exact hs|]. unfold f_run. simpl. apply IH.
- intros o' ho'. apply hh. now right.
- destruct o; simpl; try exact hs. intros t [= <-]. apply (hh (PCall c)). now left.
Qed.

(** In every history of public operations with a finite limit w >= 0, whatever the gains, with times in any order (NaN
    included) and errors that may be infinite, each component of the integral state is finite and within the limit. *)
Theorem C99_bounded (w : b64) (h : list fop) (k : nat) : fin w -> 0 <= val w ->
  (forall o, In o h -> num_op k o) ->
  fin (f_i (f_run (fpid_new w) h) k) /\ Rabs (val (f_i (f_run (fpid_new w) h) k)) <= val w.
Proof.
intros hw pw.
assert (forall s, f_w s = w -> (forall t, f_last s = Some t -> time_ok t) -> fin (f_i s k) /\ Rabs (val (f_i s k)) <= val w ->
  (forall o, In o h -> num_op k o) -> fin (f_i (f_run s h) k) /\ Rabs (val (f_i (f_run s h) k)) <= val w) as H.
{ induction h as [|o h' IH]; intros s ew hl hi ho; [exact hi|]. unfold f_run. simpl.
  assert (num_op k o) as no by (apply ho; now left).
  apply IH.
  - destruct o; exact ew.
  - destruct o as [c| | | |]; simpl; try exact hl. intros t [= <-]. apply no.
  - destruct o as [c| | | |]; simpl; try exact hi.
    + unfold f_i_next. destruct (f_last s) as [tl|] eqn:el; [|exact hi].
      destruct (flt tl (c_t c)) eqn:hlt; [|exact hi].
      destruct no as [[nt|[ft bt]] ne]; [exfalso; destruct (c_t c); try easy; destruct tl; easy|].
      destruct (hl tl eq_refl) as [nt|[fl bl]]; [exfalso; destruct tl; easy|].
      destruct (dt_pos (c_t c) tl ft fl hlt bt bl) as [fd pd].
      unfold f_integrate. rewrite ew. apply clamp_num; [exact hw|exact pw|].
      apply add_num; [apply hi|]. now apply mul_num.
    + split; [reflexivity|]. change (val (fint 0)) with 0. rewrite Rabs_R0. exact pw.
  - intros o' h'o. apply ho. now right. }
intros ho. apply H; [reflexivity|easy| |exact ho].
split; [reflexivity|]. change (val (f_i (fpid_new w) k)) with 0. rewrite Rabs_R0. exact pw.
Qed.

(** One error that is not a number, at a time later than that of the call before, makes every later control not a number in
    this component, whatever the gains (also ki = 0), errors and times of the later calls, until the integral is reset. *)
Theorem C99_nan (w : b64) (h1 h2 : list fop) (c c' : fcall) (tl : b64) (k : nat) :
  f_last (f_run (fpid_new w) h1) = Some tl -> flt tl (c_t c) = true -> nan (c_err c k) -> ~ In PReset h2 ->
  nan (snd (f_call (f_run (fpid_new w) (h1 ++ PCall c :: h2)) c') k).
Proof.
intros el hlt hn hr. unfold f_run. rewrite fold_left_app. simpl. fold (f_run (fpid_new w) h1).
set (s1 := f_run _ h1) in *. change (fold_left f_step h2) with (fun s => f_run s h2). cbv beta.
assert (forall s c1, nan (f_i s k) -> nan (f_i_next s c1 k)) as keep.
{ intros s c1 hs. unfold f_i_next. destruct (f_last s) as [tl'|]; [|exact hs]. destruct (flt tl' (c_t c1)); [|exact hs].
  apply nan_clamp. now apply nan_add_l. }
assert (forall s, nan (f_i s k) -> nan (f_i (f_run s h2) k)) as go.
{ clear -keep hr. induction h2 as [|o h IH]; intros s hs; [exact hs|]. unfold f_run. simpl. apply IH.
  - intros hi. apply hr. now right.
  - destruct o; simpl; try exact hs; [now apply keep|]. exfalso. apply hr. now left. }
simpl. apply nan_add_r, nan_mul_r, keep, go. simpl. unfold f_i_next. rewrite el, hlt.
apply nan_clamp, nan_add_r. now apply nan_mul_r.
Qed.

(** The integral in exact arithmetic: contribution of the time since the call before, then the limiter. *)
Definition exact_step (w : R) (k : nat) (p : option R * R) (o : fop) : option R * R :=
  match o with
  | PCall c =>
      let t := val (c_t c) in
      (Some t, match fst p with
               | Some tl => if Rlt_dec tl t then rclamp w (snd p + (t - tl) * val (c_err c k)) else snd p
               | None => snd p end)
  | PReset => (fst p, 0)
  | _ => p
  end.
Definition exact_int (w : R) (k : nat) (h : list fop) : R := snd (fold_left (exact_step w k) h (None, 0)).
(** Sum of |time step * error| and the number of the calls. *)
Fixpoint work (k : nat) (tl : option R) (h : list fop) : R :=
  match h with
  | [] => 0
  | PCall c :: r => match tl with Some t => Rabs ((val (c_t c) - t) * val (c_err c k)) | None => 0 end + work k (Some (val (c_t c))) r
  | _ :: r => work k tl r
  end.
Fixpoint ncalls (h : list fop) : nat := match h with [] => 0 | PCall _ :: r => S (ncalls r) | _ :: r => ncalls r end.

Definition mild (x : b64) : Prop := fin x /\ Rabs (val x) <= bpow radix2 500.
Definition mild_op (k : nat) (o : fop) : Prop := match o with PCall c => mild (c_t c) /\ mild (c_err c k) | _ => True end.

Lemma sub_err x y : fmt x -> fmt y -> exists d, Rabs d <= ulp1 /\ RN (x - y) = (x - y) * (1 + d).
Proof.
intros hx hy. destruct (FLT_plus_error_N_ex radix2 (-1074) 53 (fun n => negb (Z.even n)) x (- y) hx) as [d [h1 h2]].
- now apply generic_format_opp.
- exists d. split; [|exact h2]. eapply Rle_trans; [exact h1|]. unfold ulp1, u_ro. simpl. lra.
Qed.
Lemma add_err x y : fmt x -> fmt y -> exists d, Rabs d <= ulp1 /\ RN (x + y) = (x + y) * (1 + d).
Proof.
intros hx hy. destruct (FLT_plus_error_N_ex radix2 (-1074) 53 (fun n => negb (Z.even n)) x y hx hy) as [d [h1 h2]].
exists d. split; [|exact h2]. eapply Rle_trans; [exact h1|]. unfold ulp1, u_ro. simpl. lra.
Qed.

(** Rounding error of one integration step before the limiter. *)
Lemma real_step i D e d1 d2 h2 d3 v w : 0 <= v <= / 1000000 -> Rabs i <= w -> Rabs d1 <= v -> Rabs d2 <= v -> Rabs d3 <= v ->
  Rabs ((i + (D * (1 + d1) * e * (1 + d2) + h2)) * (1 + d3) - (i + D * e)) <= v * w + 4 * v * Rabs (D * e) + 2 * Rabs h2.
Proof.
intros hv hi h1 h2' h3.
replace ((i + (D * (1 + d1) * e * (1 + d2) + h2)) * (1 + d3) - (i + D * e))
  with (d3 * i + (D * e) * (d1 + d2 + d1 * d2 + d3 * ((1 + d1) * (1 + d2))) + h2 * (1 + d3)) by ring.
set (x := D * e).
assert (forall a b A B, Rabs a <= A -> Rabs b <= B -> Rabs (a * b) <= A * B) as mul
  by (intros; rewrite Rabs_mult; apply Rmult_le_compat; auto using Rabs_pos).
assert (Rabs (d3 * i) <= v * w) as t1 by now apply mul.
assert (Rabs (d1 + d2 + d1 * d2 + d3 * ((1 + d1) * (1 + d2))) <= 4 * v) as t2.
{ assert (Rabs (d1 * d2) <= v * v) as a1 by now apply mul.
  assert (forall d, Rabs d <= v -> Rabs (1 + d) <= 1 + v) as a2.
  { intros d hd. apply Rabs_le. apply Rabs_le_inv in hd. lra. }
  assert (Rabs (d3 * ((1 + d1) * (1 + d2))) <= v * ((1 + v) * (1 + v))) as a3 by (apply mul; auto).
  apply Rabs_le_inv in a1. apply Rabs_le_inv in a3. apply Rabs_le_inv in h1. apply Rabs_le_inv in h2'.
  assert (v * v <= v * / 1000000) by (apply Rmult_le_compat_l; lra).
  assert (v * v * v <= v * / 1000000).
  { rewrite Rmult_assoc. apply Rmult_le_compat_l; [lra|]. nra. }
  apply Rabs_le. lra. }
assert (Rabs (x * (d1 + d2 + d1 * d2 + d3 * ((1 + d1) * (1 + d2)))) <= Rabs x * (4 * v)) as t3 by (apply mul; [lra|exact t2]).
assert (Rabs (h2 * (1 + d3)) <= Rabs h2 * 2) as t4.
{ apply mul; [lra|]. apply Rabs_le. apply Rabs_le_inv in h3. lra. }
eapply Rle_trans; [apply Rabs_triang|]. eapply Rle_trans; [apply Rplus_le_compat_r, Rabs_triang|]. lra.
Qed.

Lemma bp_mild : bpow radix2 1001 * 4 <= bpow radix2 1023 /\ bpow radix2 500 * 2 = bpow radix2 501 /\ bpow radix2 501 * bpow radix2 500 = bpow radix2 1001.
Proof.
split; [|split; [|rewrite <- bpow_plus; reflexivity]].
- apply Rle_trans with (bpow radix2 1003); [|apply bpow_le; lia]. change 1003%Z with (1001 + 2)%Z. rewrite bpow_plus. right. reflexivity.
- change 501%Z with (500 + 1)%Z. rewrite bpow_plus. reflexivity.
Qed.

Lemma step_err w t tl e i : mild w -> 0 <= val w -> mild t -> mild tl -> mild e -> fin i -> Rabs (val i) <= val w ->
  fin (f_integrate w (fsub t tl) e i) /\ exists s, val (f_integrate w (fsub t tl) e i) = rclamp (val w) s /\
  Rabs (s - (val i + (val t - val tl) * val e)) <= ulp1 * val w + 4 * ulp1 * Rabs ((val t - val tl) * val e) + bpow radix2 (-1074).
Proof.
intros [fw bw] pw [ft bt] [fl bl] [fe be] fi bi. destruct bp_mild as [b1 [b2 b3]].
assert (bpow radix2 501 <= bpow radix2 1001) as b4 by (apply bpow_le; lia).
assert (0 < bpow radix2 501) as b5 by apply bpow_gt_0. assert (0 < bpow radix2 500) as b6 by apply bpow_gt_0.
rewrite (Rabs_pos_eq _ pw) in bw.
assert (Rabs (val t - val tl) <= bpow radix2 501) as hD.
{ apply Rabs_le. apply Rabs_le_inv in bt. apply Rabs_le_inv in bl. lra. }
destruct (sub_val t tl ft fl) as [ed fd]; [lra|].
destruct (sub_err _ _ (val_fmt t) (val_fmt tl)) as [d1 [hd1 e1]].
assert (Rabs (RN (val t - val tl)) <= bpow radix2 501) as hd.
{ apply abs_round_le_generic; auto with typeclass_instances. apply bpow_fmt. lia. }
assert (Rabs (val (fsub t tl) * val e) <= bpow radix2 1001) as hp.
{ rewrite ed, Rabs_mult, <- b3. apply Rmult_le_compat; auto using Rabs_pos. }
destruct (mul_val (fsub t tl) e fd fe) as [ep fp]; [lra|].
assert (Rabs (RN (val (fsub t tl) * val e)) <= bpow radix2 1001) as hp'.
{ apply abs_round_le_generic; auto with typeclass_instances. apply bpow_fmt. lia. }
destruct (RN_err (val (fsub t tl) * val e)) as [d2 [h2 [hd2 [hh2 e2]]]].
assert (Rabs (val i + val (fmul (fsub t tl) e)) <= bpow radix2 1023) as hs.
{ rewrite ep. apply Rabs_le. apply Rabs_le_inv in hp'. apply Rabs_le_inv in bi. lra. }
destruct (add_val i (fmul (fsub t tl) e) fi fp hs) as [es fs].
destruct (add_err _ _ (val_fmt i) (val_fmt (fmul (fsub t tl) e))) as [d3 [hd3 e3]].
unfold f_integrate. destruct (clamp_fin w _ fw fs) as [fc ec]. split; [exact fc|].
exists (val (fadd i (fmul (fsub t tl) e))). split; [exact ec|].
rewrite es, e3, ep, e2, ed, e1.
eapply Rle_trans; [apply (real_step (val i) (val t - val tl) (val e) d1 d2 h2 d3 ulp1 (val w)); auto|].
- unfold ulp1. simpl. lra.
- change (-1074)%Z with (-1075 + 1)%Z. rewrite bpow_plus. simpl (bpow radix2 1). lra.
Qed.

(** In every history of public operations with moderate numbers and a limit w >= 0, the integral state differs from the
    exactly computed limited integral of the error by at most 2^-53 w + 2^-1074 per call and 2^-51 times the integral of the
    absolute error. *)
Theorem C99_accuracy (w : b64) (h : list fop) (k : nat) : mild w -> 0 <= val w -> (forall o, In o h -> mild_op k o) ->
  Rabs (val (f_i (f_run (fpid_new w) h) k) - exact_int (val w) k h) <=
  INR (ncalls h) * (bpow radix2 (-53) * val w + bpow radix2 (-1074)) + bpow radix2 (-51) * work k None h.
Proof.
intros hw pw ho.
assert (forall s tl I, f_w s = w -> (forall t, f_last s = Some t -> mild t) -> tl = option_map val (f_last s) ->
  fin (f_i s k) -> Rabs (val (f_i s k)) <= val w ->
  Rabs (val (f_i (f_run s h) k) - snd (fold_left (exact_step (val w) k) h (tl, I))) <=
  Rabs (val (f_i s k) - I) + INR (ncalls h) * (bpow radix2 (-53) * val w + bpow radix2 (-1074)) + 4 * ulp1 * work k tl h) as H.
{ set (K := bpow radix2 (-53) * val w + bpow radix2 (-1074)).
  assert (0 <= K) as K0.
  { unfold K. pose proof (bpow_ge_0 radix2 (-1074)). pose proof (bpow_ge_0 radix2 (-53)).
    assert (0 <= bpow radix2 (-53) * val w) by now apply Rmult_le_pos. lra. }
  induction h as [|o h' IH]; intros s tl I ew hl etl fi bi.
  - simpl. lra.
  - assert (mild_op k o) as no by (apply ho; now left).
    assert (forall o', In o' h' -> mild_op k o') as ho' by (intros o' q; apply ho; now right).
    specialize (IH ho'). unfold f_run. simpl fold_left. fold (f_run (f_step s o) h').
    destruct o as [c|g|g|g|];
      [|exact (IH (f_step s (PKp g)) tl I ew hl etl fi bi)|exact (IH (f_step s (PKd g)) tl I ew hl etl fi bi)
       |exact (IH (f_step s (PKi g)) tl I ew hl etl fi bi)|].
    + destruct no as [mt me]. simpl exact_step. simpl ncalls. simpl work. rewrite S_INR.
      specialize (IH (f_step s (PCall c)) (Some (val (c_t c)))).
      assert (forall X, Rabs (val (f_i_next s c k) - X) <=
        Rabs (val (f_i s k) - I) + K + 4 * ulp1 * match tl with Some t => Rabs ((val (c_t c) - t) * val (c_err c k)) | None => 0 end ->
        fin (f_i_next s c k) -> Rabs (val (f_i_next s c k)) <= val w ->
        Rabs (val (f_i (f_run (f_step s (PCall c)) h') k) - snd (fold_left (exact_step (val w) k) h' (Some (val (c_t c)), X))) <=
        Rabs (val (f_i s k) - I) + (INR (ncalls h') + 1) * K + 4 * ulp1 *
         (match tl with Some t => Rabs ((val (c_t c) - t) * val (c_err c k)) | None => 0 end + work k (Some (val (c_t c))) h')) as go.
      { intros X hX f1 f2. eapply Rle_trans; [apply (IH X)|]; auto.
        - intros t [= <-]. exact mt.
        - simpl f_i in *. rewrite Rmult_plus_distr_l, Rmult_plus_distr_r. lra. }
      assert (0 <= 4 * ulp1) as u0 by (pose proof (bpow_ge_0 radix2 (-53)); unfold ulp1; lra).
      assert (forall y, 0 <= 4 * ulp1 * Rabs y) as u1 by (intros y; apply Rmult_le_pos; [exact u0|apply Rabs_pos]).
      simpl fst. simpl snd. apply go.
      * subst tl. unfold f_i_next. destruct (f_last s) as [tl|] eqn:el; simpl option_map; cbv iota.
        -- specialize (hl tl eq_refl). pose proof (u1 ((val (c_t c) - val tl) * val (c_err c k))).
           destruct (flt tl (c_t c)) eqn:hlt; [apply flt_val in hlt|apply flt_valF in hlt]; try apply mt; try apply hl;
           destruct (Rlt_dec (val tl) (val (c_t c))); try lra.
           rewrite ew. destruct (step_err w (c_t c) tl (c_err c k) (f_i s k) hw pw mt hl me fi bi) as [_ [z [-> hz]]].
           eapply Rle_trans; [apply rclamp_lip|].
           set (q := (val (c_t c) - val tl) * val (c_err c k)) in *.
           replace (z - (I + q)) with ((z - (val (f_i s k) + q)) + (val (f_i s k) - I)) by ring.
           eapply Rle_trans; [apply Rabs_triang|]. unfold K, ulp1 in *. lra.
        -- lra.
      * unfold f_i_next. destruct (f_last s) as [tl'|] eqn:el; [|exact fi]. destruct (flt _ _); [|exact fi]. rewrite ew.
        apply (step_err w (c_t c) tl' (c_err c k) (f_i s k) hw pw mt (hl tl' eq_refl) me fi bi).
      * unfold f_i_next. destruct (f_last s) as [tl'|] eqn:el; [|exact bi]. destruct (flt _ _); [|exact bi]. rewrite ew.
        destruct (step_err w (c_t c) tl' (c_err c k) (f_i s k) hw pw mt (hl tl' eq_refl) me fi bi) as [_ [z [-> _]]].
        now apply rclamp_bound.
    + simpl exact_step. simpl ncalls. simpl work.
      eapply Rle_trans; [apply (IH (f_step s PReset) tl 0); auto|].
      * reflexivity.
      * change (val (f_i (f_step s PReset) k)) with 0. rewrite Rabs_R0. exact pw.
      * simpl f_i. change (val (B754_zero false)) with 0. rewrite Rminus_0_r, Rabs_R0. pose proof (Rabs_pos (val (f_i s k) - I)). lra. }
specialize (H (fpid_new w) None 0 eq_refl). simpl f_last in H. simpl option_map in H.
specialize (H ltac:(easy) eq_refl eq_refl). change (val (f_i (fpid_new w) k)) with 0 in H.
replace (0 - 0) with 0 in H by ring. rewrite Rabs_R0 in H. specialize (H pw).
replace (bpow radix2 (-51)) with (4 * ulp1); [unfold exact_int; lra|].
unfold ulp1. change (-51)%Z with (2 + -53)%Z. rewrite bpow_plus. reflexivity.
Qed.
