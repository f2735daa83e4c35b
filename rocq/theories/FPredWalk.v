(** C108: predict for a scalar random walk (f = 0) in double arithmetic. *)
From Coq Require Import Reals ZArith Lia Lra List Bool.
From Flocq Require Import Core BinarySingleNaN Relative.
From Verif Require Import LoopModel LoopFacts LoopEkf FPidModel FPidFacts FPidOut FQpModel FQpFacts FScaleModel FScaleProps FEvalProps FEkfModel FEkfProps
  FPredModel FPredProps.
Import ListNotations.
Open Scope R_scope.

Definition total (l : list (b64 * b64)) : R := fold_right (fun c s => val (snd c) + s) 0 l.
(** The steps are nonnegative numbers and add up to tau. *)
Lemma loop_total tau dt fuel : fin tau -> fin dt -> 0 < val dt -> 0 <= val tau <= p2 1023 -> forall t l, fin t -> 0 <= val t -> val t <= val tau ->
  ekf_loop fuel tau dt t = Some l -> Forall (fun c => fin (snd c) /\ 0 <= val (snd c)) l /\
  Rabs (val t + total l - val tau) <= 11 / 10 * uu * INR (length l) * val tau.
Proof.
intros hT hd d0 bT.
assert (last : forall t, fin t -> 0 <= val t -> val t <= val tau -> Forall (fun c => fin (snd c) /\ 0 <= val (snd c)) [(t, fsub tau t)] /\
  Rabs (val t + total [(t, fsub tau t)] - val tau) <= 11 / 10 * uu * INR (length [(t, fsub tau t)]) * val tau).
{ intros t ft t0 tT. destruct (fsub_val tau t hT ft) as [es fs]; [lra|]. split.
  - constructor; [|constructor]. simpl. split; [exact fs|]. rewrite es. apply RN_pos. lra.
  - unfold total, fold_right, snd, length. rewrite es. destruct (sub_rel (val tau) (val t) (val_fmt tau) (val_fmt t)) as [e [he E]]. rewrite E.
    replace (val t + ((val tau - val t) * (1 + e) + 0) - val tau) with (e * (val tau - val t)) by ring.
    apply Rle_trans with (uu * val tau); [apply prod_le; [exact he|rewrite Rabs_pos_eq; lra]|]. change (INR 1) with 1. lra. }
induction fuel as [|fuel IH]; intros t l ft t0 tT; simpl ekf_loop; pose proof (guard t dt tau ft hd hT t0 d0) as g; destruct (flt (fadd t dt) tau); try discriminate.
- intros [= <-]. now apply last.
- destruct g as (g1 & g2 & g3). destruct (ekf_loop fuel tau dt (fadd t dt)) as [l'|] eqn:El; [|discriminate]. intros [= <-].
  destruct (IH (fadd t dt) l') as [i1 i2]; try assumption; [rewrite g2; apply RN_pos; lra|lra|].
  split; [constructor; [simpl; split; [exact hd|lra]|exact i1]|].
  change (total ((t, dt) :: l')) with (val dt + total l'). change (length ((t, dt) :: l')) with (S (length l')). rewrite S_INR.
  destruct (sub_rel (val t) (- val dt) (val_fmt t)) as [e [he E]]; [apply generic_format_opp, val_fmt|]. replace (val t - - val dt) with (val t + val dt) in E by ring. rewrite <- g2 in E. rewrite <- g2 in g3.
  pose proof (Rabs_le_inv _ _ he) as he'.
  assert (b : val t + val dt <= 11 / 10 * val tau).
  { assert ((val t + val dt) * (1 - uu) <= val (fadd t dt)) by (rewrite E; apply Rmult_le_compat_l; lra). lra. }
  assert (er : Rabs (e * (val t + val dt)) <= uu * (11 / 10 * val tau)) by (apply prod_le; [exact he|rewrite Rabs_pos_eq; lra]).
  replace (val t + (val dt + total l') - val tau) with ((val (fadd t dt) + total l' - val tau) - e * (val t + val dt)) by (rewrite E; ring).
  eapply Rle_trans; [apply Rabs_triang|]. rewrite Rabs_Ropp. lra.
- intros [= <-]. now apply last.
Qed.
(** One step with the derivative 0: p + s q up to two roundings. *)
Lemma walk_step a q s p p' : fin a -> val a = 0 -> fin q -> fin s -> fin p -> 0 <= val q -> 0 <= val s -> 0 <= val p ->
  val q <= p2 1022 -> val p + val s * val q <= p2 1022 -> fp_step a q s p p' ->
  fin p' /\ 0 <= val p' /\ Rabs (val p' - (val p + val s * val q)) <= 201 / 100 * uu * (val p + val s * val q) + 101 / 100 * eta.
Proof.
intros fa ea fq fs fp q0 s0 p0 bq bT (d & hd & hp). set (T := val p + val s * val q) in *. assert (sq0 : 0 <= val s * val q) by (apply Rmult_le_pos; lra).
pose proof (p2_pos (-1075)) as e0. pose proof (p2_pos 1022) as P0. assert (E23 : p2 1023 = 2 * p2 1022) by (change 1023%Z with (1 + 1022)%Z; now rewrite bpow_plus).
assert (f0 : fmt 0) by apply generic_format_0. assert (R0 : RN 0 = 0) by (apply RN_id; exact f0).
assert (D : fin d /\ val d = val q).
{ destruct (mul_val p a fp fa) as [e2 f2]; [rewrite ea, Rmult_0_r, Rabs_R0; lra|]. rewrite ea, Rmult_0_r, R0 in e2.
  destruct hd as [-> | ->].
  - destruct (mul_val a p fa fp) as [e1 f1]; [rewrite ea, Rmult_0_l, Rabs_R0; lra|]. rewrite ea, Rmult_0_l, R0 in e1.
    destruct (add_val _ _ f1 f2) as [e3 f3]; [rewrite e1, e2, Rplus_0_r, Rabs_R0; lra|]. rewrite e1, e2, Rplus_0_r, R0 in e3.
    destruct (add_val _ q f3 fq) as [e4 f4]; [rewrite e3, Rplus_0_l, Rabs_pos_eq; lra|]. rewrite e3, Rplus_0_l, RN_id in e4 by apply val_fmt. now split.
  - destruct (fma_val a p _ fa fp f2) as [e3 f3]; [rewrite e2, ea, Rmult_0_l, Rplus_0_l, Rabs_R0; lra|]. rewrite e2, ea, Rmult_0_l, Rplus_0_l, R0 in e3.
    destruct (add_val _ q f3 fq) as [e4 f4]; [rewrite e3, Rplus_0_l, Rabs_pos_eq; lra|]. rewrite e3, Rplus_0_l, RN_id in e4 by apply val_fmt. now split. }
destruct D as [fd ed]. assert (f22 : fmt (p2 1022)) by (apply bpow_fmt; lia).
destruct hp as [-> | ->].
- destruct (mul_val s d fs fd) as [em fm]; [rewrite ed, Rabs_pos_eq by lra; unfold T in *; lra|]. rewrite ed in em.
  assert (m0 : 0 <= val (fmul s d) <= p2 1022) by (rewrite em; split; [now apply RN_pos|apply RN_upper; [exact f22|unfold T in *; lra]]).
  assert (pb : val p <= p2 1022) by (unfold T in *; lra).
  destruct (add_val p (fmul s d) fp fm) as [ev fv]; [rewrite Rabs_pos_eq; lra|]. split; [exact fv|]. split; [rewrite ev; apply RN_pos; lra|].
  destruct (sub_rel (val p) (- val (fmul s d)) (val_fmt p)) as [e [he E]]; [apply generic_format_opp, val_fmt|]. replace (val p - - val (fmul s d)) with (val p + val (fmul s d)) in E by ring.
  assert (k1 : Rabs (val (fmul s d) - val s * val q) <= uu * (val s * val q) + eta) by (rewrite em; apply err_b; rewrite Rabs_pos_eq; lra).
  apply Rabs_le_inv in k1. rewrite ev, E. assert (k2 : Rabs (e * (val p + val (fmul s d))) <= uu * (1001 / 1000 * T + 1001 / 1000 * eta)) by (apply prod_le; [exact he|rewrite Rabs_pos_eq; unfold T in *; lra]).
  replace ((val p + val (fmul s d)) * (1 + e) - T) with (e * (val p + val (fmul s d)) + (val (fmul s d) - val s * val q)) by (unfold T; ring).
  apply Rabs_le_inv in k2. apply Rabs_le. unfold T in *. lra.
- destruct (fma_val s d p fs fd fp) as [ev fv]; [rewrite ed, Rplus_comm; fold T; rewrite Rabs_pos_eq; unfold T in *; lra|]. rewrite ed, Rplus_comm in ev. fold T in ev.
  split; [exact fv|]. split; [rewrite ev; apply RN_pos; unfold T; lra|]. assert (T0 : 0 <= T) by (unfold T; lra).
  pose proof (err_b T T ltac:(rewrite Rabs_pos_eq; lra)) as k. rewrite <- ev in k. lra.
Qed.
Lemma walk_steps a q : fin a -> val a = 0 -> fin q -> 0 <= val q <= p2 1022 -> forall l p p', fp_steps a q l p p' ->
  Forall (fun c => fin (snd c) /\ 0 <= val (snd c)) l -> fin p -> 0 <= val p -> INR (length l) * uu <= / 1000 ->
  let T := val p + val q * total l in let N := INR (length l) in T * (1 + 3 * (N * uu)) + 3 * N * eta <= p2 1022 ->
  fin p' /\ 0 <= val p' /\ Rabs (val p' - T) <= 22 / 10 * (N * uu) * T + 2 * N * eta.
Proof.
intros fa ea fq bq. pose proof (p2_pos (-1075)) as e0.
induction 1 as [p|t s l p p1 p' hst _ IH]; intros hl fp p0 hn; cbv zeta.
- simpl length. simpl total. change (INR 0) with 0. intros _. split; [exact fp|]. split; [exact p0|]. rewrite Rmult_0_r, Rplus_0_r. unfold Rminus. rewrite Rplus_opp_r, Rabs_R0. lra.
- inversion hl as [|c l' [fs s0] hl']; subst. unfold snd in fs, s0. change (total ((t, s) :: l)) with (val s + total l). change (length ((t, s) :: l)) with (S (length l)) in *. rewrite S_INR in *.
  set (n := INR (length l)) in *. assert (n0 : 0 <= n) by apply pos_INR. set (N := n * uu) in *. replace ((n + 1) * uu) with (N + uu) in * by (unfold N; ring).
  assert (tot0 : 0 <= total l). { clear -hl'. induction hl' as [|c l [_ h] _ IH]; unfold total in *; simpl in *; lra. }
  set (A := val p + val s * val q). set (B := val q * total l). assert (sq0 : 0 <= val s * val q) by (apply Rmult_le_pos; lra). assert (B0 : 0 <= B) by (apply Rmult_le_pos; lra). assert (A0 : 0 <= A) by (unfold A; lra).
  replace (val p + val q * (val s + total l)) with (A + B) by (unfold A, B; ring). set (T := A + B). assert (T0 : 0 <= T) by (unfold T; lra). intros hT.
  assert (N0 : 0 <= N) by (unfold N; apply Rmult_le_pos; lra).
  assert (NT : 0 <= N * T <= / 1000 * T) by (split; [apply Rmult_le_pos; lra|apply Rmult_le_compat_r; lra]).
  assert (Ne : 0 <= N * eta <= / 1000 * eta) by (split; [apply Rmult_le_pos; lra|apply Rmult_le_compat_r; lra]).
  assert (ne : 0 <= n * eta) by (apply Rmult_le_pos; lra).
  destruct (walk_step a q s p p1 fa ea fq fs fp ltac:(lra) s0 p0 ltac:(lra)) as (f1 & p10 & er); [fold A; unfold T in *; lra|exact hst|]. fold A in er. apply Rabs_le_inv in er.
  assert (T1 : val p1 + B <= T + 201 / 100 * uu * T + 101 / 100 * eta) by (unfold T in *; lra). assert (T1' : 0 <= val p1 + B) by lra.
  assert (NT1 : N * (val p1 + B) <= N * T + 201 / 100 * uu * (N * T) + 101 / 100 * (N * eta)).
  { replace (N * T + 201 / 100 * uu * (N * T) + 101 / 100 * (N * eta)) with (N * (T + 201 / 100 * uu * T + 101 / 100 * eta)) by ring. apply Rmult_le_compat_l; lra. }
  destruct IH as (f' & p0' & er'); try assumption; [lra|fold n; fold N; fold B|].
  + replace ((val p1 + B) * (1 + 3 * N)) with ((val p1 + B) + 3 * (N * (val p1 + B))) by ring. lra.
  + fold n in er'. fold N in er'. fold B in er'. split; [exact f'|]. split; [exact p0'|]. apply Rabs_le_inv in er'. apply Rabs_le. unfold T in *. lra.
Qed.
(** C108: predict adds q tau to the variance, up to a relative error of 2^-51 per step of the solver. *)
Theorem C108_walk a q tau dt l p p' : fin a -> val a = 0 -> fin q -> fin tau -> fin dt -> fin p -> 0 <= val q <= p2 400 -> 0 <= val tau <= p2 400 -> 0 < val dt ->
  0 <= val p <= p2 900 -> INR (length l) <= 2 ^ 43 -> fp_predict a q tau dt l p p' ->
  fin p' /\ 0 <= val p' /\ Rabs (val p' - (val p + val q * val tau)) <= INR (length l) / 2 ^ 51 * (val p + val q * val tau) + INR (length l) * p2 (-1074).
Proof.
intros fa ea fq ft fd fp bq bt d0 bp hn (fuel & hl & hs). destruct (fint_val 0) as [e0 f0]; [lia|]. pose proof (p2_pos (-1075)) as q5.
assert (up : forall i j, (i <= j)%Z -> p2 i <= p2 j) by (intros; now apply bpow_le).
destruct (loop_total tau dt fuel ft fd d0 ltac:(pose proof (up 400%Z 1023%Z ltac:(lia)); lra) (fint 0) l f0 ltac:(lra) ltac:(lra) hl) as [hf ht].
rewrite e0, Rplus_0_l in ht. set (n := INR (length l)) in *. assert (n0 : 0 <= n) by apply pos_INR. assert (nu : n * uu <= / 1000) by (simpl pow in hn; lra).
set (N := n * uu) in *. assert (N0 : 0 <= N) by (unfold N; apply Rmult_le_pos; lra).
replace (11 / 10 * uu * n * val tau) with (11 / 10 * (N * val tau)) in ht by (unfold N; ring). apply Rabs_le_inv in ht.
set (Q := val q * val tau). assert (Q0 : 0 <= Q) by (apply Rmult_le_pos; lra). assert (Q1 : Q <= p2 800) by (unfold Q; change 800%Z with (400 + 400)%Z; rewrite bpow_plus; apply Rmult_le_compat; lra).
assert (NQ : 0 <= N * Q <= / 1000 * Q) by (split; [apply Rmult_le_pos; lra|apply Rmult_le_compat_r; lra]).
assert (qs : Q - 11 / 10 * (N * Q) <= val q * total l <= Q + 11 / 10 * (N * Q)).
{ replace (N * Q) with (val q * (N * val tau)) by (unfold Q; ring). unfold Q. split.
  - replace (val q * val tau - 11 / 10 * (val q * (N * val tau))) with (val q * (val tau - 11 / 10 * (N * val tau))) by ring. apply Rmult_le_compat_l; lra.
  - replace (val q * val tau + 11 / 10 * (val q * (N * val tau))) with (val q * (val tau + 11 / 10 * (N * val tau))) by ring. apply Rmult_le_compat_l; lra. }
set (T := val p + val q * total l). set (T' := val p + Q). assert (TT : 0 <= T <= 101 / 100 * T') by (unfold T, T'; lra).
assert (NT : 0 <= N * T <= 101 / 100 * (N * T')). { split; [apply Rmult_le_pos; lra|]. replace (101 / 100 * (N * T')) with (N * (101 / 100 * T')) by ring. apply Rmult_le_compat_l; lra. }
assert (NT' : N * T' <= / 1000 * T') by (apply Rmult_le_compat_r; unfold T'; lra).
assert (e74 : p2 (-1074) = 2 * eta) by (change (-1074)%Z with (1 + -1075)%Z; now rewrite bpow_plus).
assert (ne : 0 <= n * eta <= 1). { split; [apply Rmult_le_pos; lra|]. apply Rle_trans with (p2 43 * eta); [apply Rmult_le_compat_r; [lra|simpl in *; lra]|]. rewrite <- bpow_plus. apply Rle_trans with (p2 0); [apply up; lia|simpl; lra]. }
assert (big : 100 * p2 900 <= p2 1022). { apply Rle_trans with (p2 7 * p2 900); [apply Rmult_le_compat_r; [apply bpow_ge_0|simpl; lra]|]. rewrite <- bpow_plus. apply up. lia. }
pose proof (up 800%Z 900%Z ltac:(lia)) as u8. assert (u9 : 1 <= p2 900) by (change 1 with (p2 0); apply up; lia).
destruct (walk_steps a q fa ea fq ltac:(pose proof (up 400%Z 1022%Z ltac:(lia)); lra) l p p' hs hf fp ltac:(lra) nu) as (f' & p0' & er).
- fold n. fold N. fold T. replace (T * (1 + 3 * N)) with (T + 3 * (N * T)) by ring. unfold T' in *. lra.
- fold n in er. fold N in er. fold T in er. split; [exact f'|]. split; [exact p0'|]. replace (22 / 10 * N * T) with (22 / 10 * (N * T)) in er by ring.
  replace (n / 2 ^ 51) with (4 * N) by (unfold N; simpl pow; lra). replace (4 * N * (val p + val q * val tau)) with (4 * (N * T')) by (unfold T', Q; ring). fold Q. fold T'. rewrite e74.
  apply Rabs_le_inv in er. assert (dT : - (11 / 10 * (N * Q)) <= T - T' <= 11 / 10 * (N * Q)) by (unfold T, T'; lra).
  assert (NQT : N * Q <= N * T') by (apply Rmult_le_compat_l; unfold T'; lra). apply Rabs_le. lra.
Qed.
