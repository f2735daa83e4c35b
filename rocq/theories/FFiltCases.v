(** C109: a case. *)
From Coq Require Import Reals ZArith Lia Lra List Bool.
From Flocq Require Import Core BinarySingleNaN.
From Verif Require Import LoopModel LoopFacts FPidModel FPidFacts FPidOut FQpModel FQpFacts FScaleModel FScaleProps FEkfModel FEkfProps FEkfCases
  FEstModel FEstProps FEstCases FPredModel FPredProps FPredWalk FPredCases FFiltModel FFiltProps.
Import ListNotations.
Open Scope R_scope.

Fixpoint ff_ups (l : list (b64 * b64)) (x : b64) : b64 := match l with [] => x | (_, s) :: l => ff_ups l (fadd x (fmul s (fint 0))) end.
Lemma ff_upsE l x : ff_state l x (ff_ups l x).
Proof. revert x. induction l as [|[t s] l IH]; intros x; simpl; [constructor|]. apply ff_cons with (1 := or_introl eq_refl). apply IH. Qed.
(** Measurement 1, prediction over the time 1 with q = 1 in steps of 1/4, measurement 2, both of variance 1, from the estimate 0 and the variance 1:
    the estimate stays in [0, 2] up to 2^-50, the variance is at most 81/80 * 2 + 1/200. *)
Example C109_case : let o := fint 1 in let dt := fdiv (fint 1) (fint 4) in exists x' p',
  ff_run [Update o o; Predict o o dt; Update o (fint 2)] (fint 0) o x' p' /\ fin x' /\ - / 1000000000000 <= val x' <= 2 + / 1000000000000 /\ 0 <= val p' <= 2031 / 1000.
Proof.
intros o dt. destruct (ekf_predict 9 o (Some dt)) as [l|] eqn:El; [|exfalso; assert (match ekf_predict 9 o (Some dt) with Some _ => true | None => false end = true) by (vm_compute; reflexivity); rewrite El in H; discriminate].
set (x1 := fst (es_up o o (fint 0) o)). set (p1 := snd (es_up o o (fint 0) o)). set (x2 := ff_ups l x1). set (q2 := fp_ups (fint 0) o l p1).
set (x' := fst (es_up o (fint 2) x2 q2)). set (p' := snd (es_up o (fint 2) x2 q2)). exists x', p'.
assert (h : ff_run [Update o o; Predict o o dt; Update o (fint 2)] (fint 0) o x' p').
{ apply ff_runS with x1 p1; [apply es_upE|]. apply ff_runS with x2 q2; [exists l; split; [exists 9%nat; split; [exact El|apply fp_upsE]|apply ff_upsE]|].
  apply ff_runS with x' p'; [apply es_upE|constructor]. }
split; [exact h|].
destruct (fint_val 0) as [e0 f0]; [lia|]. destruct (fint_val 1) as [e1 f1]; [lia|]. destruct (fint_val 2) as [e2 f2]; [lia|]. fold o in e1, f1.
assert (fd : fin dt) by (vm_compute; reflexivity). assert (Ed : val dt = / 4) by (rewrite (sf_val dt false 4503599627370496 (-54)) by (vm_compute; reflexivity); simpl; lra).
assert (b0 : forall e, (1 <= e)%Z -> 2 <= p2 e) by (intros e he; change 2 with (p2 1); apply bpow_le; lia).
pose proof (b0 1022%Z ltac:(lia)) as c2. pose proof (b0 1020%Z ltac:(lia)) as c0. pose proof (b0 400%Z ltac:(lia)) as c4. pose proof (b0 890%Z ltac:(lia)) as c8.
assert (No : noise [Update o o; Predict o o dt; Update o (fint 2)] = 1) by (unfold noise, fold_right; rewrite e1; ring).
assert (Co : cost [Update o o; Predict o o dt; Update o (fint 2)] = 9) by (unfold cost, fold_right; rewrite e1, Ed; field).
destruct (C109_filter _ _ _ _ _ 0 2 h) as (g1 & g2 & g3 & g4); try assumption; try lra.
- repeat apply Forall_cons; [| | |constructor]; unfold call_ok; repeat (split; [assumption|]); rewrite ?e1, ?e2, ?Ed; repeat split; lra.
- split; [exact g1|]. rewrite No, e1 in g4. lra.
Qed.
Print Assumptions C109_filter.
