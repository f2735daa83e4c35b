(** Properties C63, C64, C65: the PID controller. *)
From mathcomp Require Import all_ssreflect all_algebra.
From Verif Require Import PidModel PidSpec PidFacts.
Set Implicit Arguments.
Unset Strict Implicit.
Unset Printing Implicit Defensive.
Import Order.TTheory GRing.Theory Num.Theory.
Local Open Scope ring_scope.

Section Props.
Variables (F : realFieldType) (d : nat) (G T : Type).
Variable gminus : G -> G -> 'cV[F]_d.
Variable gone : G.
Variable tgt : T -> T -> bool.
Variable tminus : T -> T -> F.

(** C63: after every history of public operations the integral state is within the limit. *)
Theorem C63_pid_windup (b : F) (h : seq (op F d G T)) (i : 'I_d) :
  0 <= b -> `|i_err (pid_run gminus gone tgt tminus (Some b) h) i 0| <= b.
Proof. by move=> b0; rewrite integral_sat_run //; apply: integral_sat_bound. Qed.

(** C64: the integral state is the sum over the calls since the last reset of error times elapsed
    time since the previous call, where the first call and calls whose time did not increase
    contribute nothing; no windup limit. *)
Theorem C64_pid_integral (h : seq (op F d G T)) :
  i_err (pid_run gminus gone tgt tminus None h) = integral gminus gone tgt tminus h.
Proof. exact: integral_run. Qed.

(** C64, with a limit: the same sum, saturated after each contribution. *)
Theorem C64_pid_integral_limit (b : F) (h : seq (op F d G T)) :
  0 <= b ->
  i_err (pid_run gminus gone tgt tminus (Some b) h) = integral_sat gminus gone tgt tminus b h.
Proof. exact: integral_sat_run. Qed.

(** C65: the value returned by a call after any history, in terms of the last configured gains and
    desired trajectory and the integral including this call. *)
Theorem C65_pid_output (h : seq (op F d G T)) (t : T) (x : G) (v : 'cV[F]_d) :
  let: (g_des, v_des, a_des) := last_xdes gone tminus h t in
  forall i,
  (pid_call gminus tgt tminus (pid_run gminus gone tgt tminus None h) t x v).2 i 0 =
  a_des i 0 + last_kp h i 0 * gminus g_des x i 0 + last_kd h i 0 * (v_des i 0 - v i 0)
  + last_ki h i 0 * integral gminus gone tgt tminus (rcons h (OCall t x v)) i 0.
Proof.
have:= call_out gminus gone tgt tminus None h t x v.
rewrite /= integral_run /err_at; case: (last_xdes _ _ _ _) => [[g vd] ad] /= -> i.
by rewrite !mxE.
Qed.

Theorem C65_pid_output_limit (b : F) (h : seq (op F d G T)) (t : T) (x : G) (v : 'cV[F]_d) :
  0 <= b ->
  let: (g_des, v_des, a_des) := last_xdes gone tminus h t in
  forall i,
  (pid_call gminus tgt tminus (pid_run gminus gone tgt tminus (Some b) h) t x v).2 i 0 =
  a_des i 0 + last_kp h i 0 * gminus g_des x i 0 + last_kd h i 0 * (v_des i 0 - v i 0)
  + last_ki h i 0 * integral_sat gminus gone tgt tminus b (rcons h (OCall t x v)) i 0.
Proof.
move=> b0; have:= call_out gminus gone tgt tminus (Some b) h t x v.
rewrite /= integral_sat_run // /err_at; case: (last_xdes _ _ _ _) => [[g vd] ad] /= -> i.
by rewrite !mxE.
Qed.
End Props.

(** Concrete cases: scalar controller over the rationals; calls at times 0, 2, 1, 4 in states
    -3, -3, 5, 1 with identity desired trajectory: 2*3 (time 2), nothing (time 1), 3*(-1) (time 4). *)
Definition ex_gm (a b : rat) : 'cV[rat]_1 := const_mx (a - b).
Definition ex_h : seq (op [realFieldType of rat] 1 rat rat) :=
  [:: OKic 2%:Q; OCall 0 (- 3%:Q) 0; OCall 2%:Q (- 3%:Q) 0; OCall 1 5%:Q 0].
Definition ex_gt (a b : rat) := b < a.
Definition ex_tm (a b : rat) := a - b.

Example ex_C64 :
  integral ex_gm 0 ex_gt ex_tm (rcons ex_h (OCall 4%:Q 1 0)) = const_mx 3%:Q.
Proof.
rewrite /integral /calls /= /index_iota /= !big_cons big_nil /=.
by apply/matrixP => i j; rewrite /ex_gt /= !mxE.
Qed.
Example ex_C64_limit :
  integral_sat ex_gm 0 ex_gt ex_tm 4%:Q (rcons ex_h (OCall 4%:Q 1 0)) = const_mx 1.
Proof.
rewrite /integral_sat /calls /= /index_iota /=.
by apply/matrixP => i j; rewrite /ex_gt /= !mxE.
Qed.
Example ex_C63 : (0 <= 4%:Q)%R /\
  i_err (pid_run ex_gm 0 ex_gt ex_tm (Some 4%:Q) ex_h) 0 0 = 4%:Q.
Proof.
split=> //; rewrite integral_sat_run // /integral_sat /calls /= /index_iota /=.
by rewrite /ex_gt /= !mxE.
Qed.
(** output = kp * (0 - 1) + kd * (0 - 0) + 2 * 3 = 5. *)
Example ex_C65 :
  (pid_call ex_gm ex_gt ex_tm (pid_run ex_gm 0 ex_gt ex_tm None ex_h) 4%:Q 1 0).2 0 0 = 5%:Q.
Proof.
have /= -> := C65_pid_output ex_gm 0 ex_gt ex_tm ex_h 4%:Q 1 0 0.
by rewrite ex_C64 !mxE.
Qed.

Print Assumptions C63_pid_windup.
Print Assumptions C64_pid_integral.
Print Assumptions C64_pid_integral_limit.
Print Assumptions C65_pid_output.
Print Assumptions C65_pid_output_limit.
