(** Computations with rational numbers for the case of C98. *)
From Coq Require Import ZArith QArith Qcanon Qfield.
Local Open Scope Q_scope.
Lemma qred_z (x : Q) z : x == z # 1 -> Qred x = z # 1.
Proof. intros h. rewrite (Qred_complete _ _ h). apply Qred_identity. apply Z.gcd_1_r. Qed.
Lemma q_sub z c : (z - c # 1) == (z # 1) - (c # 1).
Proof. unfold Qeq, Qminus, Qplus, Qopp; simpl. ring. Qed.
Lemma q_xt z : Qred ((((1#1000000) * (z#1) - (1#1) - (1#1) * (0#1)) + (1#1000000) * ((1#1) * (z#1))) / ((0#1) + (1#1000000) + (1#1000000) * ((1#1) * (1#1)))) = (z - 500000 # 1).
Proof. apply qred_z. rewrite q_sub. generalize (z # 1). intros x. field. Qed.
Lemma q_w z : Qred ((z#1) + (0#1) / (1#1000000) + (8#5) * ((1#1) * (z - 500000 # 1) - (z#1))) = (z - 800000 # 1).
Proof. apply qred_z. rewrite !q_sub. generalize (z # 1). intros x. field. Qed.
Lemma q_x z : Qred ((z#1) + (8#5) * ((z - 500000 # 1) - (z#1))) = (z - 800000 # 1).
Proof. apply qred_z. rewrite !q_sub. generalize (z # 1). intros x. field. Qed.
Lemma q_z z : Qred (z # 1) = z # 1.
Proof. apply qred_z. reflexivity. Qed.
Lemma q_y z : Qred ((1#1000000) * ((z # 1) - (z # 1))) = 0 # 1.
Proof. apply qred_z. generalize (z # 1). intros x. ring. Qed.
Lemma q_d z : (z - 800000 # 1) - (z # 1) = -800000 # 1.
Proof. unfold Qminus, Qplus, Qopp; simpl. f_equal. ring. Qed.
