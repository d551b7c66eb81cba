(** * Numbers: facts about the rational numbers used by the model. *)
From Coq Require Import QArith Qcanon ZArith Lia Lqa.
From Verif Require Import PyBase PyLemmas.

Lemma this_qz z : (this (qz z) == inject_Z z)%Q.
Proof. unfold qz, Q2Qc. cbn [this]. apply Qred_correct. Qed.
Lemma this_add a b : (this (a + b)%Qc == this a + this b)%Q.
Proof. unfold Qcplus, Q2Qc. cbn [this]. apply Qred_correct. Qed.
Lemma this_mul a b : (this (a * b)%Qc == this a * this b)%Q.
Proof. unfold Qcmult, Q2Qc. cbn [this]. apply Qred_correct. Qed.
Lemma this_opp a : (this (- a)%Qc == - this a)%Q.
Proof. unfold Qcopp, Q2Qc. cbn [this]. apply Qred_correct. Qed.
Lemma this_sub a b : (this (a - b)%Qc == this a - this b)%Q.
Proof. unfold Qcminus. rewrite this_add, this_opp. reflexivity. Qed.
Lemma qz_add a b : qz (a + b) = (qz a + qz b)%Qc.
Proof. apply Qc_is_canon. rewrite this_add, !this_qz. rewrite inject_Z_plus; reflexivity. Qed.
Lemma qz_mul a b : qz (a * b) = (qz a * qz b)%Qc.
Proof. apply Qc_is_canon. rewrite this_mul, !this_qz. rewrite inject_Z_mult; reflexivity. Qed.
Lemma qz_opp a : qz (- a) = (- qz a)%Qc.
Proof. apply Qc_is_canon. rewrite this_opp, !this_qz. rewrite inject_Z_opp; reflexivity. Qed.
Lemma qz_sub a b : qz (a - b) = (qz a - qz b)%Qc.
Proof. unfold Z.sub, Qcminus. rewrite qz_add, qz_opp. reflexivity. Qed.
Lemma qz_0 : qz 0 = 0%Qc. Proof. apply Qc_is_canon; reflexivity. Qed.
Lemma qz_1 : qz 1 = 1%Qc. Proof. apply Qc_is_canon; reflexivity. Qed.
Lemma qz_le a b : (qz a <= qz b)%Qc <-> (a <= b)%Z.
Proof. unfold Qcle. rewrite !this_qz. rewrite <- Zle_Qle. reflexivity. Qed.
Lemma qz_lt a b : (qz a < qz b)%Qc <-> (a < b)%Z.
Proof. unfold Qclt. rewrite !this_qz. rewrite <- Zlt_Qlt. reflexivity. Qed.
Lemma qz_inj a b : qz a = qz b <-> a = b.
Proof.
  split; [|congruence]. intros H. apply Z.le_antisymm; apply qz_le; rewrite H; apply Qcle_refl.
Qed.

Lemma Qc_eq_iff a b : a = b <-> (this a == this b)%Q.
Proof. split; [intros ->; reflexivity|apply Qc_is_canon]. Qed.
(** Push a comparison of Qc to Q. *)
Ltac qc2q := unfold Qcle, Qclt in *; repeat rewrite ?this_add, ?this_mul, ?this_opp, ?this_sub, ?this_qz in *.
Lemma Qc_mul_pos_cancel s a b : (0 < s)%Qc -> (s * a <= s * b)%Qc <-> (a <= b)%Qc.
Proof.
  intros H. split; intros H1.
  - destruct (Qclt_le_dec b a) as [HL|HL]; auto. exfalso.
    apply (Qcmult_lt_compat_r b a s H) in HL. rewrite (Qcmult_comm b), (Qcmult_comm a) in HL.
    apply (Qclt_not_le _ _ HL H1).
  - rewrite (Qcmult_comm s a), (Qcmult_comm s b). apply Qcmult_le_compat_r; auto. apply Qclt_le_weak; auto.
Qed.
Lemma Qc_mul_eq_cancel s a b : s <> 0%Qc -> (s * a = s * b)%Qc <-> a = b.
Proof.
  intros H. split; [|congruence]. intros E.
  transitivity ((s * a) / s)%Qc; [field; auto|]. rewrite E. field; auto.
Qed.
Lemma Qclt_neq0 s : (0 < s)%Qc -> s <> 0%Qc.
Proof. intros H ->. apply (Qclt_not_eq _ _ H). reflexivity. Qed.
