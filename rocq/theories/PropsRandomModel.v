(** * PropsRandomModel: C159 - the random model of sample/utils/profile.py, for every size and every sequence of draws. *)
From Coq Require Import Permutation.
From Verif Require Import PyBase PyLemmas Numbers Constraint LogicalModel Spec LogicalProofs EnergyProofs Samples Text
  PropsInteractions History PropsHistory SampleModels NppStream PropsNppStream PropsEntered PropsSampleModels SampleCalls PropsSolver PropsSampleCalls.
Local Open Scope string_scope.
Local Open Scope list_scope.

(** ** Loops *)
Definition rows_of (n : nat) : list (nat * nat) := flat_map (fun i => map (Datatypes.pair i) (seq (S i) (n - 1 - i))) (seq 0 (n - 1)).
Lemma mfor_flat {S A B} (g : A -> list B) (h : A -> B -> M S unit) l : forall m,
  mfor l (fun i => mfor (g i) (h i)) m = mfor (flat_map (fun i => map (Datatypes.pair i) (g i)) l) (fun p => h (fst p) (snd p)) m.
Proof.
  induction l as [|i l IH]; intros m; [reflexivity|]. cbn [flat_map]. rewrite mfor_app. cbn [mfor]. unfold bind.
  rewrite <- (mfor_same (h i) (fun p => h (fst p) (snd p)) (Datatypes.pair i)) by reflexivity. destruct (mfor (g i) (h i) m) as [m1 [u|e]]; auto.
Qed.
Lemma rows_in n i j : In (i, j) (rows_of n) <-> i < j /\ j < n.
Proof.
  unfold rows_of. rewrite in_flat_map. split.
  - intros (i' & H1 & H2). apply in_map_iff in H2 as (j' & E & H2). injection E as -> ->. apply in_seq in H1, H2. lia.
  - intros [H1 H2]. exists i. split; [apply in_seq; lia|]. apply in_map. apply in_seq. lia.
Qed.
Lemma rows_nodup n : NoDup (rows_of n).
Proof.
  unfold rows_of. pose proof (seq_NoDup (n - 1) 0) as N. revert N. generalize (seq 0 (n - 1)). induction l as [|i l IH]; intros N; cbn [flat_map]; [constructor|].
  inversion N; subst. apply NoDup_app_iff; split; [|split; [auto|]].
  - apply FinFun.Injective_map_NoDup; [intros a b E; congruence | apply seq_NoDup].
  - intros [a b] H H'. apply in_map_iff in H as (y & E & _). injection E as <- <-. apply in_flat_map in H' as (i' & I1 & I2). apply in_map_iff in I2 as (y' & E & _). injection E as -> _. auto.
Qed.
Lemma qsum_flat {A B} (g : A -> list B) (f : A * B -> Qc) l : qsum (map f (flat_map (fun i => map (Datatypes.pair i) (g i)) l)) = qsum (map (fun i => qsum (map (fun j => f (i, j)) (g i))) l).
Proof. induction l as [|i l IH]; [reflexivity|]. cbn [flat_map]. rewrite map_app, qsum_app, IH, map_map. reflexivity. Qed.

(** ** The terms *)
Definition rl (draw : nat -> Qc) (i : nat) : term := Lin (tv Ising i) (draw i).
Definition rq (draw : nat -> Qc) (n : nat) (p : nat * nat) : term := Quad (tv Ising (fst p)) (tv Ising (snd p)) (draw (draw_at n (fst p) (snd p))).
Definition random_terms (draw : nat -> Qc) (n : nat) : list term := map (rl draw) (seq 0 n) ++ map (rq draw n) (rows_of n).
Lemma random_ok draw n : Forall plain (random_terms draw n) /\ Forall no_square (random_terms draw n) /\ all_different (random_terms draw n).
Proof.
  destruct (x_terms Ising 1%Qc 1%Qc (rows_of n) (seq 0 n)) as (P & Q & D); [apply rows_nodup|intros a b H; apply rows_in in H; lia|apply seq_NoDup|].
  assert (EQ : forall (R : term -> Prop), (forall v c c', R (Lin v c) -> R (Lin v c')) -> (forall v w c c', R (Quad v w c) -> R (Quad v w c')) ->
    Forall R (map (xq Ising 1%Qc) (rows_of n) ++ map (xl Ising 1%Qc) (seq 0 n)) -> Forall R (random_terms draw n)).
  { intros R R1 R2 H. apply Forall_app in H as [H1 H2]. apply Forall_app. rewrite Forall_map in H1, H2. split; apply Forall_map; [eapply Forall_impl; [|exact H2]; intros x; apply R1|eapply Forall_impl; [|exact H1]; intros x; apply R2]. }
  assert (P' : Forall plain (random_terms draw n)) by (apply EQ; auto). assert (Q' : Forall no_square (random_terms draw n)) by (apply EQ; auto).
  split; auto. split; auto. apply different_names; auto. apply (different_names _ Q P) in D. unfold random_terms. rewrite map_app, !map_map in *.
  eapply Permutation_NoDup; [apply Permutation_app_comm|]. exact D.
Qed.

(** ** Theorems *)
(** The function adds one interaction per spin and per pair of spins and never fails; its Hamiltonian has the draws as coefficients. *)
Theorem C159_model : forall clock draw n, 0 < n ->
  exists m, random_model clock draw n (new_model Ising) = (m, Ok tt) /\
    2 * length (m_rows m) = n * (n + 1) /\ NoDup (names m) /\
    forall fd s, energy fd s m =
      (- (qsum (map (fun i => draw i * s (lab i)) (seq 0 n)) +
          qsum (map (fun i => qsum (map (fun j => draw (draw_at n i j) * (s (lab i) * s (lab j))) (seq (S i) (n - 1 - i)))) (seq 0 (n - 1)))))%Qc.
Proof.
  intros clock draw n HN. destruct (declare_x Ising n HN) as (a & ED & HX). set (m0 := with_vars [("x", a)] (new_model Ising)) in *.
  assert (AL : aligned m0) by (repeat split; constructor). destruct (random_ok draw n) as (PL & NS & AD).
  destruct (proj2 (C102_accepted clock _ m0 AL eq_refl PL) (conj NS AD)) as [m1 E1]. exists m1. split; [|split; [|split]].
  - unfold random_model. unfold bind at 1. rewrite ED. rewrite <- E1. unfold enter, random_terms. rewrite mfor_app. unfold bind at 1 2.
    rewrite (mfor_same (fun i => put_lin clock a [i] (draw i)) (fun x => add_term clock (term_target x) (coefficient x)) (rl draw)).
    2:{ intros i m HI. apply in_seq in HI. apply (put_lin_term clock Ising a n); auto. lia. }
    destruct (mfor (map (rl draw) (seq 0 n)) _ m0) as [m2 [u|e]]; auto. rewrite (mfor_flat (fun i => seq (S i) (n - 1 - i)) (fun i j => put_quad clock a [i] [j] (draw (draw_at n i j)))). apply (mfor_same _ _ (rq draw n)).
    intros [i j] m HI. apply rows_in in HI. apply (put_quad_term clock Ising a n); auto; cbn; lia.
  - destruct (C102_energy _ _ _ _ AL E1) as (_ & _ & ->). change (length (m_rows m0)) with 0. unfold random_terms. rewrite app_length, !map_length, seq_length.
    assert (LR : 2 * length (rows_of n) = n * (n - 1)).
    { unfold rows_of. destruct n as [|n]; [lia|]. replace (S n - 1) with n by lia. clear. 
      assert (G : forall k, k <= n -> 2 * length (flat_map (fun i => map (Datatypes.pair i) (seq (S i) (n - i))) (seq (n - k) k)) = k * (k + 1)).
      { induction k as [|k IH]; intros HK; [reflexivity|]. cbn [seq flat_map]. rewrite app_length, map_length, seq_length. replace (S (n - S k)) with (n - k) by lia. specialize (IH ltac:(lia)). lia. }
      specialize (G n ltac:(lia)). rewrite Nat.sub_diag in G. lia. }
    destruct n; [lia|]. replace (S n - 1) with n in LR by lia. lia.
  - destruct (enter_effect _ _ _ _ AL E1) as (ER & _ & _). unfold names. rewrite ER. cbn [m_rows m0 with_vars new_model app]. rewrite map_map. apply (different_names _ NS PL) in AD. exact AD.
  - intros fd s. destruct (C102_energy _ _ _ _ AL E1) as (-> & _ & _). assert (E0 : energy fd s m0 = 0%Qc) by (apply Qc_is_canon; reflexivity). rewrite E0. unfold polynomial, random_terms.
    rewrite map_app, qsum_app, !map_map. unfold rows_of. rewrite (qsum_flat (fun i => seq (S i) (n - 1 - i))). cbn [term_value rl rq fst snd v_label tv]. ring.
Qed.
(** Every draw is used once, in the order of the loops. *)
Theorem C159_draws : forall n, 0 < n ->
  seq 0 n ++ flat_map (fun i => map (draw_at n i) (seq (S i) (n - 1 - i))) (seq 0 (n - 1)) = seq 0 (n + length (rows_of n)).
Proof.
  intros n HN. rewrite seq_app. f_equal. cbn [Nat.add]. unfold rows_of.
  assert (G : forall k, flat_map (fun i => map (draw_at n i) (seq (S i) (n - 1 - i))) (seq 0 k) = seq n (length (flat_map (fun i => map (Datatypes.pair i) (seq (S i) (n - 1 - i))) (seq 0 k))) /\
    length (flat_map (fun i => map (Datatypes.pair i) (seq (S i) (n - 1 - i))) (seq 0 k)) = list_sum (map (fun r => n - 1 - r) (seq 0 k))).
  { induction k as [|k [IH1 IH2]]; [split; reflexivity|]. rewrite seq_S. cbn [Nat.add]. rewrite !flat_map_app, map_app, list_sum_app, app_length, IH1. cbn [flat_map map list_sum fold_right]. rewrite !app_nil_r, map_length, seq_length. split; [|rewrite IH2; cbn [list_sum fold_right]; lia].
    rewrite seq_app. f_equal. rewrite IH2. unfold draw_at. generalize (n + list_sum (map (fun r => n - 1 - r) (seq 0 k))) as b. generalize (n - 1 - k) as l. intros l b.
    assert (S0 : forall l c, map (fun j => b + (j - S k)) (seq (S k + c) l) = seq (b + c) l).
    { induction l0 as [|l0 IH]; intros c; [reflexivity|]. cbn [seq map]. f_equal; [lia|]. specialize (IH (S c)). replace (S k + S c) with (S (S k + c)) in IH by lia. replace (b + S c) with (S (b + c)) in IH by lia. exact IH. }
    specialize (S0 l 0). rewrite !Nat.add_0_r in S0. exact S0. }
  apply (G (n - 1)).
Qed.
(** The decorator reports the name and the time and leaves the model as the function built it. *)
Theorem C159_profile : forall clock draw counter n m, random_model clock draw n (new_model Ising) = (m, Ok tt) ->
  profiled_model clock draw counter n (new_model Ising) = (m, Ok (tt, ("create_n_variable_random_model", (counter 1%nat - counter 0%nat)%Qc))).
Proof. intros clock draw counter n m E. unfold profiled_model, profile. rewrite E. reflexivity. Qed.
(** Three spins with the draws 1/1, 1/2, ...: six interactions. *)
Example C159_hyps : 0 < 3 /\ map (fun p => draw_at 3 (fst p) (snd p)) (rows_of 3) = [3; 4; 5] /\
  map r_name (m_rows (fst (random_model (fun _ => some_env) (fun k => qfrac 1 (Pos.of_succ_nat k)) 3 (new_model Ising)))) = ["x[0]"; "x[1]"; "x[2]"; "x[0]*x[1]"; "x[0]*x[2]"; "x[1]*x[2]"].
Proof. split; [lia|]. split; vm_compute; reflexivity. Qed.
Print Assumptions C159_model.
Print Assumptions C159_draws.
Print Assumptions C159_profile.
