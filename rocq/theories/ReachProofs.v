(** * ReachProofs: which spin vectors a Metropolis run can end in. *)
From Verif Require Import PyBase PyLemmas Numbers Constraint LogicalModel Spec PhysicalProofs Physical Solver SolverSpec SolverProofs.
From Coq Require Import Permutation.
Open Scope string_scope.
Open Scope list_scope.

Definition in01 (v : Qc) : Prop := (0 <= v)%Qc /\ (v < 1)%Qc.

(** ** Flipping several spins *)
Definition flip_all (is : list nat) (x : list Z) : list Z := fold_left (fun x i => flipped i x) is x.
Lemma flipped_len i x : length (flipped i x) = length x.
Proof. apply upd_nth_length. Qed.
Lemma flip_all_len is : forall x, length (flip_all is x) = length x.
Proof. induction is as [|i is IH]; intros x; auto. cbn [flip_all fold_left]. fold (flip_all is (flipped i x)). rewrite IH. apply flipped_len. Qed.
Lemma flip_all_app a b x : flip_all (a ++ b) x = flip_all b (flip_all a x).
Proof. apply fold_left_app. Qed.
Lemma flipped_at i x j : nth_error (flipped i x) j = if Nat.eqb j i then option_map Z.opp (nth_error x j) else nth_error x j.
Proof. unfold flipped. rewrite nth_upd. destruct (Nat.eqb j i); auto. Qed.
Lemma flip_all_at is : forall x j, NoDup is ->
  nth_error (flip_all is x) j = if existsb (Nat.eqb j) is then option_map Z.opp (nth_error x j) else nth_error x j.
Proof.
  induction is as [|i is IH]; intros x j ND; auto. inversion ND; subst. cbn [flip_all fold_left existsb]. fold (flip_all is (flipped i x)).
  rewrite IH by auto. rewrite flipped_at. destruct (Nat.eqb_spec j i) as [->|NE]; cbn [orb]; auto.
  destruct (existsb (Nat.eqb i) is) eqn:EX; auto. apply existsb_exists in EX. destruct EX as (k & HI & HK). apply Nat.eqb_eq in HK. subst. contradiction.
Qed.
Lemma vec_ext (x y : list Z) : (forall j, nth_error x j = nth_error y j) -> x = y.
Proof.
  revert y. induction x as [|a x IH]; intros [|b y] H; auto; try (specialize (H 0); discriminate).
  pose proof (H 0) as H0. cbn in H0. inversion H0; subst. f_equal. apply IH. intros j. apply (H (S j)).
Qed.
Lemma opp_opp (z : option Z) : option_map Z.opp (option_map Z.opp z) = z.
Proof. destruct z; cbn; auto. rewrite Z.opp_involutive. auto. Qed.
Lemma flipped_twice i x : flipped i (flipped i x) = x.
Proof. apply vec_ext. intros j. rewrite !flipped_at. destruct (Nat.eqb j i); auto. apply opp_opp. Qed.
Lemma flip_all_spins is : forall x, Forall spinz x -> Forall spinz (flip_all is x).
Proof.
  induction is as [|i is IH]; intros x H; auto. cbn [flip_all fold_left]. fold (flip_all is (flipped i x)). apply IH.
  apply flipped_entries; auto. apply spin_opp.
Qed.

Section Reach.
Variables (E : list Z -> Qc) (boltz : Qc -> Qc -> res Qc) (n : nat).

Definition warm (t : Qc) : Prop := forall d, (0 < d)%Qc -> exists pr, boltz d t = Ok pr /\ (0 < pr)%Qc /\ (pr < 1)%Qc.

(** [runs t picks x x']: some random numbers lead from [x] to [x'] when [picks] are visited. *)
Definition runs (t : Qc) (picks : list nat) (x x' : list Z) : Prop :=
  exists vs, length vs <= length picks /\ Forall in01 vs /\
    forall pre post a, exists a', visits E boltz t (pre ++ vs ++ post) x (length pre) a picks x' (length pre + length vs) a'.
Lemma runs_nil t x : runs t [] x x.
Proof. exists []. split; [simpl; lia|]. split; [constructor|]. intros pre post a. exists a. simpl. rewrite Nat.add_0_r. constructor. Qed.
Lemma nth_mid (pre : list Qc) v r : nth_error (pre ++ v :: r) (length pre) = Some v.
Proof. rewrite nth_error_app2, Nat.sub_diag; auto. Qed.
Lemma runs_flip t i r x x' : warm t -> runs t r (flipped i x) x' -> runs t (i :: r) x x'.
Proof.
  intros HW (vs & L & F & H). destruct (Qclt_le_dec (E x) (E (flipped i x))) as [UP|DN].
  - destruct (HW (E (flipped i x) - E x)%Qc) as (pr & HB & P0 & P1); [apply Qc_sub_lt0; auto|].
    exists (0%Qc :: vs). split; [simpl; lia|]. split; [constructor; auto; split; [apply Qcle_refl|reflexivity]|].
    intros pre post a. destruct (H (pre ++ [0%Qc]) post (S a)) as (a' & HV). exists a'. rewrite <- app_assoc, app_length in HV. simpl in HV.
    apply v_up with pr 0%Qc; auto; [apply nth_mid|]. simpl.
    replace (length pre + S (length vs)) with (length pre + 1 + length vs) by lia. replace (S (length pre)) with (length pre + 1) by lia. exact HV.
  - exists vs. split; [simpl; lia|]. split; auto. intros pre post a. destruct (H pre post (S a)) as (a' & HV). exists a'. apply v_down; auto.
Qed.
Lemma runs_stay t i r x x' : warm t -> (E x < E (flipped i x))%Qc -> runs t r x x' -> runs t (i :: r) x x'.
Proof.
  intros HW UP (vs & L & F & H).
  destruct (HW (E (flipped i x) - E x)%Qc) as (pr & HB & P0 & P1); [apply Qc_sub_lt0; auto|].
  exists (pr :: vs). split; [simpl; lia|]. split; [constructor; auto; split; auto; apply Qclt_le_weak; auto|].
  intros pre post a. destruct (H (pre ++ [pr]) post a) as (a' & HV). exists a'. rewrite <- app_assoc, app_length in HV. simpl in HV.
  apply v_stay with pr pr; auto; [apply nth_mid|apply Qcle_refl|]. simpl.
  replace (length pre + S (length vs)) with (length pre + 1 + length vs) by lia. replace (S (length pre)) with (length pre + 1) by lia. exact HV.
Qed.
Lemma runs_flips t is r : warm t -> forall x x', runs t r (flip_all is x) x' -> runs t (is ++ r) x x'.
Proof.
  intros HW. induction is as [|i is IH]; intros x x' H; auto. cbn [app]. apply runs_flip; auto.
Qed.
Lemma runs_all t is x : warm t -> runs t is x (flip_all is x).
Proof. intros HW. rewrite <- (app_nil_r is) at 1. apply runs_flips; auto. apply runs_nil. Qed.

(** [anneals ts x x']: some permutations and random numbers lead from [x] to [x'] in sweeps at the temperatures [ts]. *)
Definition anneals (ok : list nat -> Prop) (ts : list Qc) (x x' : list Z) : Prop :=
  exists plan vs, map fst plan = ts /\ Forall (fun tp => ok (snd tp)) plan /\
    length vs <= list_sum (map (fun tp => length (snd tp)) plan) /\ Forall in01 vs /\
    forall pre post, exists es acc, annealed E boltz (pre ++ vs ++ post) x (length pre) plan es acc x' (length pre + length vs).
Lemma anneals_nil ok x : anneals ok [] x x.
Proof. exists [], []. split; auto. split; [constructor|]. split; auto. split; [constructor|]. intros pre post. exists [], []. simpl. rewrite Nat.add_0_r. constructor. Qed.
Lemma anneals_cons (ok : list nat -> Prop) t ts picks x y z : ok picks -> runs t picks x y -> anneals ok ts y z -> anneals ok (t :: ts) x z.
Proof.
  intros HK (v1 & L1 & F1 & R1) (plan & v2 & M & F & L2 & F2 & R2). exists ((t, picks) :: plan), (v1 ++ v2).
  split; [simpl; f_equal; auto|]. split; [constructor; auto|]. split; [simpl; rewrite app_length; lia|]. split; [apply Forall_app; auto|].
  intros pre post. destruct (R1 pre (v2 ++ post) 0) as (a & V). destruct (R2 (pre ++ v1) post) as (es & acc & A).
  exists (E x :: es), (a :: acc). rewrite <- app_assoc, !app_length in *. rewrite <- ?app_assoc in *. apply a_sweep with y (length pre + length v1).
  - exact V.
  - rewrite Nat.add_assoc. exact A.
Qed.

(** ** Sweeps in an order of one's choice *)
Definition perm (picks : list nat) : Prop := Permutation picks (seq 0 n).
Definition spinv (x : list Z) : Prop := length x = n /\ Forall spinz x.
Lemma all_at x j : length x = n -> nth_error (flip_all (seq 0 n) x) j = option_map Z.opp (nth_error x j).
Proof.
  intros L. rewrite flip_all_at by apply seq_NoDup. destruct (existsb (Nat.eqb j) (seq 0 n)) eqn:EX; auto.
  destruct (nth_error x j) eqn:EN; auto. assert (HJ : j < n) by (rewrite <- L; apply nth_error_Some; congruence).
  assert (existsb (Nat.eqb j) (seq 0 n) = true); [|congruence]. apply existsb_exists. exists j. split; [apply in_seq; lia|apply Nat.eqb_refl].
Qed.
Lemma all_twice x : length x = n -> flip_all (seq 0 n) (flip_all (seq 0 n) x) = x.
Proof. intros L. apply vec_ext. intros j. rewrite !all_at by (rewrite ?flip_all_len; auto). apply opp_opp. Qed.
Lemma idle t1 t2 ts x y : warm t1 -> warm t2 -> length x = n -> anneals perm ts x y -> anneals perm (t1 :: t2 :: ts) x y.
Proof.
  intros W1 W2 L H. apply anneals_cons with (seq 0 n) (flip_all (seq 0 n) x); [apply Permutation_refl|apply runs_all; auto|].
  apply anneals_cons with (seq 0 n) x; [apply Permutation_refl| |auto]. rewrite <- (all_twice x L) at 2. apply runs_all; auto.
Qed.
(** The spins other than [i], split by [S]. *)
Definition part (i : nat) (S : nat -> bool) : list nat := filter (fun j => negb (Nat.eqb j i) && S j) (seq 0 n).
Lemma part_nodup i S : NoDup (part i S).
Proof. apply NoDup_filter, seq_NoDup. Qed.
Lemma part_mem i S j : existsb (Nat.eqb j) (part i S) = (j <? n)%nat && negb (Nat.eqb j i) && S j.
Proof.
  apply eq_iff_eq_true. rewrite existsb_exists. split.
  - intros (k & HI & HK). apply Nat.eqb_eq in HK. subst k. apply filter_In in HI. destruct HI as [HI HS]. apply in_seq in HI.
    rewrite (proj2 (Nat.ltb_lt j n)) by lia. exact HS.
  - intros H. apply andb_true_iff in H. destruct H as [H HS]. apply andb_true_iff in H. destruct H as [H HN]. apply Nat.ltb_lt in H.
    exists j. split; [|apply Nat.eqb_refl]. apply filter_In. split; [apply in_seq; lia|rewrite HN, HS; auto].
Qed.
Lemma part_perm i S : i < n -> perm (part i S ++ i :: part i (fun j => negb (S j))).
Proof.
  intros HI. apply NoDup_Permutation; [|apply seq_NoDup|].
  - rewrite <- Permutation_middle. constructor.
    + intros H. apply in_app_or in H. destruct H as [H|H]; apply filter_In in H; rewrite Nat.eqb_refl in H; destruct H; discriminate.
    + apply NoDup_app_iff. split; [apply part_nodup|]. split; [apply part_nodup|].
      intros j H1 H2. apply filter_In in H1, H2. destruct H1 as [_ H1], H2 as [_ H2]. destruct (S j); rewrite ?andb_false_r in *; discriminate.
  - intros j. rewrite in_app_iff. simpl. unfold part. rewrite !filter_In, !in_seq. destruct (Nat.eqb_spec j i) as [->|NE]; cbn [negb andb].
    + split; [lia|]. auto.
    + destruct (S j); cbn [negb]; intuition (try discriminate; try lia).
Qed.
(** Two sweeps can change exactly one spin, if changing it makes a difference somewhere. *)
Definition vmatters (i : nat) : Prop := exists z, spinv z /\ E (flipped i z) <> E z.
Lemma two_sweeps t1 t2 ts i x y : warm t1 -> warm t2 -> i < n -> spinv x -> vmatters i ->
  anneals perm ts (flipped i x) y -> anneals perm (t1 :: t2 :: ts) x y.
Proof.
  intros W1 W2 HI (LX & SX) (z & (LZ & SZ) & NE) H.
  set (S := fun j => negb (match nth_error x j, nth_error z j with Some a, Some b => Z.eqb a b | _, _ => true end)).
  set (A := part i S). set (B := part i (fun j => negb (S j))). set (xs := flip_all A x).
  assert (LA : forall u j, nth_error (flip_all A u) j = if (j <? n)%nat && negb (Nat.eqb j i) && S j then option_map Z.opp (nth_error u j) else nth_error u j).
  { intros u j. unfold A. rewrite flip_all_at by apply part_nodup. rewrite part_mem. auto. }
  assert (LB : forall u j, nth_error (flip_all B u) j = if (j <? n)%nat && negb (Nat.eqb j i) && negb (S j) then option_map Z.opp (nth_error u j) else nth_error u j).
  { intros u j. unfold B. rewrite flip_all_at by apply part_nodup. rewrite part_mem. auto. }
  assert (HD : E (flipped i xs) <> E xs).
  { assert (OTH : forall j, j <> i -> nth_error xs j = nth_error z j).
    { intros j NJ. unfold xs. rewrite LA. rewrite (proj2 (Nat.eqb_neq j i)) by auto. cbn [negb andb]. rewrite andb_true_r. unfold S.
      destruct (nth_error x j) as [a|] eqn:EA; destruct (nth_error z j) as [b|] eqn:EB.
      - assert (LJ : j < n) by (rewrite <- LX; apply nth_error_Some; congruence). rewrite (proj2 (Nat.ltb_lt j n) LJ). cbn [andb].
        destruct (Z.eqb_spec a b); cbn [negb]; [congruence|]. cbn [option_map]. rewrite Forall_forall in SX, SZ.
        assert (H1 := SX a (nth_error_In _ _ EA)). assert (H2 := SZ b (nth_error_In _ _ EB)). unfold spinz in *. f_equal. lia.
      - apply nth_error_None in EB. assert (j < length x) by (apply nth_error_Some; congruence). lia.
      - apply nth_error_None in EA. assert (j < length z) by (apply nth_error_Some; congruence). lia.
      - rewrite andb_false_r. auto. }
    assert (AT : nth_error xs i = nth_error x i) by (unfold xs; rewrite LA, Nat.eqb_refl; cbn [negb]; rewrite andb_false_r; auto).
    destruct (nth_error x i) as [a|] eqn:EA; [|apply nth_error_None in EA; lia]. destruct (nth_error z i) as [b|] eqn:EB; [|apply nth_error_None in EB; lia].
    rewrite Forall_forall in SX, SZ. assert (H1 := SX a (nth_error_In _ _ EA)). assert (H2 := SZ b (nth_error_In _ _ EB)).
    destruct (Z.eq_dec a b) as [->|NAB].
    - assert (EX : xs = z); [|rewrite EX; congruence]. apply vec_ext. intros j. destruct (Nat.eq_dec j i) as [->|]; [congruence|auto].
    - assert (EX : xs = flipped i z); [|rewrite EX, flipped_twice; congruence]. apply vec_ext. intros j. rewrite flipped_at.
      destruct (Nat.eqb_spec j i) as [->|]; [|auto]. rewrite AT, EB. cbn. f_equal. unfold spinz in *. lia. }
  destruct (Qc_dec (E xs) (E (flipped i xs))) as [[UP|DN]|EQ]; [| |congruence].
  - (* stay at i during the first sweep *)
    apply anneals_cons with (A ++ i :: B) (flip_all B xs); [apply part_perm; auto| |].
    { apply runs_flips; auto. apply runs_stay; auto. apply runs_all; auto. }
    apply anneals_cons with (seq 0 n) (flipped i x); [apply Permutation_refl| |auto].
    assert (EQ : flipped i x = flip_all (seq 0 n) (flip_all B xs)); [|rewrite EQ; apply runs_all; auto].
    apply vec_ext. intros j. rewrite all_at by (unfold xs; rewrite !flip_all_len; auto). rewrite flipped_at, LB. unfold xs. rewrite LA.
    destruct (Nat.eqb j i); cbn [negb]; rewrite ?andb_true_r, ?andb_false_r; cbn [andb]; auto.
    destruct (Nat.ltb_spec j n) as [LT|GE]; cbn [andb].
    + destruct (S j); cbn [negb]; rewrite opp_opp; auto.
    + rewrite (proj2 (nth_error_None x j)) by lia. auto.
  - (* stay at i during the second sweep *)
    apply anneals_cons with (seq 0 n) (flip_all (seq 0 n) x); [apply Permutation_refl|apply runs_all; auto|].
    assert (EQ : flip_all B (flip_all (seq 0 n) x) = flipped i xs).
    { apply vec_ext. intros j. rewrite LB, all_at, flipped_at by auto. unfold xs. rewrite LA.
      destruct (Nat.eqb j i); cbn [negb]; rewrite ?andb_true_r, ?andb_false_r; cbn [andb]; auto.
      destruct (Nat.ltb_spec j n) as [LT|GE]; cbn [andb].
      - destruct (S j); cbn [negb]; rewrite ?opp_opp; auto.
      - rewrite (proj2 (nth_error_None x j)) by lia. auto. }
    apply anneals_cons with (B ++ i :: A) (flipped i x); [| |auto].
    { unfold perm. transitivity (A ++ i :: B); [|apply part_perm; auto]. etransitivity; [|apply Permutation_middle].
      etransitivity; [symmetry; apply Permutation_middle|]. constructor. apply Permutation_app_comm. }
    apply runs_flips; auto. rewrite EQ. apply runs_stay; auto; [rewrite flipped_twice; auto|].
    assert (EQ2 : flipped i x = flip_all A (flipped i xs)); [|rewrite EQ2; apply runs_all; auto].
    apply vec_ext. intros j. rewrite LA, !flipped_at. unfold xs. rewrite LA.
    destruct (Nat.eqb j i); cbn [negb]; rewrite ?andb_true_r, ?andb_false_r; cbn [andb]; auto.
    destruct ((j <? n)%nat && S j); rewrite ?opp_opp; auto.
Qed.
Lemma fix_up_to m : (forall i, i < n -> vmatters i) -> forall ts x y, Forall warm ts -> length ts = 2 * m -> spinv x -> spinv y ->
  (forall j, m <= j -> nth_error x j = nth_error y j) -> anneals perm ts x y.
Proof.
  intros HM. induction m as [|m IH]; intros ts x y HW HT HX HY AG.
  - destruct ts; [|discriminate]. replace y with x; [apply anneals_nil|]. apply vec_ext. intros j. apply AG. lia.
  - destruct ts as [|t1 [|t2 ts]]; try (simpl in HT; lia). inversion HW as [|? ? W1 HW1]; subst. inversion HW1 as [|? ? W2 HW2]; subst.
    assert (LT : length ts = 2 * m) by (simpl in HT; lia). pose proof HX as (LX & SX). pose proof HY as (LY & SY).
    destruct (nth_error x m) as [a|] eqn:EA; [destruct (nth_error y m) as [b|] eqn:EB|].
    + destruct (Z.eq_dec a b) as [->|NE].
      * apply idle; auto. apply IH; auto. intros j LJ. destruct (Nat.eq_dec j m) as [->|]; [congruence|apply AG; lia].
      * assert (LM : m < n) by (rewrite <- LX; apply nth_error_Some; congruence).
        apply two_sweeps with m; auto. apply IH; auto.
        { split; [rewrite flipped_len; auto|apply flipped_entries; auto; apply spin_opp]. }
        intros j LJ. rewrite flipped_at. destruct (Nat.eqb_spec j m) as [->|]; [|apply AG; lia].
        rewrite EA, EB. cbn. f_equal. rewrite Forall_forall in SX, SY. assert (H1 := SX a (nth_error_In _ _ EA)). assert (H2 := SY b (nth_error_In _ _ EB)).
        unfold spinz in *. lia.
    + apply nth_error_None in EB. assert (m < length x) by (apply nth_error_Some; congruence). lia.
    + apply idle; auto. apply IH; auto. intros j LJ. destruct (Nat.eq_dec j m) as [->|]; [|apply AG; lia].
      rewrite EA. symmetry. apply nth_error_None. apply nth_error_None in EA. lia.
Qed.
(** From every spin vector to every other one. *)
Theorem random_reach : (forall i, i < n -> vmatters i) -> forall ts x y, Forall warm ts -> 2 * n <= length ts -> spinv x -> spinv y -> anneals perm ts x y.
Proof.
  intros HM ts x y HW HT HX HY. assert (FAR : forall u m, spinv u -> n <= m -> nth_error u m = None) by (intros u m (L & _) H; apply nth_error_None; lia).
  destruct (Nat.Even_or_Odd (length ts)) as [[m EM]|[m EM]].
  - apply fix_up_to with m; auto. intros j LJ. rewrite !FAR; auto; lia.
  - destruct ts as [|t ts]; [simpl in EM; lia|]. inversion HW; subst. apply anneals_cons with (seq 0 n) (flip_all (seq 0 n) x); [apply Permutation_refl|apply runs_all; auto|].
    assert (HX' : spinv (flip_all (seq 0 n) x)) by (split; [rewrite flip_all_len; apply HX|apply flip_all_spins; apply HX]).
    simpl in EM, HT. apply fix_up_to with m; auto; [lia|]. intros j LJ. rewrite !FAR; auto; lia.
Qed.
End Reach.
