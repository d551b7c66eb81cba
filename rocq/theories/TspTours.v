(** * TspTours: the energy of the travelling-salesman Hamiltonian and tours. *)
From Coq Require Import Permutation Sorted Lqa.
From Verif Require Import PyBase PyLemmas Numbers Constraint LogicalModel Spec ToPhysicalProofs Solver Services Stream StreamSpec NppStream Tsp TspSpec TspProofs.
Local Open Scope string_scope.
Local Open Scope list_scope.

(** ** Sums *)
Lemma sum_S n f : sum_ (S n) f = (sum_ n f + f n)%Qc.
Proof. unfold sum_. rewrite seq_S, map_app, qsum_app. cbn [map]. rewrite qsum_cons, qsum_nil. rewrite Nat.add_0_l. ring. Qed.
Lemma sum_nonneg n f : (forall i, i < n -> (0 <= f i)%Qc) -> (0 <= sum_ n f)%Qc.
Proof.
  induction n as [|n IH]; intros H; [apply Qcle_refl|]. rewrite sum_S. rewrite <- (Qcplus_0_r 0). apply Qcplus_le_compat; auto.
Qed.
Lemma sum_ge n f k : (forall i, i < n -> (0 <= f i)%Qc) -> k < n -> (f k <= sum_ n f)%Qc.
Proof.
  induction n as [|n IH]; intros H Hk; [lia|]. rewrite sum_S. destruct (Nat.eq_dec k n) as [->|].
  - rewrite <- (Qcplus_0_l (f n)) at 1. apply Qcplus_le_compat; [apply sum_nonneg; auto|apply Qcle_refl].
  - rewrite <- (Qcplus_0_r (f k)). apply Qcplus_le_compat; [apply IH; auto; lia|auto].
Qed.
Lemma sum_zero n f : (forall i, i < n -> f i = 0%Qc) -> sum_ n f = 0%Qc.
Proof. induction n as [|n IH]; intros H; auto. rewrite sum_S, IH, H by auto. ring. Qed.
Lemma sum_one n f k : k < n -> (forall i, i < n -> i <> k -> f i = 0%Qc) -> sum_ n f = f k.
Proof.
  induction n as [|n IH]; intros Hk H; [lia|]. rewrite sum_S. destruct (Nat.eq_dec k n) as [->|].
  - rewrite sum_zero; [ring|]. intros i Hi. apply H; lia.
  - rewrite IH, (H n) by (auto; lia). ring.
Qed.
Lemma sum_bits n f : (forall i, i < n -> f i = 0%Qc \/ f i = 1%Qc) -> exists c, sum_ n f = qz (Z.of_nat c) /\
  (c = 0 -> forall i, i < n -> f i = 0%Qc) /\ (c = 1 -> exists k, k < n /\ f k = 1%Qc /\ forall i, i < n -> i <> k -> f i = 0%Qc).
Proof.
  induction n as [|n IH]; intros H.
  - exists 0. split; [symmetry; apply qz_0|]. split; intros; lia.
  - destruct IH as (c & E & H0 & H1); auto. rewrite sum_S, E. destruct (H n) as [F|F]; auto; rewrite F.
    + exists c. split; [ring|]. split.
      * intros Hc i Hi. destruct (Nat.eq_dec i n) as [->|]; auto. apply H0; auto; lia.
      * intros Hc. destruct (H1 Hc) as (k & K1 & K2 & K3). exists k. split; [lia|]. split; auto. intros i Hi Hne.
        destruct (Nat.eq_dec i n) as [->|]; auto. apply K3; auto; lia.
    + exists (S c). split; [rewrite Nat2Z.inj_succ; unfold Z.succ; rewrite qz_add, qz_1; reflexivity|]. split; [lia|].
      intros Hc. assert (c = 0) as -> by lia. exists n. split; [lia|]. split; auto. intros i Hi Hne. apply H0; auto; lia.
Qed.
Lemma sq_nonneg q : (0 <= sq q)%Qc.
Proof. unfold sq, Qcle. rewrite this_mul. change (this 0%Qc) with 0%Q. nra. Qed.
(** A sum of bits that is not one is penalised by at least one. *)
Lemma one_hot_or_one n f : (forall i, i < n -> f i = 0%Qc \/ f i = 1%Qc) ->
  (exists k, k < n /\ f k = 1%Qc /\ forall i, i < n -> i <> k -> f i = 0%Qc) \/ (1 <= sq (sum_ n f - 1))%Qc.
Proof.
  intros H. destruct (sum_bits n f H) as (c & E & _ & H1). destruct (Nat.eq_dec c 1) as [C|C]; [left; auto|right].
  rewrite E. rewrite <- qz_1. unfold sq. rewrite <- qz_sub, <- qz_mul. apply qz_le. nia.
Qed.
Lemma one_hot_sum n f k : k < n -> f k = 1%Qc -> (forall i, i < n -> i <> k -> f i = 0%Qc) -> sq (sum_ n f - 1)%Qc = 0%Qc.
Proof. intros H1 H2 H3. rewrite (sum_one n f k), H2 by auto. unfold sq. ring. Qed.

Lemma sum_scale n c f : (c * sum_ n f = sum_ n (fun i => c * f i))%Qc.
Proof. induction n as [|n IH]; [unfold sum_; cbn; ring|]. rewrite !sum_S, <- IH. ring. Qed.

(** ** Tours as sums *)
Lemma sum_first n f : sum_ (S n) f = (f 0%nat + sum_ n (fun k => f (S k)))%Qc.
Proof. unfold sum_. cbn [seq map]. rewrite <- seq_shift, map_map, qsum_cons. reflexivity. Qed.
Lemma legs_sum {A} (d : A -> A -> Qc) (dflt : A) r : forall h home,
  legs d h r home = sum_ (S (length r)) (fun k => d (nth k (h :: r) dflt) (nth k (r ++ [home]) dflt)).
Proof.
  induction r as [|x r IH]; intros h home; cbn [legs length].
  - rewrite sum_first. cbn [nth app]. unfold sum_. cbn [seq map]. rewrite qsum_nil. ring.
  - rewrite IH, (sum_first (S (length r))). cbn [nth app]. reflexivity.
Qed.
Lemma tour_sum {A} (d : A -> A -> Qc) (dflt : A) p :
  tour_length d p = sum_ (length p) (fun k => d (nth k p dflt) (nth ((k + 1) mod length p) p dflt)).
Proof.
  destruct p as [|h r]; [reflexivity|]. cbn [tour_length length]. rewrite (legs_sum d dflt). apply sum_ext. intros k Hk. f_equal.
  destruct (Nat.eq_dec k (length r)) as [->|Hne].
  - rewrite app_nth2, Nat.sub_diag by lia. rewrite Nat.add_1_r, Nat.mod_same by lia. reflexivity.
  - rewrite app_nth1 by lia. rewrite Nat.mod_small by lia. rewrite Nat.add_1_r. reflexivity.
Qed.
Lemma visits_at x p k j : visits x p -> k < length p -> j < length p -> at_ x k j = if Nat.eqb j (nth k p 0) then 1%Qc else 0%Qc.
Proof. intros H Hk Hj. apply H; auto. apply nth_error_nth'. auto. Qed.
Lemma perm_lt p n k : Permutation p (seq 0 n) -> k < n -> nth k p 0 < n.
Proof.
  intros HP Hk. assert (HL : length p = n) by (rewrite (Permutation_length HP); apply seq_length).
  assert (HI : In (nth k p 0) p) by (apply nth_In; lia). apply (Permutation_in _ HP), in_seq in HI. lia.
Qed.
(** A tour costs its length in 100 km, and nothing else. *)
Lemma tour_energy D n T C x p : Permutation p (seq 0 n) -> visits x p ->
  tsp_energy D n T C x = (tour_length D p / qz 100)%Qc.
Proof.
  intros HP HV. assert (HL : length p = n) by (rewrite (Permutation_length HP); apply seq_length).
  assert (HD : NoDup p) by (apply (Permutation_NoDup (Permutation_sym HP)), seq_NoDup).
  unfold tsp_energy. rewrite (tour_sum D 0 p), HL.
  assert (E1 : sum_ n (fun k => sq (sum_ n (fun j => at_ x k j) - 1))%Qc = 0%Qc).
  { apply sum_zero. intros k Hk. apply (one_hot_sum _ _ (nth k p 0)); [apply perm_lt; auto| |].
    - rewrite (visits_at x p) by (auto; rewrite HL; auto; apply perm_lt; auto). rewrite Nat.eqb_refl. reflexivity.
    - intros j Hj Hne. rewrite (visits_at x p) by lia || auto. destruct (Nat.eqb_spec j (nth k p 0)); [contradiction|reflexivity]. }
  assert (E2 : sum_ n (fun j => sq (sum_ n (fun k => at_ x k j) - 1))%Qc = 0%Qc).
  { apply sum_zero. intros j Hj. assert (HI : In j p) by (apply (Permutation_in _ (Permutation_sym HP)), in_seq; lia).
    apply (In_nth _ _ 0) in HI as (k & Hk & Ek). rewrite HL in Hk. apply (one_hot_sum _ _ k); auto.
    - rewrite (visits_at x p) by lia || auto. rewrite Ek, Nat.eqb_refl. reflexivity.
    - intros i Hi Hne. rewrite (visits_at x p) by lia || auto. destruct (Nat.eqb_spec j (nth i p 0)) as [E|]; auto. exfalso. apply Hne.
      apply (proj1 (NoDup_nth p 0) HD); try lia. }
  rewrite E1, E2. rewrite !Qcmult_0_r, !Qcplus_0_r. unfold Qcdiv. rewrite Qcmult_comm, sum_scale. apply sum_ext.
  intros k Hk. assert (Hk' : (k + 1) mod n < n) by (apply Nat.mod_upper_bound; lia). set (k' := (k + 1) mod n) in *.
  rewrite (sum_one n _ (nth k p 0%nat)); [|apply perm_lt; auto; lia|].
  - rewrite (sum_one n _ (nth k' p 0%nat)); [|apply perm_lt; auto; lia|].
    + rewrite !(visits_at x p) by (auto; rewrite HL; try apply perm_lt; auto; lia). rewrite !Nat.eqb_refl. ring.
    + intros j Hj Hne. rewrite (visits_at x p k' j) by lia || auto. destruct (Nat.eqb_spec j (nth k' p 0%nat)); [contradiction|]. ring.
  - intros i Hi Hne. apply (sum_zero n). intros j Hj. rewrite (visits_at x p k i) by lia || auto. destruct (Nat.eqb_spec i (nth k p 0%nat)); [contradiction|]. ring.
Qed.
(** The assignment of a tour. *)
Definition tour_assignment (p : list nat) : assignment :=
  fun l => if existsb (fun k => String.eqb l ("city" +++ brackets [k; nth k p 0])) (seq 0 (length p)) then 1%Qc else 0%Qc.
Lemma tour_binary p : binary (tour_assignment p).
Proof. intros l. unfold tour_assignment. destruct (existsb _ _); auto. Qed.
Lemma city_inj k j k' j' : "city" +++ brackets [k; j] = "city" +++ brackets [k'; j'] -> k = k' /\ j = j'.
Proof. intros E. apply append_inj_l, brackets_inj in E. injection E as -> ->. auto. Qed.
Lemma tour_visits p : visits (tour_assignment p) p.
Proof.
  intros k j i Hi Hj. unfold at_, tour_assignment. assert (Hk : k < length p) by (apply nth_error_Some; congruence).
  assert (Ei : nth k p 0 = i) by (apply nth_error_nth; auto). destruct (existsb _ _) eqn:E.
  - apply existsb_exists in E as (k' & _ & E). apply String.eqb_eq, city_inj in E as [<- ->]. rewrite Ei, Nat.eqb_refl. reflexivity.
  - destruct (Nat.eqb_spec j i) as [->|]; auto. exfalso. apply eq_true_false_abs with (2 := E). apply existsb_exists. exists k. split; [apply in_seq; lia|].
    rewrite Ei. apply String.eqb_refl.
Qed.
(** Everything else costs at least the smaller of the two penalties. *)
Lemma legs_nonneg D n x : (forall i j, i < n -> j < n -> (0 <= D i j)%Qc) -> binary x ->
  (0 <= sum_ n (fun k => sum_ n (fun i => sum_ n (fun j => D i j / qz 100 * (at_ x k i * at_ x ((k + 1) mod n) j)))))%Qc.
Proof.
  intros HD HB. do 3 (apply sum_nonneg; intros ? ?).
  assert (0 <= at_ x i i0 * at_ x ((i + 1) mod n) i1)%Qc.
  { unfold at_. destruct (HB ("city" +++ brackets [i; i0])) as [-> | ->], (HB ("city" +++ brackets [(i + 1) mod n; i1])) as [-> | ->]; discriminate. }
  unfold Qcdiv. assert (0 <= D i0 i1 * / qz 100)%Qc by (rewrite <- (Qcmult_0_l (/ qz 100)); apply Qcmult_le_compat_r; [auto|discriminate]).
  rewrite <- (Qcmult_0_l (at_ x i i0 * at_ x ((i + 1) mod n) i1)). apply Qcmult_le_compat_r; auto.
Qed.
Lemma sum_add n f g : sum_ n (fun i => f i + g i)%Qc = (sum_ n f + sum_ n g)%Qc.
Proof. induction n as [|n IH]; [unfold sum_; cbn; ring|]. rewrite !sum_S, IH. ring. Qed.
Lemma sum_swap n m f : sum_ n (fun i => sum_ m (fun j => f i j)) = sum_ m (fun j => sum_ n (fun i => f i j)).
Proof.
  induction n as [|n IH]; [symmetry; apply sum_zero; reflexivity|]. rewrite sum_S, IH, <- sum_add. apply sum_ext. intros i _. now rewrite sum_S.
Qed.
(** The numbers of violations, counted with their squares, are together even. *)
Lemma parity_one n (f : nat -> Qc) : (forall k, k < n -> exists c, f k = qz c) ->
  exists z, sum_ n (fun k => sq (f k - 1))%Qc = (sum_ n (fun k => f k - 1) + qz (2 * z))%Qc.
Proof.
  induction n as [|n IH]; intros H; [exists 0%Z; unfold sum_; cbn; reflexivity|]. destruct IH as (z & E); auto. destruct (H n) as (c & Ec); auto.
  assert (exists y, ((c - 1) * (c - 1) = (c - 1) + 2 * y)%Z) as (y & Ey).
  { destruct (Z.Even_or_Odd (c - 1)) as [(q & Q)|(q & Q)]; rewrite Q; [exists (2 * q * q - q)%Z|exists (2 * q * q + q)%Z]; ring. }
  exists (z + y)%Z. rewrite !sum_S, E, Ec. unfold sq. rewrite <- qz_1, <- !qz_sub, <- qz_mul, Ey. rewrite !qz_add, !qz_mul, qz_add. ring.
Qed.
Lemma parity n x : binary x -> exists z,
  (sum_ n (fun k => sq (sum_ n (fun j => at_ x k j) - 1)) + sum_ n (fun j => sq (sum_ n (fun k => at_ x k j) - 1)))%Qc = qz (2 * z).
Proof.
  intros HB. destruct (parity_one n (fun k => sum_ n (fun j => at_ x k j))) as (z & E).
  { intros k _. destruct (sum_bits n (fun j => at_ x k j)) as (c & Ec & _); [intros i _; apply HB|eauto]. }
  destruct (parity_one n (fun j => sum_ n (fun k => at_ x k j))) as (z' & E').
  { intros j _. destruct (sum_bits n (fun k => at_ x k j)) as (c & Ec & _); [intros i _; apply HB|eauto]. }
  assert (exists w, sum_ n (fun k => sum_ n (fun j => at_ x k j) - 1)%Qc = qz w) as (w & Ew).
  { clear E E' z z'. generalize n at 1. induction n0 as [|m IH]; [exists 0%Z; unfold sum_; cbn; symmetry; apply qz_0|]. destruct IH as (w & Ew).
    destruct (sum_bits n (fun j => at_ x m j)) as (c & Ec & _); [intros i _; apply HB|].
    exists (w + (Z.of_nat c - 1))%Z. rewrite sum_S, Ew, Ec, <- qz_1, <- qz_sub, <- qz_add. reflexivity. }
  assert (Ew' : sum_ n (fun j => sum_ n (fun k => at_ x k j) - 1)%Qc = qz w).
  { rewrite <- Ew. unfold Qcminus. rewrite !sum_add. f_equal. symmetry. apply sum_swap. }
  exists (w + z + z')%Z. rewrite E, E', Ew, Ew'. rewrite <- !qz_add. f_equal. ring.
Qed.
Lemma no_tour_energy D n T C x : (forall i j, i < n -> j < n -> (0 <= D i j)%Qc) -> (0 <= T)%Qc -> (0 <= C)%Qc -> binary x ->
  (exists p, Permutation p (seq 0 n) /\ visits x p) \/
  forall b, (0 <= b)%Qc -> (b <= T)%Qc -> (b <= C)%Qc -> (b + b <= tsp_energy D n T C x)%Qc.
Proof.
  intros HD HT HC HB. pose proof (legs_nonneg D n x HD HB) as H0. unfold tsp_energy.
  set (d := sum_ n (fun k => sum_ n (fun i => sum_ n (fun j => (D i j / qz 100 * (at_ x k i * at_ x ((k + 1) mod n) j))%Qc)))) in *.
  set (rowq := fun k => sq (sum_ n (fun j => at_ x k j) - 1)%Qc). set (colq := fun j => sq (sum_ n (fun k => at_ x k j) - 1)%Qc).
  assert (HR : forall k, (0 <= rowq k)%Qc) by (intros; apply sq_nonneg). assert (HK : forall k, (0 <= colq k)%Qc) by (intros; apply sq_nonneg).
  assert (HR' : (0 <= T * sum_ n rowq)%Qc).
  { rewrite Qcmult_comm, <- (Qcmult_0_l T). apply Qcmult_le_compat_r; auto. apply sum_nonneg; auto. }
  assert (HK' : (0 <= C * sum_ n colq)%Qc).
  { rewrite Qcmult_comm, <- (Qcmult_0_l C). apply Qcmult_le_compat_r; auto. apply sum_nonneg; auto. }
  assert (DR : (forall k, k < n -> exists j, j < n /\ at_ x k j = 1%Qc /\ forall i, i < n -> i <> j -> at_ x k i = 0%Qc) \/
               exists k, k < n /\ (1 <= rowq k)%Qc).
  { assert (G : forall m, m <= n -> (forall k, k < m -> exists j, j < n /\ at_ x k j = 1%Qc /\ forall i, i < n -> i <> j -> at_ x k i = 0%Qc) \/
               exists k, k < n /\ (1 <= rowq k)%Qc); [|apply (G n); auto].
    induction m as [|m IH]; intros Hm; [left; intros; lia|]. destruct IH as [IH|IH]; [lia| |auto].
    destruct (one_hot_or_one n (fun j => at_ x m j)) as [H|H]; [intros i _; unfold at_; apply HB| |right; exists m; split; [lia|exact H]].
    left. intros k Hk. destruct (Nat.eq_dec k m) as [->|]; auto. apply IH. lia. }
  assert (DC : (forall j, j < n -> exists k, k < n /\ at_ x k j = 1%Qc /\ forall i, i < n -> i <> k -> at_ x i j = 0%Qc) \/
               exists j, j < n /\ (1 <= colq j)%Qc).
  { assert (G : forall m, m <= n -> (forall j, j < m -> exists k, k < n /\ at_ x k j = 1%Qc /\ forall i, i < n -> i <> k -> at_ x i j = 0%Qc) \/
               exists j, j < n /\ (1 <= colq j)%Qc); [|apply (G n); auto].
    induction m as [|m IH]; intros Hm; [left; intros; lia|]. destruct IH as [IH|IH]; [lia| |auto].
    destruct (one_hot_or_one n (fun k => at_ x k m)) as [H|H]; [intros i _; unfold at_; apply HB| |right; exists m; split; [lia|exact H]].
    left. intros k Hk. destruct (Nat.eq_dec k m) as [->|]; auto. apply IH. lia. }
  destruct (Qclt_le_dec (sum_ n rowq + sum_ n colq) 1) as [HS|HS].
  2:{ right. intros b B0 B1 B2. fold rowq colq.
      assert (H2 : (1 + 1 <= sum_ n rowq + sum_ n colq)%Qc).
      { destruct (parity n x HB) as (z & EZ). fold rowq colq in EZ. rewrite EZ in *. clear - HS. rewrite <- qz_1 in HS. apply (proj1 (qz_le _ _)) in HS.
        rewrite <- qz_1, <- qz_add. apply qz_le. lia. }
      apply Qcle_trans with (b * (sum_ n rowq + sum_ n colq))%Qc.
      - replace (b + b)%Qc with ((1 + 1) * b)%Qc by ring. rewrite (Qcmult_comm b). apply Qcmult_le_compat_r; auto.
      - replace (b * (sum_ n rowq + sum_ n colq))%Qc with (0 + b * sum_ n rowq + b * sum_ n colq)%Qc by ring.
        repeat apply Qcplus_le_compat; auto; apply Qcmult_le_compat_r; auto; apply sum_nonneg; auto. }
  assert (N1 : forall k, k < n -> ~ (1 <= rowq k)%Qc).
  { intros k Hk H. apply (Qclt_not_le _ _ HS). replace 1%Qc with (1 + 0)%Qc by ring. apply Qcplus_le_compat; [|apply sum_nonneg; auto].
    eapply Qcle_trans; [exact H|]. apply sum_ge; auto. }
  assert (N2 : forall k, k < n -> ~ (1 <= colq k)%Qc).
  { intros k Hk H. apply (Qclt_not_le _ _ HS). replace 1%Qc with (0 + 1)%Qc by ring. apply Qcplus_le_compat; [apply sum_nonneg; auto|].
    eapply Qcle_trans; [exact H|]. apply sum_ge; auto. }
  destruct DR as [DR|(k & Hk & DR)]; [|exfalso; eapply N1; eauto].
  destruct DC as [DC|(k & Hk & DC)]; [|exfalso; eapply N2; eauto].
  left. 
  assert (G : forall m, m <= n -> exists p, length p = m /\ forall k, k < m -> nth k p 0 < n /\ forall j, j < n -> at_ x k j = if Nat.eqb j (nth k p 0) then 1%Qc else 0%Qc).
  { induction m as [|m IH]; intros Hm; [exists []; split; auto; intros; lia|]. destruct IH as (p & L & P); [lia|].
    destruct (DR m) as (j & J1 & J2 & J3); [lia|]. exists (p ++ [j]). split; [rewrite app_length; cbn; lia|]. intros k Hk.
    destruct (Nat.eq_dec k m) as [->|].
    - rewrite app_nth2, L, Nat.sub_diag by lia. cbn [nth]. split; auto. intros i Hi. destruct (Nat.eqb_spec i j) as [->|]; auto.
    - rewrite app_nth1 by lia. apply P. lia. }
  destruct (G n (le_n n)) as (p & L & P). exists p. split.
  - assert (ND : NoDup p).
    { apply (NoDup_nth p 0). intros a b Ha Hb E. rewrite L in *. destruct (P a Ha) as [A1 A2]. destruct (P b Hb) as [B1 B2].
      destruct (DC (nth a p 0) A1) as (k & _ & _ & K). destruct (Nat.eq_dec a k) as [->|Na].
      - destruct (Nat.eq_dec b k) as [->|Nb]; auto. exfalso. specialize (K b Hb Nb). rewrite B2, E, Nat.eqb_refl in K by auto. discriminate.
      - exfalso. specialize (K a Ha Na). rewrite A2, Nat.eqb_refl in K by auto. discriminate. }
    apply NoDup_Permutation_bis; auto.
    + rewrite seq_length. lia.
    + intros i Hi. apply (In_nth _ _ 0) in Hi as (k & Hk & <-). apply in_seq. destruct (P k); lia.
  - intros k j i Hi Hj. assert (Hk : k < length p) by (apply nth_error_Some; congruence). rewrite (proj2 (P k ltac:(lia))) by lia.
    rewrite (nth_error_nth _ _ 0 Hi). reflexivity.
Qed.
