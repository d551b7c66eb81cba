(** * PropsCooling: C157 - the temperatures of a run in floating-point arithmetic. *)
From Verif Require Import PyBase PyLemmas Numbers Constraint LogicalModel Spec PhysicalProofs Samples PropsPhysical
  ToPhysicalProofs Physical BqmProofs History PropsHistory PropsBqm Solver SolverSpec SolverProofs PropsSolver NppStream PropsNppSolve PropsPenalty Rounded PropsRounded PropsError.
Open Scope string_scope.
Open Scope list_scope.

(** ** One sweep *)
(** The temperature after [k] coolings, each rounded. *)
Fixpoint cooled (rnd : Qc -> Qc) (rate t : Qc) (k : nat) : Qc :=
  match k with O => t | S k' => rnd (cooled rnd rate t k' * rate)%Qc end.
Lemma cooled_first rnd rate t k : cooled rnd rate (rnd (t * rate)%Qc) k = cooled rnd rate t (S k).
Proof. induction k as [|k IH]; [reflexivity|]. cbn [cooled] in *. rewrite IH. reflexivity. Qed.
Lemma forward_sweeps a w g o lin adj n randoms : forall ks st st', s_reversing st = false -> fl_sweeps a w g o lin adj n randoms st ks = Ok st' ->
  s_thist st' = s_thist st ++ map (cooled (ar_temp a) (o_rate o) (s_temp st)) (seq 0 (length ks)).
Proof.
  induction ks as [|k ks IH]; intros st st' HR H; cbn [fl_sweeps] in H; [injection H as <-; cbn; rewrite app_nil_r; reflexivity|].
  apply rbind_ok in H. destruct H as (st1 & H1 & H). unfold fl_sweep in H1. rewrite HR in H1. cbn [rbind] in H1.
  destruct (pickups g (o_pickup o) n (s_trace st)) as [idxs tr]. apply rbind_ok in H1. destruct H1 as (kk & _ & H1). cbn [rbind fst snd] in H1. injection H1 as <-.
  apply IH in H; [|reflexivity]. cbn [s_thist s_temp] in H. rewrite H, <- app_assoc. f_equal. cbn [length seq map app]. f_equal. rewrite <- seq_shift, map_map. apply map_ext. intros j. apply cooled_first.
Qed.
Lemma nth_error_seq j n k : k < n -> nth_error (seq j n) k = Some (j + k).
Proof. revert j k. induction n as [|n IH]; intros j k H; [lia|]. destruct k; cbn [seq nth_error]; [f_equal; lia|]. rewrite IH by lia. f_equal. lia. Qed.
(** The warming phase: the target falls by the rate, the temperature is its distance from the reverse temperature. *)
Definition warm (rnd : Qc -> Qc) (rate rt per : Qc) (tt : Qc * Qc) (k : nat) : Qc * Qc :=
  if Qcle_bool per (qz (Z.of_nat k)) then (rnd (fst tt * rate)%Qc, snd tt) else (rnd (rt - rnd (snd tt * rate)%Qc)%Qc, rnd (snd tt * rate)%Qc).
Fixpoint warms rnd rate rt per (tt : Qc * Qc) (ks : list nat) : list Qc :=
  match ks with [] => [] | k :: r => fst tt :: warms rnd rate rt per (warm rnd rate rt per tt k) r end.
Lemma later per j k : Qcle_bool per (qz (Z.of_nat j)) = true -> j <= k -> Qcle_bool per (qz (Z.of_nat k)) = true.
Proof.
  intros H HJ. apply Qcle_bool_iff in H. apply Qcle_bool_iff. eapply Qcle_trans; [exact H|]. apply qz_le. lia.
Qed.
Lemma reverse_sweeps a w g o lin adj n randoms d rt per : o_reverse o = RDict d -> dget "reverse_temperature" d = Some rt -> dget "reverse_period" d = Some per ->
  forall m j st st', (s_reversing st = false -> Qcle_bool per (qz (Z.of_nat j)) = true) -> fl_sweeps a w g o lin adj n randoms st (seq j m) = Ok st' ->
  s_thist st' = s_thist st ++ warms (ar_temp a) (o_rate o) rt per (s_temp st, s_target st) (seq j m).
Proof.
  intros OR RT PE. induction m as [|m IH]; intros j st st' HR H; cbn [seq fl_sweeps] in H; [injection H as <-; cbn; rewrite app_nil_r; reflexivity|].
  apply rbind_ok in H. destruct H as (st1 & H1 & H). unfold fl_sweep in H1. apply rbind_ok in H1. destruct H1 as (rev & E & H1).
  assert (ER : rev = negb (Qcle_bool per (qz (Z.of_nat j)))).
  { destruct (s_reversing st); [|injection E as <-; rewrite HR; reflexivity]. rewrite OR in E. cbn [rev_get] in E. rewrite PE in E. cbn [rbind] in E. injection E as <-. reflexivity. }
  clear E. destruct (pickups g (o_pickup o) n (s_trace st)) as [idxs tr]. apply rbind_ok in H1. destruct H1 as (kk & _ & H1). apply rbind_ok in H1. destruct H1 as (tt & ET & H1). injection H1 as <-.
  apply IH in H.
  - cbn [s_thist s_temp s_target] in H. rewrite H, <- app_assoc. f_equal. cbn [seq warms app fst]. f_equal. f_equal. unfold warm. cbn [fst snd].
    rewrite ER in ET. destruct (Qcle_bool per (qz (Z.of_nat j))); cbn [negb] in ET; [injection ET as <-; reflexivity|]. rewrite OR in ET. cbn [rev_get] in ET. rewrite RT in ET. cbn [rbind] in ET. injection ET as <-. reflexivity.
  - cbn [s_reversing]. intros EF. rewrite ER in EF. destruct (Qcle_bool per (qz (Z.of_nat j))) eqn:EJ; [|discriminate]. apply (later per j); auto.
Qed.

(** ** Every read *)
Lemma each_read a w g o p orig b lin adj : forall inits tr l, fl_reads a w g o p orig b lin adj inits tr = Ok l -> forall r, In r l ->
  exists s0 tr0 tr1, fl_annealing a w g o p orig b lin adj s0 tr0 = Ok (r, tr1).
Proof.
  induction inits as [|s0 inits IH]; intros tr l H r HI; cbn [fl_reads] in H; [injection H as <-; destruct HI|].
  apply rbind_ok in H. destruct H as ([d t1] & H1 & H). apply rbind_ok in H. destruct H as (l' & H2 & H). injection H as <-.
  destruct HI as [<-|HI]; [exists s0, tr, t1; exact H1|]. eapply IH; eauto.
Qed.
Lemma a_read rnd order w p o out r : fl_result rnd order w p o = Ok out -> In r (out_reads out) ->
  exists g orig b lin adj s0 tr0 tr1, fl_annealing (machine rnd order) w g o p orig b lin adj s0 tr0 = Ok (r, tr1).
Proof.
  intros H HI. unfold fl_result, fl_solve in H. destruct (check_args p o) as [[]|]; [|discriminate]. destruct (pick_rng w (o_seed o)) as [g|]; [|discriminate].
  destruct (fl_to_bqm _ p) as [b0|]; [|discriminate]. cbn [snd] in H. cbv zeta in H. apply rbind_ok in H. destruct H as (lin & _ & H). apply rbind_ok in H. destruct H as (adj & _ & H).
  apply rbind_ok in H. destruct H as (l & HR & H). injection H as <-. cbn [out_reads] in HI. destruct (each_read _ _ _ _ _ _ _ _ _ _ _ _ HR _ HI) as (s0 & t0 & t1 & E). do 8 eexists. exact E.
Qed.
Lemma forward_read rnd order w p o out r : fl_result rnd order w p o = Ok out -> In r (out_reads out) -> o_reverse o = RNone ->
  d_thist r = map (cooled rnd (o_rate o) (o_temp o)) (seq 0 (Z.to_nat (o_sweeps o))).
Proof.
  intros H HI OR. destruct (a_read _ _ _ _ _ _ _ H HI) as (g & orig & b & lin & adj & s0 & t0 & t1 & E). unfold fl_annealing in E.
  apply rbind_ok in E. destruct E as (xt & _ & E). apply rbind_ok in E. destruct E as (e0 & _ & E). rewrite OR in E. cbn [rev_truthy rbind fst snd] in E.
  match type of E with (if ?c then _ else _) = _ => destruct c; [discriminate|] end. cbv zeta in E. apply rbind_ok in E. destruct E as (st & ES & E). injection E as <- _.
  apply forward_sweeps in ES; [|reflexivity]. rewrite seq_length in ES. exact ES.
Qed.
Lemma reverse_read rnd order w p o out r d rt per : fl_result rnd order w p o = Ok out -> In r (out_reads out) ->
  o_reverse o = RDict d -> dget "reverse_temperature" d = Some rt -> dget "reverse_period" d = Some per ->
  d_thist r = warms rnd (o_rate o) rt per (rnd tiny, rt) (seq 0 (Z.to_nat (o_sweeps o))).
Proof.
  intros H HI OR RT PE. destruct (a_read _ _ _ _ _ _ _ H HI) as (g & orig & b & lin & adj & s0 & t0 & t1 & E). unfold fl_annealing in E.
  apply rbind_ok in E. destruct E as (xt & _ & E). apply rbind_ok in E. destruct E as (e0 & _ & E). apply rbind_ok in E. destruct E as (tt & ET & E).
  assert (TR : rev_truthy (o_reverse o) = true) by (rewrite OR; destruct d; [discriminate|reflexivity]). rewrite TR, OR in ET. cbn [rev_get] in ET. rewrite RT in ET. cbn [rbind] in ET. injection ET as <-.
  match type of E with (if ?c then _ else _) = _ => destruct c; [discriminate|] end. cbv zeta in E. apply rbind_ok in E. destruct E as (st & ES & E). injection E as <- _.
  apply (reverse_sweeps _ _ _ _ _ _ _ _ _ _ _ OR RT PE) in ES; [exact ES|]. cbn [s_reversing]. rewrite OR. discriminate.
Qed.

(** ** Errors *)
Lemma qabs_mul x y : qabs (x * y) = (qabs x * qabs y)%Qc.
Proof.
  destruct (qabs_cases x) as [[H E]|[H E]]; rewrite E; [apply qabs_scale; auto|].
  replace (x * y)%Qc with (- (- x * y))%Qc by ring. rewrite qabs_opp. apply qabs_scale. qord.
Qed.
Lemma near_times u m M x y r : near u m M x y -> near u m (M * qabs r) (x * r) (y * r).
Proof.
  unfold near. intros H. replace (x * r - y * r)%Qc with ((x - y) * r)%Qc by ring. rewrite qabs_mul, Qcmult_assoc. apply Qcmult_le_compat_r; auto. apply qabs_nonneg.
Qed.
Lemma cooled_near u rnd rate t k : relative u rnd -> near u k (qabs (t * Qcpower rate k)) (cooled rnd rate t k) (t * Qcpower rate k).
Proof.
  intros [U0 RE]. induction k as [|k IH]; cbn [cooled Qcpower].
  - replace (t * 1)%Qc with t by ring. apply near_refl; auto. apply qabs_nonneg.
  - apply (near_times _ _ _ _ _ rate) in IH. rewrite <- qabs_mul in IH. replace (t * Qcpower rate k * rate)%Qc with (t * (rate * Qcpower rate k))%Qc in IH by ring.
    apply near_round; auto. apply Qcle_refl.
Qed.

(** ** Theorems *)
(** Without reverse annealing the temperature of sweep [k] is [initial_temperature * cooling_rate^k], up to the error of [k] roundings. *)
Theorem C157_cooling : forall u rnd order w p o out r,
  relative u rnd -> o_reverse o = RNone -> fl_result rnd order w p o = Ok out -> In r (out_reads out) ->
  length (d_thist r) = Z.to_nat (o_sweeps o) /\
  forall k t, nth_error (d_thist r) k = Some t ->
    (qabs (t - o_temp o * Qcpower (o_rate o) k) <= drift u k * qabs (o_temp o * Qcpower (o_rate o) k))%Qc.
Proof.
  intros u rnd order w p o out r RU OR H HI. rewrite (forward_read _ _ _ _ _ _ _ H HI OR). split; [rewrite map_length, seq_length; reflexivity|].
  intros k t HT. assert (HK : k < Z.to_nat (o_sweeps o)) by (assert (L : nth_error (map (cooled rnd (o_rate o) (o_temp o)) (seq 0 (Z.to_nat (o_sweeps o)))) k <> None) by (rewrite HT; discriminate); apply nth_error_Some in L; rewrite map_length, seq_length in L; exact L).
  rewrite (map_nth_error _ k (seq 0 (Z.to_nat (o_sweeps o))) (d := k)) in HT by (rewrite nth_error_seq by exact HK; reflexivity). injection HT as <-. apply (cooled_near u rnd); auto.
Qed.
(** A positive initial temperature and rate give positive temperatures, and under a monotone rounding a rate of at most one never raises them. *)
Theorem C157_never_rises : forall u rnd order w p o out r,
  relative u rnd -> (u < 1)%Qc -> o_reverse o = RNone -> fl_result rnd order w p o = Ok out -> In r (out_reads out) ->
  (0 < o_temp o)%Qc -> (0 < o_rate o)%Qc ->
  (forall k t, nth_error (d_thist r) k = Some t -> (0 < t)%Qc) /\
  ((forall x y, (x <= y)%Qc -> (rnd x <= rnd y)%Qc) -> (forall x, rnd (rnd x) = rnd x) -> rnd (o_temp o) = o_temp o -> (o_rate o <= 1)%Qc ->
   forall j k s t, j <= k -> nth_error (d_thist r) j = Some s -> nth_error (d_thist r) k = Some t -> (t <= s)%Qc).
Proof.
  intros u rnd order w p o out r [U0 RE] U1 OR H HI HT HR. rewrite (forward_read _ _ _ _ _ _ _ H HI OR). set (n := Z.to_nat (o_sweeps o)).
  assert (AT : forall k t, nth_error (map (cooled rnd (o_rate o) (o_temp o)) (seq 0 n)) k = Some t -> t = cooled rnd (o_rate o) (o_temp o) k).
  { intros k t E. assert (HK : k < n) by (assert (L : nth_error (map (cooled rnd (o_rate o) (o_temp o)) (seq 0 n)) k <> None) by (rewrite E; discriminate); apply nth_error_Some in L; rewrite map_length, seq_length in L; exact L). rewrite (map_nth_error _ k (seq 0 n) (d := k)) in E by (rewrite nth_error_seq by exact HK; reflexivity). injection E as <-. reflexivity. }
  assert (PR : forall v, (0 < v)%Qc -> (0 < rnd v)%Qc).
  { intros v HV. pose proof (RE v) as E. assert (EV : qabs v = v) by (destruct (qabs_cases v) as [[? ?]|[? ?]]; auto; qord). rewrite EV in E.
    assert (B : (u * v < 1 * v)%Qc) by (apply Qcmult_lt_compat_r; auto). rewrite Qcmult_1_l in B. generalize dependent (u * v)%Qc. intros uv E B. destruct (qabs_cases (rnd v - v)) as [[? E2]|[? E2]]; rewrite E2 in E; qord. }
  assert (PO : forall k, (0 < cooled rnd (o_rate o) (o_temp o) k)%Qc).
  { induction k as [|k IH]; cbn [cooled]; auto. apply PR. pose proof (Qcmult_lt_compat_r _ _ _ HR IH) as E. rewrite Qcmult_0_l in E. exact E. }
  split; [intros k t E; rewrite (AT _ _ E); apply PO|]. intros MO IDE RT HR1 j k s t HJ ES ET. rewrite (AT _ _ ES), (AT _ _ ET). clear ES ET.
  assert (FX : forall i, rnd (cooled rnd (o_rate o) (o_temp o) i) = cooled rnd (o_rate o) (o_temp o) i) by (destruct i; cbn [cooled]; auto).
  induction HJ as [|k HJ IH]; [apply Qcle_refl|]. eapply Qcle_trans; [|exact IH]. cbn [cooled]. rewrite <- (FX k) at 2. apply MO.
  rewrite Qcmult_comm. rewrite <- (Qcmult_1_l (cooled rnd (o_rate o) (o_temp o) k)) at 2. apply Qcmult_le_compat_r; auto. specialize (PO k). qord.
Qed.
(** With reverse annealing the run starts at 1e-9. As long as the sweep before is one of the reverse period the temperature is
    [reverse_temperature * (1 - cooling_rate^k)], afterwards every sweep cools by the rate, up to the error of the roundings. *)
Lemma warms_len rnd rate rt per : forall ks tt, length (warms rnd rate rt per tt ks) = length ks.
Proof. induction ks as [|k ks IH]; intros tt; cbn [warms length]; auto. Qed.
Lemma warm_phase u rnd rate rt per : relative u rnd -> forall m j (tt : Qc * Qc) k t, near u j (qabs (rt * Qcpower rate j)) (snd tt) (rt * Qcpower rate j) ->
  nth_error (warms rnd rate rt per tt (seq j m)) (S k) = Some t -> (qz (Z.of_nat (j + k)) < per)%Qc ->
  near u (S (S (j + k))) (qabs rt + qabs (rt * Qcpower rate (S (j + k)))) t (rt * (1 - Qcpower rate (S (j + k)))).
Proof.
  intros [U0 RE]. assert (NX : forall j (tt : Qc * Qc), near u j (qabs (rt * Qcpower rate j)) (snd tt) (rt * Qcpower rate j) -> near u (S j) (qabs (rt * Qcpower rate (S j))) (rnd (snd tt * rate)%Qc) (rt * Qcpower rate (S j))).
  { intros j tt H. apply (near_times _ _ _ _ _ rate) in H. rewrite <- qabs_mul in H. cbn [Qcpower]. replace (rt * Qcpower rate j * rate)%Qc with (rt * (rate * Qcpower rate j))%Qc in H by ring. apply near_round; auto. apply Qcle_refl. }
  induction m as [|m IH]; intros j tt k t HN HT HP; cbn [seq warms nth_error] in HT; [discriminate|].
  assert (WJ : Qcle_bool per (qz (Z.of_nat j)) = false).
  { destruct (Qcle_bool per (qz (Z.of_nat j))) eqn:E; auto. apply (later per j (j + k)) in E; [|lia]. apply Qcle_bool_iff in E. exfalso. apply (Qclt_not_le _ _ HP E). }
  unfold warm in HT. rewrite WJ in HT. pose proof (NX _ _ HN) as HN'. destruct k as [|k].
  - rewrite Nat.add_0_r. destruct m as [|m]; cbn [seq warms nth_error fst] in HT; [discriminate|]. injection HT as <-.
    apply near_round; auto.
    + replace (rt - rnd (snd tt * rate))%Qc with (rt + - rnd (snd tt * rate))%Qc by ring. replace (rt * (1 - Qcpower rate (S j)))%Qc with (rt + - (rt * Qcpower rate (S j)))%Qc by ring.
      apply near_add; [apply near_refl; auto; apply qabs_nonneg|]. apply near_neg. exact HN'.
    + replace (rt * (1 - Qcpower rate (S j)))%Qc with (rt + - (rt * Qcpower rate (S j)))%Qc by ring. eapply Qcle_trans; [apply qabs_add|]. rewrite qabs_opp. apply Qcle_refl.
  - replace (j + S k) with (S j + k) in HP by lia. replace (j + S k) with (S j + k) by lia. apply (IH (S j) (rnd (rt - rnd (snd tt * rate)%Qc)%Qc, rnd (snd tt * rate)%Qc) k t); [cbn [snd]; exact HN'|exact HT|exact HP].
Qed.
Lemma cool_phase rnd rate rt per : forall m j tt i k s t, (per <= qz (Z.of_nat (j + k)))%Qc ->
  nth_error (warms rnd rate rt per tt (seq j m)) k = Some s -> nth_error (warms rnd rate rt per tt (seq j m)) (k + i) = Some t -> t = cooled rnd rate s i.
Proof.
  induction m as [|m IH]; intros j tt i k s t HP HS HT; [destruct k; discriminate|]. cbn [seq warms] in HS, HT. destruct k as [|k].
  - cbn [nth_error] in HS. injection HS as <-. destruct i as [|i]; cbn [Nat.add nth_error] in HT; [injection HT as <-; reflexivity|].
    rewrite Nat.add_0_r in HP. assert (EJ : Qcle_bool per (qz (Z.of_nat j)) = true) by (apply Qcle_bool_iff; exact HP). unfold warm in HT. rewrite EJ in HT.
    rewrite <- cooled_first. destruct m as [|m]; [destruct i; discriminate|].
    apply (IH (S j) (rnd (fst tt * rate)%Qc, snd tt) i 0); [|cbn [seq warms nth_error fst]; reflexivity|exact HT]. apply Qcle_bool_iff. apply (later per j); auto. lia.
  - cbn [nth_error Nat.add] in HS, HT. apply (IH (S j) (warm rnd rate rt per tt j) i k s t); [|exact HS|exact HT]. replace (S j + k) with (j + S k) by lia. exact HP.
Qed.
Theorem C157_reverse : forall u rnd order w p o out r d rt per,
  relative u rnd -> o_reverse o = RDict d -> dget "reverse_temperature" d = Some rt -> dget "reverse_period" d = Some per ->
  fl_result rnd order w p o = Ok out -> In r (out_reads out) ->
  length (d_thist r) = Z.to_nat (o_sweeps o) /\
  (forall t, nth_error (d_thist r) 0 = Some t -> t = rnd tiny) /\
  (forall k t, nth_error (d_thist r) (S k) = Some t -> (qz (Z.of_nat k) < per)%Qc ->
     (qabs (t - rt * (1 - Qcpower (o_rate o) (S k))) <= drift u (S (S k)) * (qabs rt + qabs (rt * Qcpower (o_rate o) (S k))))%Qc) /\
  (forall k i s t, (per <= qz (Z.of_nat k))%Qc -> nth_error (d_thist r) k = Some s -> nth_error (d_thist r) (k + i) = Some t ->
     (qabs (t - s * Qcpower (o_rate o) i) <= drift u i * qabs (s * Qcpower (o_rate o) i))%Qc).
Proof.
  intros u rnd order w p o out r d rt per RU OR RT PE H HI. rewrite (reverse_read _ _ _ _ _ _ _ _ _ _ H HI OR RT PE). split; [rewrite warms_len, seq_length; reflexivity|]. split; [|split].
  - intros t HT. destruct (Z.to_nat (o_sweeps o)); cbn in HT; [discriminate|]. injection HT as <-. reflexivity.
  - intros k t HT HP. apply (warm_phase u rnd (o_rate o) rt per RU (Z.to_nat (o_sweeps o)) 0 (rnd tiny, rt) k t); [|exact HT|exact HP]. cbn [Qcpower snd]. replace (rt * 1)%Qc with rt by ring. apply near_refl; [apply RU|apply qabs_nonneg].
  - intros k i s t HP HS HT. rewrite (cool_phase rnd (o_rate o) rt per (Z.to_nat (o_sweeps o)) 0 (rnd tiny, rt) i k s t HP HS HT). apply (cooled_near u rnd); auto.
Qed.
(** Half of 2^54 + 2 is no number of the format: the second temperature is rounded. The other run warms for two sweeps, without rounding. *)
Definition cool_options : options := mkOptions 1 4 (qfrac 1 2) (qz (2 ^ 54 + 2)) None RNone "sequential" (Some 7%Z).
Definition warm_options : options := mkOptions 1 4 (qfrac 1 2) (qz 10) None (RDict [("reverse_period", qz 2); ("reverse_temperature", qz 4)]) "sequential" (Some 7%Z).
Example C157_hyps : relative ulp53 nearest /\ (ulp53 < 1)%Qc /\
  match fl_result nearest (@rev Qc) world0 (phys2 Ising) cool_options with
  | Ok out => map (fun r => length (d_thist r)) (out_reads out) = [4] /\
      existsb (fun r => negb (Qc_eqb (nth 1 (d_thist r) 0%Qc) (o_temp cool_options * Qcpower (o_rate cool_options) 1)%Qc)) (out_reads out) = true
  | Err _ => False
  end /\
  match fl_result (fun v => v) (@rev Qc) world0 (phys2 Ising) warm_options with
  | Ok out => map d_thist (out_reads out) = [[tiny; qz 2; qz 3; qfrac 3 2]]
  | Err _ => False
  end.
Proof.
  split; [apply nearest_relative|]. split; [vm_compute; reflexivity|]. split.
  - vm_compute. split; reflexivity.
  - vm_compute. reflexivity.
Qed.
Print Assumptions C157_cooling.
Print Assumptions C157_never_rises.
Print Assumptions C157_reverse.
