(** * PropsError: how far rounding can move the energies SawatabiSolver reports (C151), and what no rounding can change (C152). *)
From Verif Require Import PyBase PyLemmas Numbers Constraint LogicalModel Spec PhysicalProofs Samples PropsPhysical
  ToPhysicalProofs Physical BqmProofs History PropsHistory PropsBqm Solver SolverSpec SolverProofs PropsSolver NppStream PropsNppSolve PropsPenalty Rounded PropsRounded.
From Coq Require Import Permutation Lqa.
Open Scope string_scope.
Open Scope list_scope.

(** ** Specification *)
(** The standard model of floating-point arithmetic without over- and underflow: a relative error of at most [u] per operation. *)
Definition relative (u : Qc) (rnd : Qc -> Qc) : Prop := (0 <= u)%Qc /\ forall v, (qabs (rnd v - v) <= u * qabs v)%Qc.
(** [(1 + u)^m - 1], about [m * u]. *)
Definition drift (u : Qc) (m : nat) : Qc := (Qcpower (1 + u) m - 1)%Qc.
(** The dictionaries of the model hold no key twice and no pair in both orders. *)
Definition no_repeats (p : physical) : Prop :=
  NoDup (dkeys (p_linear p)) /\ NoDup (dkeys (p_quad p)) /\ forall x y, In (x, y) (dkeys (p_quad p)) -> ~ In (y, x) (dkeys (p_quad p)).

(** ** The calculus of errors *)
Lemma qmul_mono x y x' y' : (0 <= x)%Qc -> (x <= x')%Qc -> (0 <= y)%Qc -> (y <= y')%Qc -> (x * y <= x' * y')%Qc.
Proof.
  intros HX HX' HY HY'. apply Qcle_trans with (x' * y)%Qc; [apply Qcmult_le_compat_r; auto|]. rewrite !(Qcmult_comm x'). apply Qcmult_le_compat_r; auto. qord.
Qed.
Section Near.
Variable u : Qc.
Hypothesis U0 : (0 <= u)%Qc.
Lemma drift_0 : drift u 0 = 0%Qc. Proof. unfold drift. cbn [Qcpower]. ring. Qed.
Lemma drift_S m : drift u (S m) = (drift u m + u * (1 + drift u m))%Qc.
Proof. unfold drift. cbn [Qcpower]. ring. Qed.
Lemma drift_nonneg m : (0 <= drift u m)%Qc.
Proof. induction m as [|m IH]; [rewrite drift_0; apply Qcle_refl|]. rewrite drift_S. assert (0 <= u * (1 + drift u m))%Qc by (apply qmul_nonneg; auto; qord). qord. Qed.
Lemma drift_add m k : drift u (m + k) = (drift u m * (1 + drift u k) + drift u k)%Qc.
Proof.
  unfold drift. assert (P : Qcpower (1 + u) (m + k) = (Qcpower (1 + u) m * Qcpower (1 + u) k)%Qc) by (induction m as [|m IH]; cbn [Nat.add Qcpower]; [ring|]; rewrite IH; ring). rewrite P. ring.
Qed.
Lemma drift_mono m k : m <= k -> (drift u m <= drift u k)%Qc.
Proof.
  intros H. replace k with ((k - m) + m) by lia. rewrite drift_add. assert (0 <= drift u (k - m) * (1 + drift u m))%Qc by (apply qmul_nonneg; [apply drift_nonneg|pose proof (drift_nonneg m); qord]). qord.
Qed.
Lemma drift_two m k : (drift u m + (drift u k + drift u k) <= drift u (m + (k + k)))%Qc.
Proof.
  rewrite !drift_add. pose proof (drift_nonneg m) as H1. pose proof (drift_nonneg k) as H2. pose proof (qmul_nonneg _ _ H2 H2) as H3. pose proof (qmul_nonneg _ _ H1 H2) as H4. pose proof (qmul_nonneg _ _ H4 H2) as H5.
  match goal with |- (_ <= ?r)%Qc => replace r with (drift u m + (drift u k + drift u k) + (drift u k * drift u k + drift u m * drift u k + drift u m * drift u k + drift u m * drift u k * drift u k))%Qc by ring end. qord.
Qed.
(** [x] differs from [y] by at most [drift m] of the magnitude [M]. *)
Definition near (m : nat) (M x y : Qc) : Prop := (qabs (x - y) <= drift u m * M)%Qc.
Lemma near_refl m M x : (0 <= M)%Qc -> near m M x x.
Proof. intros HM. unfold near. assert (E : (x - x = 0)%Qc) by ring. rewrite E. change (qabs 0) with 0%Qc. apply qmul_nonneg; [apply drift_nonneg|auto]. Qed.
Lemma near_mono m k M M' x y : near m M x y -> m <= k -> (0 <= M)%Qc -> (M <= M')%Qc -> near k M' x y.
Proof. intros H HM M0 HMM. unfold near in *. eapply Qcle_trans; [exact H|]. apply qmul_mono; auto using drift_nonneg, drift_mono. Qed.
Lemma near_add m M M' x y x' y' : near m M x y -> near m M' x' y' -> near m (M + M') (x + x') (y + y').
Proof.
  unfold near. intros H H'. assert (E : (x + x' - (y + y') = (x - y) + (x' - y'))%Qc) by ring. rewrite E. pose proof (qabs_add (x - y) (x' - y')). rewrite Qcmult_plus_distr_r. qord.
Qed.
Lemma near_neg m M x y : near m M x y -> near m M (- x) (- y).
Proof. unfold near. intros H. assert (E : (- x - - y = - (x - y))%Qc) by ring. rewrite E, qabs_opp. auto. Qed.
Lemma near_double m M x y : near m M x y -> near m (M + M) (qz 2 * x) (qz 2 * y).
Proof. intros H. assert (E : forall v, (qz 2 * v = v + v)%Qc) by (intros; change 2%Z with (1 + 1)%Z; rewrite qz_add, qz_1; ring). rewrite !E. apply near_add; auto. Qed.
Lemma near_spin m M x y z : spinz z -> near m M x y -> near m M (qz z * x) (qz z * y).
Proof. intros HZ H. unfold near in *. assert (E : (qz z * x - qz z * y = qz z * (x - y))%Qc) by ring. rewrite E, qabs_spin by auto. auto. Qed.
Lemma near_trans m k M M' x y z : near m M x y -> near k M' y z -> (0 <= M')%Qc -> (M <= (1 + drift u k) * M')%Qc -> near (m + k) M' x z.
Proof.
  unfold near. intros H1 H2 HM' HM. assert (E : (x - z = (x - y) + (y - z))%Qc) by ring. rewrite E. pose proof (qabs_add (x - y) (y - z)). rewrite drift_add.
  assert (drift u m * M <= drift u m * ((1 + drift u k) * M'))%Qc by (rewrite !(Qcmult_comm (drift u m)); apply Qcmult_le_compat_r; auto using drift_nonneg).
  replace ((drift u m * (1 + drift u k) + drift u k) * M')%Qc with (drift u m * ((1 + drift u k) * M') + drift u k * M')%Qc by ring. qord.
Qed.
Lemma near_abs m M x y : near m M x y -> (qabs y <= M)%Qc -> (qabs x <= (1 + drift u m) * M)%Qc.
Proof. unfold near. intros H HY. assert (E : x = (x - y + y)%Qc) by ring. rewrite E. pose proof (qabs_add (x - y) y). replace ((1 + drift u m) * M)%Qc with (M + drift u m * M)%Qc by ring. qord. Qed.
Variable rnd : Qc -> Qc.
Hypothesis RE : forall v, (qabs (rnd v - v) <= u * qabs v)%Qc.
Lemma near_round m M x y : near m M x y -> (qabs y <= M)%Qc -> near (S m) M (rnd x) y.
Proof.
  intros H HY. unfold near. pose proof (near_abs _ _ _ _ H HY) as HX. unfold near in H. assert (E : (rnd x - y = (rnd x - x) + (x - y))%Qc) by ring. rewrite E. pose proof (qabs_add (rnd x - x) (x - y)). pose proof (RE x).
  assert (u * qabs x <= u * ((1 + drift u m) * M))%Qc by (rewrite !(Qcmult_comm u); apply Qcmult_le_compat_r; auto).
  rewrite drift_S. replace ((drift u m + u * (1 + drift u m)) * M)%Qc with (u * ((1 + drift u m) * M) + drift u m * M)%Qc by ring. qord.
Qed.
Lemma near_once x : near 1 (qabs x) (rnd x) x.
Proof. apply near_round; [apply near_refl; apply qabs_nonneg|apply Qcle_refl]. Qed.
End Near.

(** ** Adding up *)
Section Machine.
Variables (a : arith) (u : Qc).
Hypothesis U0 : (0 <= u)%Qc.
Hypothesis RE : forall v, (qabs (ar_round a v - v) <= u * qabs v)%Qc.
Hypothesis OR : forall l, Permutation (ar_order a l) l.
Lemma fold_near lt l : Forall2 (fun x y => near u 1 (qabs y) x y) lt l -> forall m s S M, 1 <= m -> near u m M s S -> (qabs S <= M)%Qc ->
  near u (m + length l) (M + asum l) (fold_left (fun s v => ar_round a (s + v)%Qc) lt s) (S + qsum l).
Proof.
  induction 1 as [|x y lt l HN HF IH]; intros m s S M HM HS HB; cbn [fold_left length qsum].
  - rewrite Nat.add_0_r. unfold asum. cbn [map qsum]. replace (M + 0)%Qc with M by ring. replace (S + 0)%Qc with S by ring. auto.
  - rewrite asum_cons. replace (m + Datatypes.S (length l)) with (Datatypes.S m + length l) by lia. replace (M + (qabs y + asum l))%Qc with ((M + qabs y) + asum l)%Qc by ring. replace (S + (y + qsum l))%Qc with ((S + y) + qsum l)%Qc by ring.
    assert (HB' : (qabs (S + y) <= M + qabs y)%Qc) by (pose proof (qabs_add S y); qord). apply IH; [lia| |auto]. apply (near_round u U0 (ar_round a) RE); auto. apply near_add; auto. eapply (near_mono u U0); [exact HN|lia|apply qabs_nonneg|apply Qcle_refl].
Qed.
Lemma add_up_near lt l : Forall2 (fun x y => near u 1 (qabs y) x y) lt l -> near u (S (length l)) (asum l) (add_up a lt) (qsum l).
Proof.
  intros HF. unfold add_up. destruct (Permutation_Forall2 (Permutation_sym (OR lt)) HF) as (l' & HP & HF').
  assert (H := fold_near _ _ HF' 1 0%Qc 0%Qc 0%Qc (le_n 1) ltac:(apply near_refl; [auto|apply Qcle_refl]) ltac:(apply Qcle_refl)).
  rewrite <- (asum_perm _ _ HP), <- (qsum_perm _ _ HP), <- (Permutation_length HP) in H. replace (0 + asum l)%Qc with (asum l) in H by ring. replace (0 + qsum l)%Qc with (qsum l) in H by ring. exact H.
Qed.
Lemma rounded_near {A} (f : A -> Qc) l : Forall2 (fun x y => near u 1 (qabs y) x y) (map (fun k => ar_round a (f k)) l) (map f l).
Proof. induction l as [|k l IH]; cbn [map]; constructor; auto. apply near_once; auto. Qed.
Lemma near_self x : near u 1 (qabs x) x x.
Proof. apply near_refl; auto. apply qabs_nonneg. Qed.

(** ** Two models entry by entry *)
Definition entry_ok {K} (m : nat) (e : K * (Qc * Qc * Qc)) : Prop := near u m (snd (snd e)) (fst (fst (snd e))) (snd (fst (snd e))) /\ (qabs (snd (fst (snd e))) <= snd (snd e))%Qc.
Definition entries {K} (m : nat) (dt d : dict K Qc) (T : Qc) : Prop :=
  exists l : list (K * (Qc * Qc * Qc)), dt = map (fun e => (fst e, fst (fst (snd e)))) l /\ d = map (fun e => (fst e, snd (fst (snd e)))) l /\ Forall (entry_ok m) l /\ (qsum (map (fun e => snd (snd e)) l) <= T)%Qc.
Lemma entries_keys {K} m (dt d : dict K Qc) T : entries m dt d T -> dkeys dt = dkeys d.
Proof. intros (l & -> & -> & _). unfold dkeys. rewrite !map_map. reflexivity. Qed.
Lemma entries_asum {K} m (dt d : dict K Qc) T : entries m dt d T -> (asum (dvals dt) <= (1 + drift u m) * T)%Qc.
Proof.
  intros (l & -> & _ & HF & HT). pose proof (drift_nonneg u U0 m) as D0. apply Qcle_trans with ((1 + drift u m) * qsum (map (fun e => snd (snd e)) l))%Qc.
  - unfold dvals. rewrite map_map. cbn [fst snd]. clear HT. induction HF as [|e l [HE HB] HF IH]; cbn [map qsum]; [unfold asum; cbn [map qsum]; rewrite Qcmult_0_r; apply Qcle_refl|]. rewrite asum_cons. pose proof (near_abs u m _ _ _ HE HB) as HX. rewrite Qcmult_plus_distr_r. qord.
  - rewrite !(Qcmult_comm (1 + drift u m)). apply Qcmult_le_compat_r; auto. qord.
Qed.
Lemma entries_dsum {K} m (dt d : dict K Qc) T f : entries m dt d T -> (forall k, exists z, (z = 0 \/ spinz z)%Z /\ f k = qz z) -> near u m T (dsum f dt) (dsum f d).
Proof.
  intros (l & -> & -> & HF & HT) HS. assert (M0 : (0 <= qsum (map (fun e => snd (snd e)) l))%Qc).
  { clear HT. induction HF as [|e l [_ HB] HF IH]; cbn [map qsum]; [apply Qcle_refl|]. pose proof (qabs_nonneg (snd (fst (snd e)))). qord. }
  apply (near_mono u U0 m m (qsum (map (fun e => snd (snd e)) l))); auto. unfold dsum. rewrite !map_map. cbn [fst snd]. clear HT M0.
  induction HF as [|e l [HE HB] HF IH]; cbn [map qsum]; [apply near_refl; [auto|apply Qcle_refl]|]. apply near_add; auto. destruct (HS (fst e)) as (z & [-> |HZ] & ->).
  - change (qz 0) with 0%Qc. rewrite !Qcmult_0_r. apply near_refl; auto. pose proof (qabs_nonneg (snd (fst (snd e)))). qord.
  - rewrite !(Qcmult_comm _ (qz z)). apply near_spin; auto.
Qed.
Definition close (m : nat) (T : Qc) (bt b : bqm) : Prop :=
  exists TO TL TQ, near u m TO (b_offset bt) (b_offset b) /\ (qabs (b_offset b) <= TO)%Qc /\ entries m (b_linear bt) (b_linear b) TL /\ entries m (b_quad bt) (b_quad b) TQ /\ (TO + (TL + TQ) <= T)%Qc.
Lemma close_weight m T bt b : close m T bt b -> (whole_weight bt <= (1 + drift u m) * T)%Qc.
Proof.
  intros (TO & TL & TQ & HO & BO & HL & HQ & HT). unfold whole_weight. rewrite asum_cons, asum_app. pose proof (near_abs u m _ _ _ HO BO). pose proof (entries_asum _ _ _ _ HL). pose proof (entries_asum _ _ _ _ HQ). pose proof (drift_nonneg u U0 m).
  assert ((1 + drift u m) * (TO + (TL + TQ)) <= (1 + drift u m) * T)%Qc by (rewrite !(Qcmult_comm (1 + drift u m)); apply Qcmult_le_compat_r; auto; qord). rewrite !Qcmult_plus_distr_r in *. qord.
Qed.
Lemma entries_nonneg {K} m (dt d : dict K Qc) T : entries m dt d T -> (0 <= T)%Qc.
Proof.
  intros (l & _ & _ & HF & HT). assert (M0 : (0 <= qsum (map (fun e => snd (snd e)) l))%Qc); [|qord].
  clear HT. induction HF as [|e l [_ HB] HF IH]; cbn [map qsum]; [apply Qcle_refl|]. pose proof (qabs_nonneg (snd (fst (snd e)))). qord.
Qed.
Lemma close_energy m T bt b s : close m T bt b -> (forall l, exists z, (z = 0 \/ spinz z)%Z /\ s l = qz z) -> near u m T (energy_bqm s bt) (energy_bqm s b).
Proof.
  intros (TO & TL & TQ & HO & BO & HL & HQ & HT) HS. pose proof (entries_nonneg _ _ _ _ HL). pose proof (entries_nonneg _ _ _ _ HQ). pose proof (qabs_nonneg (b_offset b)).
  rewrite !energy_bqm_dsum. eapply (near_mono u U0 m m ((TL + TQ) + TO)%Qc); [|auto|qord|qord]. apply near_add; auto. apply near_add.
  - apply entries_dsum; auto.
  - apply entries_dsum; auto. intros [x y]. cbn [fst snd]. destruct (HS x) as (z1 & Z1 & ->), (HS y) as (z2 & Z2 & ->). exists (z1 * z2)%Z. split; [|symmetry; apply qz_mul]. unfold spinz in *. lia.
Qed.
Definition size (b : bqm) : nat := S (length (b_linear b) + length (b_quad b)).
Lemma adj_length b l : length (bqm_adj b l) <= length (b_quad b).
Proof.
  unfold bqm_adj. induction (b_quad b) as [|[[x y] c] q IH]; cbn [flat_map length]; auto. rewrite app_length. destruct (String.eqb x l); [cbn; lia|]. destruct (String.eqb y l); cbn; lia.
Qed.
Lemma same_entries {K} m (d : dict K Qc) : entries m d d (asum (dvals d)).
Proof.
  exists (map (fun kv => (fst kv, (snd kv, snd kv, qabs (snd kv)))) d). rewrite !map_map. cbn [fst snd]. split; [|split; [|split]].
  - symmetry. transitivity (map (fun x : K * Qc => x) d); [|apply map_id]. apply map_ext. intros [? ?]; reflexivity.
  - symmetry. transitivity (map (fun x : K * Qc => x) d); [|apply map_id]. apply map_ext. intros [? ?]; reflexivity.
  - apply Forall_forall. intros e HE. apply in_map_iff in HE. destruct HE as (kv & <- & _). split; cbn [fst snd]; [apply near_refl; auto; apply qabs_nonneg|apply Qcle_refl].
  - unfold asum, dvals. rewrite map_map. apply Qcle_refl.
Qed.
Lemma to_spin_close b : wf_bqm b -> close (S (size b)) (qabs (b_offset b) + weight b) (fl_to_spin a b) (bqm_to_spin b).
Proof.
  intros WF. unfold fl_to_spin, bqm_to_spin, close. destruct (b_spin b).
  - exists (qabs (b_offset b)), (asum (dvals (b_linear b))), (asum (dvals (b_quad b))). split; [apply near_refl; auto; apply qabs_nonneg|]. split; [apply Qcle_refl|]. split; [apply same_entries|]. split; [apply same_entries|]. unfold weight. apply Qcle_refl.
  - cbn [b_offset b_linear b_quad]. set (L := asum (dvals (b_linear b))). set (Q := asum (dvals (b_quad b))).
    exists (qabs (b_offset b) + (half * L + quarter * Q))%Qc, (half * L + half * Q)%Qc, (quarter * Q)%Qc.
    assert (Q4 : (Q = quarter * Q + quarter * Q + quarter * Q + quarter * Q)%Qc) by (transitivity ((quarter + quarter + quarter + quarter) * Q)%Qc; [rewrite quarter_four; ring|ring]).
    assert (L4 : (L = half * L + half * L)%Qc) by (transitivity ((quarter + quarter + quarter + quarter) * L)%Qc; [rewrite quarter_four; ring|rewrite half_quarter; ring]).
    assert (HQ2 : (half * Q = quarter * Q + quarter * Q)%Qc) by (rewrite half_quarter; ring).
    assert (QS : qsum (map (fun kv => half * snd kv)%Qc (b_linear b) ++ map (fun kv => quarter * snd kv)%Qc (b_quad b)) = (half * qsum (map snd (b_linear b)) + quarter * qsum (map snd (b_quad b)))%Qc) by (rewrite qsum_app, !qsum_scale; reflexivity).
    assert (AS : asum (map (fun kv => half * snd kv)%Qc (b_linear b) ++ map (fun kv => quarter * snd kv)%Qc (b_quad b)) = (half * L + quarter * Q)%Qc).
    { rewrite asum_app, <- (map_map snd (fun c => half * c)%Qc), <- (map_map snd (fun c => quarter * c)%Qc), !asum_scale by (apply half0 || apply quarter0). reflexivity. }
    split; [|split; [|split; [|split]]].
    + set (lt := b_offset b :: map (fun kv => half * snd kv)%Qc (b_linear b) ++ map (fun kv => quarter * snd kv)%Qc (b_quad b)).
      assert (H := add_up_near (b_offset b :: map (fun kv => ar_round a (half * snd kv)%Qc) (b_linear b) ++ map (fun kv => ar_round a (quarter * snd kv)%Qc) (b_quad b)) lt).
      replace (b_offset b + half * qsum (map snd (b_linear b)) + quarter * qsum (map snd (b_quad b)))%Qc with (qsum lt) by (unfold lt; cbn [qsum]; rewrite QS; ring).
      replace (qabs (b_offset b) + (half * L + quarter * Q))%Qc with (asum lt) by (unfold lt; rewrite asum_cons, AS; reflexivity).
      eapply (near_mono u U0); [apply H| |apply asum_nonneg|apply Qcle_refl].
      * constructor; [apply near_self|]. apply Forall2_app; apply rounded_near.
      * unfold lt, size. cbn [length]. rewrite app_length, !map_length. lia.
    + pose proof (qabs_add (b_offset b) (half * qsum (map snd (b_linear b)) + quarter * qsum (map snd (b_quad b)))) as H1. rewrite <- QS in H1 at 2. pose proof (qsum_asum (map (fun kv => half * snd kv)%Qc (b_linear b) ++ map (fun kv => quarter * snd kv)%Qc (b_quad b))) as H2. rewrite AS in H2.
      replace (b_offset b + half * qsum (map snd (b_linear b)) + quarter * qsum (map snd (b_quad b)))%Qc with (b_offset b + (half * qsum (map snd (b_linear b)) + quarter * qsum (map snd (b_quad b))))%Qc by ring. qord.
    + exists (map (fun kv => (fst kv, (add_up a (ar_round a (half * snd kv)%Qc :: map (fun j => ar_round a (quarter * snd j)%Qc) (bqm_adj b (fst kv))), lin_of b kv, half * qabs (snd kv) + quarter * asum (map snd (bqm_adj b (fst kv))))%Qc)) (b_linear b)).
      rewrite !map_map. cbn [fst snd]. split; [reflexivity|]. split; [reflexivity|]. split.
      * apply Forall_forall. intros e HE. apply in_map_iff in HE. destruct HE as (kv & <- & _). split; cbn [fst snd]; [|apply lin_of_abs].
        assert (H := add_up_near (ar_round a (half * snd kv)%Qc :: map (fun j => ar_round a (quarter * snd j)%Qc) (bqm_adj b (fst kv))) ((half * snd kv)%Qc :: map (fun j => quarter * snd j)%Qc (bqm_adj b (fst kv)))).
        cbn [qsum] in H. rewrite qsum_scale, asum_cons, <- (map_map snd (fun c => quarter * c)%Qc (bqm_adj b (fst kv))), asum_scale, qabs_scale in H by (apply half0 || apply quarter0). rewrite (map_map snd (fun c => quarter * c)%Qc) in H.
        eapply (near_mono u U0); [apply H| | |apply Qcle_refl].
        -- constructor; [apply near_once; auto|apply rounded_near].
        -- cbn [length]. rewrite map_length. pose proof (adj_length b (fst kv)). unfold size. lia.
        -- pose proof (qmul_nonneg _ _ half0 (qabs_nonneg (snd kv))). pose proof (qmul_nonneg _ _ quarter0 (asum_nonneg (map snd (bqm_adj b (fst kv))))). qord.
      * assert (E : qsum (map (fun kv => half * qabs (snd kv) + quarter * asum (map snd (bqm_adj b (fst kv))))%Qc (b_linear b)) = (half * L + quarter * qsum (map (fun l => asum (map snd (bqm_adj b l))) (dkeys (b_linear b))))%Qc).
        { unfold L, dkeys, dvals. clear. induction (b_linear b) as [|kv l IH]; cbn [map qsum]; [unfold asum; cbn [map qsum]; ring|]. rewrite (asum_cons (snd kv)), IH. ring. }
        rewrite E, adj_asum_total by auto. fold Q. assert (E2 : (quarter * (qz 2 * Q) = half * Q)%Qc) by (rewrite half_quarter; change 2%Z with (1 + 1)%Z; rewrite qz_add, qz_1; ring). rewrite E2. apply Qcle_refl.
    + exists (map (fun kv => (fst kv, (ar_round a (quarter * snd kv), quarter * snd kv, quarter * qabs (snd kv))%Qc)) (b_quad b)). rewrite !map_map. cbn [fst snd]. split; [reflexivity|]. split; [reflexivity|]. split.
      * apply Forall_forall. intros e HE. apply in_map_iff in HE. destruct HE as (kv & <- & _). split; cbn [fst snd]; rewrite <- qabs_scale by apply quarter0; [|apply Qcle_refl].
        eapply (near_mono u U0); [apply near_once; auto|lia|apply qabs_nonneg|apply Qcle_refl].
      * unfold Q, asum, dvals. rewrite map_map, qsum_scale. apply Qcle_refl.
    + unfold weight. fold L Q. qord.
Qed.
End Machine.

(** ** Taking over the model *)
Definition fixed (a : arith) (b : bqm) : Prop := Forall (fun c => ar_round a c = c) (dvals (b_linear b)).
Lemma fixed_variable a v c b : ar_round a c = c -> fixed a b -> ~ In v (dkeys (b_linear b)) \/ c = 0%Qc -> fl_add_variable a v c b = bqm_add_variable v c b /\ fixed a (bqm_add_variable v c b).
Proof.
  intros HC HF HV. unfold fl_add_variable, bqm_add_variable, fixed in *. cbn [b_linear]. destruct (dget v (b_linear b)) as [d|] eqn:ED.
  - destruct HV as [HV| ->]; [apply dget_none in HV; congruence|]. assert (HD : ar_round a d = d) by exact (forall_dget _ _ _ _ HF ED). replace (d + 0)%Qc with d by ring. rewrite HD. split; auto. apply forall_dset; auto.
  - split; auto. apply forall_dset; auto.
Qed.
Lemma fixed_variables a l : forall b, Forall (fun c => ar_round a c = c) (dvals l) -> fixed a b -> NoDup (dkeys l) -> (forall v, In v (dkeys l) -> ~ In v (dkeys (b_linear b))) ->
  let b' := fold_left (fun b kv => bqm_add_variable (fst kv) (snd kv) b) l b in fold_left (fun b kv => fl_add_variable a (fst kv) (snd kv) b) l b = b' /\ fixed a b'.
Proof.
  induction l as [|[v c] l IH]; intros b HL HF ND HN; cbn [fold_left]; [split; auto|]. unfold dvals, dkeys in HL, ND, HN. cbn [map fst snd] in *. inversion HL; subst. inversion ND; subst.
  destruct (fixed_variable a v c b) as [E1 E2]; auto; [left; apply HN; simpl; auto|]. rewrite E1. apply IH; auto. intros x HX HI. unfold bqm_add_variable in HI. cbn [b_linear] in HI. apply BqmProofs.dset_keys_in in HI. destruct HI as [-> |HI]; [contradiction|]. exact (HN x (or_intror HX) HI).
Qed.
Lemma fixed_interactions a q : ar_round a 0%Qc = 0%Qc -> forall b, fixed a b -> NoDup (dkeys (b_quad b ++ q)) -> (forall x y, In (x, y) (dkeys (b_quad b ++ q)) -> ~ In (y, x) (dkeys (b_quad b ++ q))) ->
  fl_interactions a q b = bqm_interactions q b /\ forall b', bqm_interactions q b = Ok b' -> b_quad b' = b_quad b ++ q.
Proof.
  intros R0. induction q as [|[[x y] c] q IH]; intros b HF ND NR; cbn [fl_interactions bqm_interactions]; [split; auto; intros b' H; injection H as <-; rewrite app_nil_r; auto|].
  unfold fl_add_interaction, bqm_add_interaction. destruct (String.eqb x y); [split; [auto|discriminate]|].
  destruct (fixed_variable a x 0 b) as [E1 E2]; auto. rewrite E1. destruct (fixed_variable a y 0 (bqm_add_variable x 0 b)) as [E3 E4]; auto. rewrite E3. cbv zeta.
  assert (QE : b_quad (bqm_add_variable y 0 (bqm_add_variable x 0 b)) = b_quad b) by reflexivity. rewrite QE.
  assert (KK : dkeys (b_quad b ++ ((x, y), c) :: q) = dkeys (b_quad b) ++ (x, y) :: dkeys q) by (unfold dkeys; rewrite map_app; reflexivity).
  assert (N1 : ~ In (y, x) (dkeys (b_quad b))). { intros HI. apply (NR x y); rewrite KK; apply in_app_iff; simpl; auto. }
  assert (N2 : ~ In (x, y) (dkeys (b_quad b))). { intros HI. rewrite KK in ND. apply NoDup_remove_2 in ND. apply ND. apply in_app_iff. auto. }
  assert (PK : pair_key x y (b_quad b) = (x, y)) by (unfold pair_key; rewrite (proj2 (dmem_nin _ _) N1); auto). rewrite PK. rewrite (proj2 (dget_none _ _) N2), (dset_keys_new (x, y) c _ N2).
  set (b1 := mkBqm _ _ _ _). assert (AE : b_quad b1 ++ q = b_quad b ++ ((x, y), c) :: q) by (unfold b1; cbn [b_quad]; rewrite <- app_assoc; reflexivity).
  rewrite <- AE. apply IH; rewrite ?AE; auto.
Qed.
Lemma same_image {K} (f : Qc -> Qc) (d : dict K Qc) : Forall (fun c => f c = c) (dvals d) -> map (fun kv => (fst kv, f (snd kv))) d = d.
Proof.
  intros HD. transitivity (map (fun kv : K * Qc => kv) d); [|apply map_id]. apply map_ext_in. intros [k c] HI. cbn [fst snd]. f_equal. rewrite Forall_forall in HD. apply HD. unfold dvals. apply in_map_iff. exists (k, c). auto.
Qed.
Lemma taken_over a p : ar_round a 0%Qc = 0%Qc -> no_repeats p -> Forall (fun c => ar_round a c = c) (coefs p) ->
  fl_to_bqm a p = to_bqm 1 p /\ forall b, to_bqm 1 p = Ok b -> b_quad b = p_quad p.
Proof.
  intros R0 (N1 & N2 & N3) HC. unfold coefs in HC. inversion HC as [|? ? C1 C2]; subst. apply Forall_app in C2. destruct C2 as [C2 C3]. unfold fl_to_bqm, to_bqm, bqm_new.
  assert (SR : forall {K} (d : dict K Qc), Forall (fun c => ar_round a c = c) (dvals d) -> map (fun kv => (fst kv, ar_round a (1 * snd kv)%Qc)) d = d).
  { intros K d HD. apply (same_image (fun c => ar_round a (1 * c)%Qc)). eapply Forall_impl; [|exact HD]. intros c HH. cbn beta. rewrite Qcmult_1_l. auto. }
  assert (SE : forall {K} (d : dict K Qc), map (fun kv => (fst kv, 1 * snd kv)%Qc) d = d).
  { intros K d. apply (same_image (fun c => 1 * c)%Qc). apply Forall_forall. intros. apply Qcmult_1_l. }
  rewrite !SR, !SE by auto. set (b0 := mkBqm _ [] [] _).
  destruct (fixed_variables a (p_linear p) b0) as [E1 E2]; auto; [constructor|]. rewrite E1. set (b1 := fold_left (fun b kv => bqm_add_variable (fst kv) (snd kv) b) (p_linear p) b0) in *.
  assert (Q1 : b_quad b1 = []). { unfold b1. assert (G : forall l b, b_quad (fold_left (fun b kv => bqm_add_variable (fst kv) (snd kv) b) l b) = b_quad b) by (induction l as [|kv l IH]; intros b; cbn [fold_left]; auto; rewrite IH; reflexivity). rewrite G. reflexivity. }
  destruct (fixed_interactions a (p_quad p) R0 b1 E2) as [E3 E4]; rewrite ?Q1; auto. split; auto. intros b HB. rewrite (E4 b HB), Q1. reflexivity.
Qed.
(** A model in the shape of a converted one. *)
Definition of_bqm (p : physical) (b : bqm) : physical := mkPhysical Ising (b_linear b) (b_quad b) (b_offset b) (p_varset p) (p_l2i p) (p_i2l p).
Lemma rebuild p b : wf_bqm b -> b_spin b = true -> to_bqm 1 (of_bqm p b) = Ok b.
Proof.
  intros (W1 & W2 & W3) SP. unfold to_bqm, bqm_new, of_bqm. cbn [p_linear p_quad p_offset p_mtype].
  assert (SE : forall {K} (d : dict K Qc), map (fun kv => (fst kv, 1 * snd kv)%Qc) d = d).
  { intros K d. apply (same_image (fun c => 1 * c)%Qc). apply Forall_forall. intros. apply Qcmult_1_l. }
  rewrite !SE.
  assert (V : forall l acc q, NoDup (dkeys (acc ++ l)) -> fold_left (fun b kv => bqm_add_variable (fst kv) (snd kv) b) l (mkBqm true acc q (b_offset b)) = mkBqm true (acc ++ l) q (b_offset b)).
  { induction l as [|[v c] l IH]; intros acc q ND; cbn [fold_left]; [rewrite app_nil_r; auto|]. unfold bqm_add_variable at 2. cbn [b_linear b_spin b_quad b_offset fst snd].
    assert (N : ~ In v (dkeys acc)). { unfold dkeys in ND |- *. rewrite map_app in ND. cbn [map fst] in ND. apply NoDup_remove_2 in ND. intros HI. apply ND. apply in_app_iff. auto. }
    rewrite (proj2 (dget_none _ _) N), (dset_keys_new v c _ N), IH; rewrite <- app_assoc; auto. }
  rewrite V by auto. cbn [app].
  assert (S0 : forall v, In v (dkeys (b_linear b)) -> dset v (match dget v (b_linear b) with Some d => d + 0 | None => 0 end)%Qc (b_linear b) = b_linear b).
  { intros v. clear. induction (b_linear b) as [|[k c] l IH]; cbn [dkeys map fst dset dget In]; [intros []|]. destruct (eqb v k) eqn:EK; [intros _; apply eqb_eq in EK; subst; f_equal; f_equal; ring|]. intros [-> |HI]; [rewrite (proj2 (eqb_eq _ _) eq_refl) in EK; discriminate|]. rewrite IH; auto. }
  assert (I : forall q acc, b_quad b = acc ++ q -> bqm_interactions q (mkBqm true (b_linear b) acc (b_offset b)) = Ok (mkBqm true (b_linear b) (b_quad b) (b_offset b))).
  { induction q as [|[[x y] c] q IH]; intros acc HQ; cbn [bqm_interactions]; [rewrite HQ, app_nil_r; auto|].
    assert (KK : dkeys (b_quad b) = dkeys acc ++ (x, y) :: dkeys q) by (rewrite HQ; unfold dkeys; rewrite map_app; reflexivity).
    destruct (W3 x y) as (NE & I1 & I2 & NR); [rewrite KK; apply in_app_iff; simpl; auto|].
    unfold bqm_add_interaction. destruct (String.eqb_spec x y); [contradiction|]. unfold bqm_add_variable. cbn [b_linear b_spin b_quad b_offset]. rewrite (S0 x I1), (S0 y I2).
    assert (N1 : ~ In (y, x) (dkeys acc)) by (intros HI; apply NR; rewrite KK; apply in_app_iff; auto).
    assert (N2 : ~ In (x, y) (dkeys acc)) by (intros HI; rewrite KK in W2; apply NoDup_remove_2 in W2; apply W2; apply in_app_iff; auto).
    unfold pair_key. rewrite (proj2 (dmem_nin _ _) N1), (proj2 (dget_none _ _) N2), (dset_keys_new (x, y) c _ N2). apply IH. rewrite HQ, <- app_assoc. reflexivity. }
  rewrite (I (b_quad b) []) by reflexivity. destruct b; cbn in *. subst. reflexivity.
Qed.
Lemma of_l2i p b l : l2i (of_bqm p b) l = l2i p l. Proof. reflexivity. Qed.
Lemma of_fill_linear p b d : forall arr, fill_linear (of_bqm p b) d arr = fill_linear p d arr.
Proof. induction d as [|[l c] d IH]; intros arr; cbn [fill_linear]; auto. rewrite of_l2i. destruct (l2i p l); cbn [rbind]; auto. destruct (set_nth _ _ _); auto. Qed.
Lemma of_adj_dict p b d : forall acc, adj_dict (of_bqm p b) d acc = adj_dict p d acc.
Proof. induction d as [|[l c] d IH]; intros acc; cbn [adj_dict]; auto. rewrite of_l2i. destruct (l2i p l); cbn [rbind]; auto. Qed.
Lemma of_fill_adj p b b' d : forall arr, fill_adj (of_bqm p b) b' d arr = fill_adj p b' d arr.
Proof. induction d as [|l d IH]; intros arr; cbn [fill_adj]; auto. rewrite of_l2i. destruct (l2i p l); cbn [rbind]; auto. rewrite of_adj_dict. destruct (adj_dict p _ _); cbn [rbind]; auto. destruct (set_nth _ _ _); auto. Qed.
Lemma of_fill_state p b s vs : forall x, fill_state (of_bqm p b) vs s x = fill_state p vs s x.
Proof. induction vs as [|l d IH]; intros arr; cbn [fill_state]; auto. rewrite of_l2i. destruct (l2i p l); cbn [rbind]; auto. destruct (dget l s); auto. destruct (set_nth _ _ _); auto. Qed.
Lemma of_initial g p b b' s0 tr : initial_spins g (of_bqm p b) b' s0 tr = initial_spins g p b' s0 tr.
Proof. unfold initial_spins. destruct s0; auto. rewrite of_fill_state. auto. Qed.
(** Any conversion that keeps the keys prepares the same arrays, filled from its own numbers. *)
Lemma prepared_alike p ls orig b lin adj : well_indexed p ls -> to_bqm 1 p = Ok orig -> b_spin b = true -> dkeys (b_linear b) = dkeys (b_linear orig) -> dkeys (b_quad b) = dkeys (b_quad orig) ->
  fill_linear p (b_linear b) (repeat 0%Qc (length (b_linear b))) = Ok lin -> fill_adj p b (bqm_variables b) (repeat [] (length (b_linear b))) = Ok adj -> prepared (of_bqm p b) ls b b lin adj.
Proof.
  intros HW HO SP KL KQ FL FA. destruct (to_bqm_spec _ _ _ HO) as (_ & (W1 & W2 & W3) & HV & _).
  assert (WF : wf_bqm b) by (unfold wf_bqm; rewrite KL, KQ; auto). constructor.
  - destruct (well_indexed_maps _ _ HW) as (A1 & A2 & A3). split; auto.
  - apply rebuild; auto.
  - unfold bqm_to_spin. rewrite SP. reflexivity.
  - rewrite of_fill_linear. auto.
  - rewrite of_fill_adj. auto.
  - intros l HI. apply HW in HI. apply HV in HI. unfold occurs, of_bqm. cbn [p_linear p_quad]. left. unfold bqm_variables in HI. rewrite <- KL in HI. exact HI.
Qed.

(** ** One read *)
Lemma dset_length {K V} `{Eqb K} (k : K) (v : V) d : length (dset k v d) <= S (length d).
Proof. induction d as [|[k' v'] d IH]; cbn [dset length]; auto. destruct (eqb k k'); cbn [length]; lia. Qed.
Lemma adj_dict_length p l : forall acc d, adj_dict p l acc = Ok d -> length d <= length acc + length l.
Proof.
  induction l as [|[v c] l IH]; intros acc d H; cbn [adj_dict] in H; [injection H as <-; cbn; lia|]. apply rbind_ok in H. destruct H as (i & _ & H). apply IH in H. pose proof (dset_length i c acc). cbn [length]. lia.
Qed.
Section Walk.
Variables (a : arith) (u : Qc).
Hypothesis U0 : (0 <= u)%Qc.
Hypothesis RE : forall v, (qabs (ar_round a v - v) <= u * qabs v)%Qc.
Hypothesis OR : forall l, Permutation (ar_order a l) l.
Variables (q : physical) (ls : list string) (b : bqm) (lin : list Qc) (adj : list (dict nat Qc)).
Hypothesis HS : prepared q ls b b lin adj.
Notation n := (length (b_linear b)).
Notation N := (size b).
Notation W := (whole_weight b).
Definition level (x : list Z) : Qc := (- energy_bqm (spins q x) b)%Qc.
Lemma W0 : (0 <= W)%Qc. Proof. apply asum_nonneg. Qed.
Lemma level_abs x : Forall spinz x -> (qabs (level x) <= W)%Qc.
Proof.
  intros HX. unfold level. rewrite qabs_opp. apply (energy_bounds (fun _ => True)); auto; [apply Forall_forall; auto|]. intros l. apply spins_small. auto.
Qed.
Lemma adj_near x xi d : Forall spinz x -> spinz xi -> forall m M acc A t, fl_adj_diff a x xi d acc = Ok t -> 1 <= m -> near u m M acc A -> (qabs A <= M)%Qc ->
  exists s, adj_diff x xi d = Ok s /\ near u (m + length d) (M + asum (dvals d)) t (A + s) /\ (qabs (A + s) <= M + asum (dvals d))%Qc.
Proof.
  intros HX HI. induction d as [|[i j] d IH]; intros m M acc A t H HM HN HB; cbn [fl_adj_diff adj_diff] in *.
  - injection H as <-. exists 0%Qc. split; auto. unfold asum, dvals. cbn [map qsum length]. rewrite Nat.add_0_r. replace (M + 0)%Qc with M by ring. replace (A + 0)%Qc with A by ring. auto.
  - apply rbind_ok in H. destruct H as (xa & HXA & H). rewrite HXA. cbn [rbind]. apply item_ok in HXA.
    assert (SA : spinz xa) by (rewrite Forall_forall in HX; apply HX; eapply nth_error_In; eauto).
    assert (SX : spinz (xi * xa)%Z) by (destruct HI as [-> | ->], SA as [-> | ->]; unfold spinz; lia).
    assert (HB' : (qabs (A + qz (xi * xa) * j) <= M + qabs j)%Qc) by (pose proof (qabs_add A (qz (xi * xa) * j)) as HA; rewrite qabs_spin in HA by auto; qord).
    destruct (IH (S m) (M + qabs j)%Qc _ (A + qz (xi * xa) * j)%Qc _ H) as (s & ES & E1 & E2); auto.
    + apply (near_round u U0 (ar_round a) RE); auto. apply near_add; auto. eapply (near_mono u U0); [apply (near_once u U0 (ar_round a) RE)|lia|apply qabs_nonneg|]. rewrite qabs_spin by auto. apply Qcle_refl.
    + rewrite ES. cbn [rbind]. eexists. split; [reflexivity|]. unfold dvals in *. cbn [map snd length]. rewrite asum_cons. replace (m + S (length d)) with (S m + length d) by lia.
      replace (M + (qabs j + asum (map snd d)))%Qc with (M + qabs j + asum (map snd d))%Qc by ring. replace (A + (qz xi * qz xa * j + s))%Qc with (A + qz (xi * xa) * j + s)%Qc by (rewrite qz_mul; ring). auto.
Qed.
Lemma calc_near idx x t : fl_calc a lin adj idx x = Ok t -> Forall spinz x -> exists d, calc_energy_diff lin adj idx x = Ok d /\ near u (S N) (W + W) t d.
Proof.
  unfold fl_calc, calc_energy_diff. intros H HX. apply rbind_ok in H. destruct H as (xi & E1 & H). rewrite E1. cbn [rbind]. apply rbind_ok in H. destruct H as (h & E2 & H). rewrite E2. cbn [rbind].
  apply rbind_ok in H. destruct H as (dd & E3 & H). rewrite E3. cbn [rbind]. apply rbind_ok in H. destruct H as (s & E4 & H). injection H as <-. apply item_ok in E1, E2, E3. apply nth_error_In in E1, E2, E3.
  assert (SI : spinz xi) by (rewrite Forall_forall in HX; auto).
  destruct (adj_near x xi dd HX SI 1 (qabs h) _ (qz xi * h)%Qc _ E4) as (s' & ES & N1 & N2); auto.
  { eapply (near_mono u U0); [apply (near_once u U0 (ar_round a) RE)|lia|apply qabs_nonneg|]. rewrite qabs_spin by auto. apply Qcle_refl. }
  { rewrite qabs_spin by auto. apply Qcle_refl. }
  rewrite ES. cbn [rbind]. eexists. split; [reflexivity|].
  assert (TM : tame (fun _ => True) lin adj (asum (dvals (b_linear b)) + asum (dvals (b_quad b)))%Qc) by (apply (arrays_tame (fun _ => True) q b); auto; try (apply Forall_forall; auto); [apply (pr_lin _ _ _ _ _ _ HS)|apply (pr_adj _ _ _ _ _ _ HS)]).
  destruct TM as (_ & _ & TM). specialize (TM h dd E2 E3). pose proof (qabs_nonneg (b_offset b)) as O0.
  assert (HWW : (qabs h + asum (dvals dd) <= W)%Qc) by (unfold whole_weight; rewrite asum_cons, asum_app; qord).
  assert (LD : length dd <= length (b_quad b)).
  { assert (HF : Forall (fun d : dict nat Qc => length d <= length (b_quad b)) adj).
    { eapply fill_adj_forall; [|exact (pr_adj _ _ _ _ _ _ HS)|].
      - intros l d HD. apply adj_dict_length in HD. pose proof (adj_length b l). cbn in HD. lia.
      - apply Forall_forall. intros d HI. apply repeat_spec in HI. subst. cbn. lia. }
    rewrite Forall_forall in HF. auto. }
  assert (M0 : (0 <= qabs h + asum (dvals dd))%Qc) by (pose proof (qabs_nonneg h); pose proof (asum_nonneg (dvals dd)); qord).
  eapply (near_mono u U0 (S (1 + length dd)) _ ((qabs h + asum (dvals dd)) + (qabs h + asum (dvals dd)))%Qc); [|unfold size; lia|qord|qord].
  apply (near_round u U0 (ar_round a) RE); [apply near_double; auto|].
  assert (E : forall v, (qz 2 * v = v + v)%Qc) by (intros; change 2%Z with (1 + 1)%Z; rewrite qz_add, qz_1; ring). rewrite E. match goal with |- (qabs (?v + ?v') <= _)%Qc => pose proof (qabs_add v v') end. qord.
Qed.
Lemma calc_level idx x d : calc_energy_diff lin adj idx x = Ok d -> length x = n -> (level x + d = level (upd_nth idx Z.opp x))%Qc.
Proof.
  intros H HX. destruct (calc_spec _ _ _ _ _ _ HS _ _ _ H HX) as [_ ->]. unfold level. rewrite !(pr_energy _ _ _ _ _ _ HS). ring.
Qed.
(** The walker is on spins, and its energy is at most [m] roundings away from theirs. *)
Definition follows (m : nat) (k : walk) : Prop := length (k_x k) = n /\ Forall spinz (k_x k) /\ near u m W (k_energy k) (level (k_x k)).
Notation step := (S (S N + S N)).
Lemma flip_follows w rs temp k i k' m : fl_flip a w lin adj rs temp k i = Ok k' -> follows m k -> follows (m + step) k'.
Proof.
  unfold fl_flip. intros H (HL & HX & HN). apply rbind_ok in H. destruct H as (d & HD & H). apply rbind_ok in H. destruct H as ([[] v] & _ & H); cbn [fst snd] in H; injection H as <-; unfold follows; cbn [k_x k_energy].
  - assert (HX' : Forall spinz (upd_nth i Z.opp (k_x k))) by (apply (flipped_entries spinz i (k_x k)); auto; apply spin_opp). split; [rewrite upd_nth_length; auto|]. split; auto.
    destruct (calc_near _ _ _ HD HX) as (d' & HD' & ND). rewrite <- (calc_level _ _ _ HD' HL). replace (m + step) with (S (m + (S N + S N))) by lia. apply (near_round u U0 (ar_round a) RE); [|rewrite (calc_level _ _ _ HD' HL); apply level_abs; auto].
    unfold near in *. match goal with |- (qabs ?v <= _)%Qc => replace v with ((k_energy k - level (k_x k)) + (d - d'))%Qc by ring end. eapply Qcle_trans; [apply qabs_add|].
    assert (HT := drift_two u U0 m (S N)). assert (HM : ((drift u m + (drift u (S N) + drift u (S N))) * W <= drift u (m + (S N + S N)) * W)%Qc) by (apply Qcmult_le_compat_r; auto; apply W0).
    rewrite Qcmult_plus_distr_r in ND. rewrite !Qcmult_plus_distr_l in HM. qord.
  - split; auto. split; auto. eapply (near_mono u U0); [exact HN|lia|apply W0|apply Qcle_refl].
Qed.
Lemma flips_follow w rs temp idxs : forall k k' m, fl_flips a w lin adj rs temp k idxs = Ok k' -> follows m k -> follows (m + length idxs * step) k'.
Proof.
  induction idxs as [|i idxs IH]; intros k k' m H HF; cbn [fl_flips] in H; [injection H as <-; rewrite Nat.add_0_r; auto|]. apply rbind_ok in H. destruct H as (k1 & H1 & H). apply (flip_follows _ _ _ _ _ _ m) in H1; auto. apply (IH _ _ _ H) in H1.
  cbn [length]. replace (m + S (length idxs) * step) with (m + step + length idxs * step) by lia. exact H1.
Qed.
Lemma sweep_follows w g o rs st k st' m : rng_ok g -> fl_sweep a w g o lin adj n rs st k = Ok st' -> follows m (s_walk st) -> follows (m + n * step) (s_walk st').
Proof.
  intros RG H HF. unfold fl_sweep in H. apply rbind_ok in H. destruct H as (rv & _ & H). destruct (pickups g (o_pickup o) n (s_trace st)) as [idxs tr] eqn:EP. apply rbind_ok in H. destruct H as (k' & H1 & H). apply rbind_ok in H. destruct H as (tt & _ & H). injection H as <-. cbn [s_walk].
  assert (LI : length idxs = n).
  { unfold pickups in EP. destruct (String.eqb (o_pickup o) "random"); injection EP as <- <-; [rewrite (Permutation_length (rng_perm _ RG _ _))|]; apply seq_length. }
  rewrite <- LI. eapply flips_follow; eauto.
Qed.
Lemma sweeps_follow w g o rs ks : rng_ok g -> forall st st' m, fl_sweeps a w g o lin adj n rs st ks = Ok st' -> follows m (s_walk st) -> follows (m + length ks * (n * step)) (s_walk st').
Proof.
  intros RG. induction ks as [|k ks IH]; intros st st' m H HF; cbn [fl_sweeps] in H; [injection H as <-; rewrite Nat.add_0_r; auto|]. apply rbind_ok in H. destruct H as (s1 & H1 & H). apply (sweep_follows _ _ _ _ _ _ _ m RG) in H1; auto. apply (IH _ _ _ H) in H1.
  cbn [length]. replace (m + S (length ks) * (n * step)) with (m + n * step + length ks * (n * step)) by lia. exact H1.
Qed.
Lemma lin_near s d t : spin_sample s -> lin_terms a s d = Ok t -> exists l, Forall2 (fun x y => near u 1 (qabs y) x y) t l /\ qsum l = dsum (value_of s) d /\ length l = length d /\ (asum l <= asum (dvals d))%Qc.
Proof.
  intros SS. revert t. induction d as [|[l c] d IH]; intros t H; cbn [lin_terms] in H.
  - injection H as <-. exists []. repeat split; auto. apply Qcle_refl.
  - apply rbind_ok in H. destruct H as (v & EV & H). apply rbind_ok in H. destruct H as (t' & ET & H). injection H as <-. destruct (spin_in_some _ _ _ EV) as (z & EL & ->). destruct (IH _ ET) as (l' & F1 & F2 & F3 & F4).
    exists ((c * qz z)%Qc :: l'). split; [constructor; auto; apply (near_once u U0 (ar_round a) RE)|]. unfold dsum, dvals in *. cbn [qsum map fst snd length]. rewrite F2. unfold value_of at 2. rewrite EL. split; auto. split; [lia|].
    rewrite !asum_cons. rewrite (Qcmult_comm c), qabs_spin by (eapply SS; eauto). qord.
Qed.
Lemma quad_near s d t : spin_sample s -> quad_terms a s d = Ok t -> exists l, Forall2 (fun x y => near u 1 (qabs y) x y) t l /\ qsum l = dsum (fun ij => value_of s (fst ij) * value_of s (snd ij))%Qc d /\ length l = length d /\ (asum l <= asum (dvals d))%Qc.
Proof.
  intros SS. revert t. induction d as [|[[i j] c] d IH]; intros t H; cbn [quad_terms] in H.
  - injection H as <-. exists []. repeat split; auto. apply Qcle_refl.
  - apply rbind_ok in H. destruct H as (v & EV & H). apply rbind_ok in H. destruct H as (v' & EV' & H). apply rbind_ok in H. destruct H as (t' & ET & H). injection H as <-. destruct (spin_in_some _ _ _ EV) as (z & EI & ->). destruct (spin_in_some _ _ _ EV') as (z' & EJ & ->). destruct (IH _ ET) as (l' & F1 & F2 & F3 & F4).
    exists ((c * (qz z * qz z'))%Qc :: l'). split; [constructor; auto; apply (near_once u U0 (ar_round a) RE)|]. unfold dsum, dvals in *. cbn [qsum map fst snd length]. rewrite F2. unfold value_of at 3 4. rewrite EI, EJ. split; auto. split; [lia|].
    assert (SZ : spinz (z * z')%Z) by (destruct (SS _ _ EI) as [-> | ->], (SS _ _ EJ) as [-> | ->]; unfold spinz; lia).
    rewrite !asum_cons. rewrite (Qcmult_comm c), <- qz_mul, qabs_spin by auto. qord.
Qed.
Lemma energy_near s e : spin_sample s -> fl_bqm_energy a b s = Ok e -> near u (S N) W e (energy_bqm (value_of s) b).
Proof.
  intros SS H. unfold fl_bqm_energy in H. apply rbind_ok in H. destruct H as (tl & HL & H). apply rbind_ok in H. destruct H as (tq & HQ & H). injection H as <-.
  destruct (lin_near _ _ _ SS HL) as (l1 & L1 & L2 & L3 & L4). destruct (quad_near _ _ _ SS HQ) as (l2 & Q1 & Q2 & Q3 & Q4).
  assert (HA := add_up_near a u U0 RE OR (b_offset b :: tl ++ tq) (b_offset b :: l1 ++ l2)). cbn [qsum length] in HA. rewrite qsum_app, L2, Q2, asum_cons, asum_app, app_length, L3, Q3 in HA.
  rewrite energy_bqm_dsum. match type of HA with _ -> near _ _ _ _ ?v => replace v with (dsum (value_of s) (b_linear b) + dsum (fun ij => value_of s (fst ij) * value_of s (snd ij)) (b_quad b) + b_offset b)%Qc in HA by ring end.
  pose proof (qabs_nonneg (b_offset b)). pose proof (asum_nonneg l1). pose proof (asum_nonneg l2).
  eapply (near_mono u U0); [apply HA|unfold size; lia|qord|unfold whole_weight; rewrite asum_cons, asum_app; qord]. constructor; [apply near_self; auto|]. apply Forall2_app; auto.
Qed.
End Walk.

(** ** A whole call *)
Lemma conv_energy p orig s : to_bqm 1 p = Ok orig -> (- energy_bqm s (bqm_to_spin orig) = spin_energy p s - qz 2 * p_offset p)%Qc.
Proof.
  intros HB. destruct (to_bqm_spec _ _ _ HB) as (H1 & HW & _ & _ & _ & H6 & _).
  unfold spin_energy. change (qz 2) with (qz (1 + 1)). rewrite qz_add, qz_1. destruct (p_mtype p).
  - unfold bqm_to_spin. rewrite H6. rewrite H1. unfold energy_physical. unfold dsum. ring.
  - rewrite to_spin_energy by auto. rewrite H1. unfold energy_physical. unfold dsum. ring.
Qed.
(** The number of roundings behind a reported energy: [vars] variables, [pairs] couplings. *)
Definition roundings (sweeps vars pairs : nat) : nat :=
  let terms := 1 + vars + pairs in sweeps * (vars * (2 * terms + 3)) + (2 * terms + 4).
Section Call.
Variables (a : arith) (u : Qc).
Hypothesis U0 : (0 <= u)%Qc.
Hypothesis RE : forall v, (qabs (ar_round a v - v) <= u * qabs v)%Qc.
Hypothesis OR : forall l, Permutation (ar_order a l) l.
Variables (w : world) (g : generator) (o : options) (p : physical) (ls : list string) (orig : bqm) (lin : list Qc) (adj : list (dict nat Qc)).
Hypothesis RG : rng_ok g.
Hypothesis HW : well_indexed p ls.
Hypothesis HO : to_bqm 1 p = Ok orig.
Notation b := (fl_to_spin a orig).
Hypothesis FL : fill_linear p (b_linear b) (repeat 0%Qc (length (b_linear b))) = Ok lin.
Hypothesis FA : fill_adj p b (bqm_variables b) (repeat [] (length (b_linear b))) = Ok adj.
Notation A := (qabs (b_offset orig) + weight orig)%Qc.
Notation R := (roundings (Z.to_nat (o_sweeps o)) (length ls) (length (b_quad orig))).
Lemma fl_spin : b_spin b = true /\ dkeys (b_linear b) = dkeys (b_linear orig) /\ dkeys (b_quad b) = dkeys (b_quad orig).
Proof. unfold fl_to_spin. destruct (b_spin orig) eqn:ES; auto. cbn [b_spin b_linear b_quad]. unfold dkeys. rewrite !map_map. auto. Qed.
Lemma call_prepared : prepared (of_bqm p b) ls b b lin adj.
Proof. destruct fl_spin as (S1 & S2 & S3). eapply prepared_alike; eauto. Qed.
Lemma read_near s0 tr d tr' : fl_annealing a w g o p orig b lin adj s0 tr = Ok (d, tr') -> (forall x, length x = length ls -> starts ls s0 x -> Forall spinz x) ->
  exists x, length x = length ls /\ Forall spinz x /\ d_sample d = combine ls x /\ near u R (A + qz 2 * qabs (p_offset p)) (d_energy d) (vector_energy p x).
Proof.
  intros H HX0. pose proof call_prepared as HS. destruct (to_bqm_spec _ _ _ HO) as (_ & WF & _ & _ & OF & _).
  unfold fl_annealing in H. apply rbind_ok in H. destruct H as ([x0 t1] & H0 & H). cbn [fst snd] in H. rewrite <- (of_initial g p b) in H0. destruct (initial_spec _ _ _ _ _ _ HS g RG _ _ _ _ H0) as (L0 & S0).
  apply rbind_ok in H. destruct H as (e0 & HE & H). apply rbind_ok in H. destruct H as ([tm tg] & HTT & H). destruct (o_sweeps o * Z.of_nat (length (b_linear b)) <? 0)%Z; [discriminate|].
  apply rbind_ok in H. destruct H as (st & HSW & H). inversion H; subst d tr'. clear H. cbn [d_sample d_energy].
  pose proof (pr_n _ _ _ _ _ _ HS) as HN. pose proof (pr_maps _ _ _ _ _ _ HS) as HM. assert (X0 : Forall spinz x0) by (apply HX0; auto; congruence).
  change (make_sample p) with (make_sample (of_bqm p b)) in *.
  assert (SS : spin_sample (make_sample (of_bqm p b) x0)).
  { intros l z HD. rewrite (make_sample_eq _ ls HM) in HD by congruence. apply dget_in in HD. apply in_combine_r in HD. rewrite Forall_forall in X0. auto. }
  pose proof (energy_near a u U0 RE OR b _ _ SS HE) as N0.
  rewrite (energy_bqm_ext b (value_of (make_sample (of_bqm p b) x0)) (spins (of_bqm p b) x0)) in N0 by (apply (value_of_spins _ ls HM); congruence).
  assert (F0 : follows u (of_bqm p b) b (S (S (size b))) (mkWalk x0 (ar_round a (- (1) * e0)%Qc) 0 0)).
  { split; auto. split; auto. cbn [k_x k_energy]. apply (near_round u U0 (ar_round a) RE); [|apply level_abs; auto]. unfold level. replace (- (1) * e0)%Qc with (- e0)%Qc by ring. apply near_neg. exact N0. }
  match type of HSW with fl_sweeps _ _ _ _ _ _ _ ?rs0 ?st0 _ = _ => destruct (sweeps_follow a u U0 RE (of_bqm p b) ls b lin adj HS w g o rs0 _ RG st0 st _ HSW F0) as (F1 & F2 & F3) end.
  rewrite seq_length in F3. set (x := k_x (s_walk st)) in *. exists x. split; [congruence|]. split; auto. split; [apply (make_sample_eq _ ls HM); congruence|].
  assert (CL : close u (S (size orig)) A b (bqm_to_spin orig)) by (apply to_spin_close; auto).
  destruct fl_spin as (_ & K2 & K3). assert (SZ : size b = size orig).
  { unfold size. apply (f_equal (@length _)) in K2, K3. unfold dkeys in K2, K3. rewrite !map_length in K2, K3. rewrite K2, K3. reflexivity. }
  assert (NV : forall l, exists z, (z = 0 \/ spinz z)%Z /\ spins p x l = qz z) by (intros l; apply spins_small; auto).
  assert (A0 : (0 <= A)%Qc) by (pose proof (qabs_nonneg (b_offset orig)); unfold weight; pose proof (asum_nonneg (dvals (b_linear orig))); pose proof (asum_nonneg (dvals (b_quad orig))); qord).
  pose proof (close_energy u U0 _ _ _ _ (spins p x) CL NV) as C1. apply near_neg in C1. change (- energy_bqm (spins p x) b)%Qc with (level (of_bqm p b) b x) in C1.
  assert (C2 := near_trans u U0 _ _ _ _ _ _ _ F3 C1 A0 (close_weight u U0 _ _ _ _ CL)).
  assert (EV : vector_energy p x = (- energy_bqm (spins p x) (bqm_to_spin orig) + b_offset orig * qz 2)%Qc) by (unfold vector_energy; rewrite (conv_energy p orig _ HO), OF; ring).
  rewrite EV. set (E0 := (- energy_bqm (spins p x) (bqm_to_spin orig))%Qc) in *.
  assert (BE : (qabs E0 <= A)%Qc).
  { unfold E0. rewrite qabs_opp. assert (HD : held (fine (fun _ => True)) orig) by (split; apply Forall_forall; intros; exact I).
    destruct (to_spin_held (fun _ => True) A I (fun _ _ _ _ => I) orig HD I (Qcle_refl _) WF) as [_ BW].
    destruct (energy_bounds (fun _ => True) (bqm_to_spin orig) (spins p x)) as [_ BB]; auto; [apply Forall_forall; auto|]. qord. }
  assert (OE : (qabs (b_offset orig * qz 2) = qz 2 * qabs (p_offset p))%Qc) by (rewrite Qcmult_comm, qabs_scale, OF; auto; rewrite <- qz_0; apply qz_le; lia).
  assert (M0 : (0 <= A + qz 2 * qabs (p_offset p))%Qc) by (rewrite <- OE; pose proof (qabs_nonneg (b_offset orig * qz 2)); qord).
  set (m := S (S (size b)) + Z.to_nat (o_sweeps o) * (length (b_linear b) * S (S (size b) + S (size b))) + S (size orig)) in *.
  assert (N1 : near u (S m) (A + qz 2 * qabs (p_offset p)) (ar_round a (k_energy (s_walk st) + ar_round a (b_offset orig * qz 2))%Qc) (E0 + b_offset orig * qz 2)%Qc).
  { apply (near_round u U0 (ar_round a) RE).
    - apply near_add; [exact C2|]. rewrite <- OE. apply (near_mono u U0 1 m (qabs (b_offset orig * qz 2))); [apply (near_once u U0 (ar_round a) RE)|unfold m; lia|apply qabs_nonneg|apply Qcle_refl].
    - pose proof (qabs_add E0 (b_offset orig * qz 2)) as QA. rewrite OE in QA. qord. }
  refine (near_mono u U0 (S m) _ _ _ _ _ N1 _ M0 (Qcle_refl _)).
  unfold m, roundings. rewrite SZ. assert (SO : size orig = 1 + length ls + length (b_quad orig)). { unfold size. rewrite <- HN. apply (f_equal (@length _)) in K2. unfold dkeys in K2. rewrite !map_length in K2. rewrite K2. lia. }
  rewrite HN, SO. generalize (1 + length ls + length (b_quad orig)). intros t. replace (S (S t + S t)) with (2 * t + 3) by lia. lia.
Qed.
Lemma reads_near : forall inits tr l, fl_reads a w g o p orig b lin adj inits tr = Ok l -> (forall s0, In s0 inits -> forall x, length x = length ls -> starts ls s0 x -> Forall spinz x) ->
  forall r, In r l -> exists x, length x = length ls /\ Forall spinz x /\ d_sample r = combine ls x /\ near u R (A + qz 2 * qabs (p_offset p)) (d_energy r) (vector_energy p x).
Proof.
  induction inits as [|s0 r IH]; intros tr l H HI; cbn [fl_reads] in H; [injection H as <-; intros ? []|]. apply rbind_ok in H. destruct H as ([d t1] & H1 & H). apply rbind_ok in H. destruct H as (l' & H2 & H). injection H as <-.
  intros r' [<-|HR]; [eapply read_near; [exact H1|]; apply HI; simpl; auto|]. eapply IH; eauto. intros; eapply HI; simpl; eauto.
Qed.
End Call.
Lemma aggregate_from l s e c : In (s, e, c) (aggregate l) -> exists r, In r l /\ d_sample r = s /\ d_energy r = e.
Proof.
  unfold aggregate. assert (G : forall l acc, In (s, e, c) (fold_left (fun acc r => aggregate_add (d_sample r) (d_energy r) acc) l acc) -> (exists c', In (s, e, c') acc) \/ exists r, In r l /\ d_sample r = s /\ d_energy r = e).
  { clear l. induction l as [|r l IH]; intros acc H; cbn [fold_left] in H; [eauto|]. destruct (IH _ H) as [[c' HA]|(r' & HR & HR')]; [|right; exists r'; simpl; auto].
    assert (AD : (exists c'', In (s, e, c'') acc) \/ (d_sample r = s /\ d_energy r = e)).
    { clear -HA. induction acc as [|[[s1 e1] c1] acc IH]; cbn [aggregate_add] in HA.
      - destruct HA as [HA|[]]. injection HA as <- <- <-. auto.
      - destruct (sample_eqb s1 (d_sample r)) eqn:ES.
        + destruct HA as [HA|HA]; [injection HA as <- <- <-; left; eexists; left; reflexivity|left; exists c'; right; exact HA].
        + destruct HA as [HA|HA]; [left; exists c'; left; exact HA|]. destruct (IH HA) as [[c'' H]|H]; auto. left. exists c''. right. exact H. }
    destruct AD as [AD|AD]; auto. right. exists r. simpl. auto. }
  intros H. destruct (G _ _ H) as [[c' []]|HH]; auto.
Qed.

(** ** C151 *)
(** Every reported energy differs from the true energy of the reported sample by at most [(1 + u)^m - 1] times the sum of the
    absolute coefficients (the offset three times), [m] being the number of roundings on the way. *)
Theorem C151_error : forall u rnd order w p ls o out s e c,
  relative u rnd -> (forall l, Permutation (order l) l) -> world_ok w -> well_indexed p ls -> legal_states p o ->
  no_repeats p -> Forall (fun v => rnd v = v) (coefs p) ->
  fl_result rnd order w p o = Ok out -> In (s, e, c) (out_set out) ->
  (qabs (e - energy_physical (value_of s) p) <=
     drift u (roundings (Z.to_nat (o_sweeps o)) (length ls) (length (p_quad p))) * (asum (coefs p) + qz 2 * qabs (p_offset p)))%Qc.
Proof.
  intros u rnd order w p ls o out s e c [U0 RE] OR WO HW HL NR HC H HI. set (a := machine rnd order). unfold fl_result in H. fold a in H.
  assert (R0 : rnd 0%Qc = 0%Qc).
  { pose proof (RE 0%Qc) as Z. change (qabs 0) with 0%Qc in Z. rewrite Qcmult_0_r in Z. assert (ZE : (rnd 0%Qc - 0 = rnd 0%Qc)%Qc) by ring. rewrite ZE in Z. destruct (qabs_cases (rnd 0%Qc)) as [[Y E1]|[Y E1]]; rewrite E1 in Z; qord. }
  destruct (taken_over a p R0 NR HC) as [T1 T2]. destruct (to_bqm_exact (exact_of a) (fun _ => True) (asum (coefs p)) I (fun _ _ _ _ => I) (fun _ _ _ => eq_refl) p) as [_ T3]; [apply Forall_forall; auto|apply Qcle_refl|].
  unfold fl_solve in H. rewrite T1 in H. destruct (check_args p o) as [[]|] eqn:EC; [|discriminate]. destruct (pick_rng w (o_seed o)) as [g|] eqn:EG; [|discriminate].
  assert (RG : rng_ok g).
  { destruct WO as [HF HSD]. unfold pick_rng in EG. destruct (o_seed o) as [z|]; [|inversion EG; subst; auto]. destruct (Z.eqb z 0); [inversion EG; subst; auto|]. destruct (z <? 0)%Z; inversion EG; subst; auto. }
  destruct (to_bqm 1 p) as [orig|] eqn:EB; [|discriminate]. cbn [snd] in H. cbv zeta in H.
  apply rbind_ok in H. destruct H as (lin & FL & H). apply rbind_ok in H. destruct H as (adj & FA & H). apply rbind_ok in H. destruct H as (l & HR & H). injection H as <-. cbn [out_set] in HI.
  destruct (to_bqm_spec _ _ _ EB) as (_ & _ & _ & _ & OF & ET & _). destruct (T3 orig eq_refl) as [_ WT].
  unfold sampleset in HI. apply in_map_iff in HI. destruct HI as ([[s1 e1] c1] & EQ & HI). injection EQ as <- <- <-. destruct (aggregate_from _ _ _ _ HI) as (r & HIr & <- & <-).
  match type of HR with fl_reads _ _ _ _ _ _ _ _ _ ?I0 _ = _ => set (inits := I0) in * end.
  assert (HI0 : inits = start_states p o).
  { unfold inits, start_states. destruct (has_init o) eqn:EH; auto. rewrite ET. destruct (p_mtype p); cbn [negb andb]; auto. }
  destruct (reads_near a u U0 RE OR w g o p ls orig lin adj RG HW EB FL FA inits [] l HR) with (r := r) as (x & X1 & X2 & X3 & X4); auto.
  { intros s0 HS0 x HX HX'. rewrite HI0 in HS0. eapply start_spins; eauto. }
  rewrite X3, ET. change (match p_mtype p with Ising => true | Qubo => false end) with (is_ising (p_mtype p)). rewrite <- vector_sample by auto. rewrite (T2 orig eq_refl) in X4. unfold near in X4. eapply Qcle_trans; [exact X4|].
  rewrite !(Qcmult_comm (drift _ _)). apply Qcmult_le_compat_r; [|apply drift_nonneg; auto]. unfold coefs. rewrite asum_cons, asum_app, OF. qord.
Qed.
(** The row with the lowest reported energy is, in truth, worse than any other row by at most twice the bound. *)
Theorem C151_best : forall u rnd order w p ls o out s e c s' e' c',
  relative u rnd -> (forall l, Permutation (order l) l) -> world_ok w -> well_indexed p ls -> legal_states p o ->
  no_repeats p -> Forall (fun v => rnd v = v) (coefs p) ->
  fl_result rnd order w p o = Ok out -> In (s, e, c) (out_set out) -> In (s', e', c') (out_set out) -> (e <= e')%Qc ->
  (energy_physical (value_of s) p <= energy_physical (value_of s') p +
     qz 2 * (drift u (roundings (Z.to_nat (o_sweeps o)) (length ls) (length (p_quad p))) * (asum (coefs p) + qz 2 * qabs (p_offset p))))%Qc.
Proof.
  intros u rnd order w p ls o out s e c s' e' c' RU OR WO HW HL NR HC H HI HI' HE.
  pose proof (C151_error _ _ _ _ _ _ _ _ _ _ _ RU OR WO HW HL NR HC H HI) as B1. pose proof (C151_error _ _ _ _ _ _ _ _ _ _ _ RU OR WO HW HL NR HC H HI') as B2.
  set (B := (drift u _ * _)%Qc) in *. assert (T2 : (qz 2 * B = B + B)%Qc) by (change 2%Z with (1 + 1)%Z; rewrite qz_add, qz_1; ring). rewrite T2.
  destruct (qabs_cases (e - energy_physical (value_of s) p)) as [[Y1 E1]|[Y1 E1]], (qabs_cases (e' - energy_physical (value_of s') p)) as [[Y2 E2]|[Y2 E2]]; rewrite E1 in B1; rewrite E2 in B2; qord.
Qed.
(** The unit roundoff of double precision. *)
Definition ulp53 : Qc := (/ qz (2 ^ 53))%Qc.
Lemma nearest_relative : relative ulp53 nearest.
Proof.
  assert (P0 : (0 <= ulp53)%Qc) by (vm_compute; discriminate). split; [exact P0|]. intros v. unfold nearest. destruct (_ && _ && _ && _) eqn:EC.
  - apply andb_true_iff in EC. destruct EC as [EC _]. apply andb_true_iff in EC. destruct EC as [EC _]. apply andb_true_iff in EC. destruct EC as [E1 E2]. apply Pos.eqb_eq in E1. apply Z.leb_le in E2. set (k := Qnum (this v)) in *.
    assert (HV : v = qz k). { apply Qc_is_canon. unfold qz. cbn [this Q2Qc]. rewrite Qred_correct. unfold k, Qeq, inject_Z. cbn [Qnum Qden]. rewrite E1. lia. }
    assert (U1 : (ulp53 * qz (2 ^ 53) = 1)%Qc) by (apply Qc_is_canon; vm_compute; reflexivity).
    assert (UV : (1 <= ulp53 * qabs v)%Qc).
    { rewrite <- U1, !(Qcmult_comm ulp53). apply Qcmult_le_compat_r; auto. rewrite HV. clear -E2. destruct (qabs_cases (qz k)) as [[X E1]|[X E1]]; rewrite E1; rewrite <- qz_0 in X.
      - apply (proj1 (qz_le _ _)) in X. apply qz_le. lia.
      - apply (proj1 (qz_lt _ _)) in X. rewrite <- qz_opp. apply qz_le. lia. }
    eapply Qcle_trans; [|exact UV]. clearbody k. rewrite HV. destruct ((k - 1) mod 4 =? 0)%Z.
    + assert (E : (qz (k - 1) - qz k = - (1))%Qc) by (unfold Z.sub; rewrite qz_add, qz_opp, qz_1; ring). rewrite E. vm_compute. discriminate.
    + assert (E : (qz (k + 1) - qz k = 1)%Qc) by (rewrite qz_add, qz_1; ring). rewrite E. vm_compute. discriminate.
  - assert (E : (v - v = 0)%Qc) by ring. rewrite E. change (qabs 0) with 0%Qc. apply qmul_nonneg; auto. apply qabs_nonneg.
Qed.
(** The model of C150_refuted, whose reported energy is wrong, meets the hypotheses. *)
Example C151_hyps : relative ulp53 nearest /\ world_ok world0 /\ well_indexed wide ["a"; "b"] /\ legal_states wide wide_options /\ no_repeats wide /\ Forall (fun v => nearest v = v) (coefs wide) /\
  (exists out, fl_result nearest (@rev Qc) world0 wide wide_options = Ok out /\ length (out_set out) = 1) /\ roundings 1 2 0 = 28.
Proof.
  split; [apply nearest_relative|]. split; [apply world0_ok|]. split; [|split; [|split; [|split; [|split]]]].
  - destruct (phys2_indexed Ising) as (H1 & H2 & H3 & H4). split; [exact H1|]. split; [exact H2|]. split; [exact H3|]. intros l. rewrite H4. unfold occurs. cbn. split.
    + intros [H|(x & y & [H|[]] & HL)]; [left; exact H|]. injection H as <- <-. left. destruct HL; auto.
    + intros [H|(x & y & [] & _)]. left. exact H.
  - intros s l z [<-|[]] _ H. cbn in H. cbn [wide p_mtype legal]. destruct (String.eqb l "a"); [inversion H; auto|]. destruct (String.eqb l "b"); [inversion H; auto|discriminate].
  - split; [|split; [constructor|intros x y []]]. cbn. constructor; [intros [H|[]]; discriminate|]. constructor; [intros []|constructor].
  - repeat constructor; apply Qc_is_canon; vm_compute; reflexivity.
  - destruct (fl_result nearest (@rev Qc) world0 wide wide_options) as [out|] eqn:E; [|vm_compute in E; discriminate]. exists out. split; auto. apply (f_equal (fun r => match r with Ok out => length (out_set out) | Err _ => 0 end)) in E. rewrite <- E. vm_compute. reflexivity.
  - reflexivity.
Qed.

(** ** C152: whatever the rounding *)
Definition alike (b b' : bqm) : Prop := b_spin b = b_spin b' /\ dkeys (b_linear b) = dkeys (b_linear b') /\ dkeys (b_quad b) = dkeys (b_quad b').
Lemma dset_keys_alike {K V} `{Eqb K} (k : K) (v v' : V) (d d' : dict K V) : dkeys d = dkeys d' -> dkeys (dset k v d) = dkeys (dset k v' d').
Proof.
  revert d'. induction d as [|[x c] d IH]; intros [|[x' c'] d'] E; try discriminate; [reflexivity|]. cbn [dkeys map fst] in E. injection E as <- E. cbn [dset]. destruct (eqb k x); cbn [dkeys map fst]; f_equal; auto. apply IH. exact E.
Qed.
Lemma dmem_alike (k : string * string) (d d' : dict (string * string) Qc) : dkeys d = dkeys d' -> dmem k d = dmem k d'.
Proof.
  intros E. destruct (dmem k d) eqn:E1, (dmem k d') eqn:E2; auto.
  - apply dmem_in in E1. apply dmem_nin in E2. rewrite E in E1. contradiction.
  - apply dmem_nin in E1. apply dmem_in in E2. rewrite E in E1. contradiction.
Qed.
Lemma alike_variable a v c c' b b' : alike b b' -> alike (fl_add_variable a v c b) (bqm_add_variable v c' b').
Proof. intros (A1 & A2 & A3). unfold alike, fl_add_variable, bqm_add_variable. cbn [b_spin b_linear b_quad]. split; auto. split; auto. apply dset_keys_alike. auto. Qed.
Lemma alike_interactions a q q' : dkeys q = dkeys q' -> forall b b', alike b b' ->
  match fl_interactions a q b, bqm_interactions q' b' with Ok c, Ok c' => alike c c' | Err e, Err e' => e = e' | _, _ => False end.
Proof.
  revert q'. induction q as [|[[x y] c] q IH]; intros [|[[x' y'] c'] q'] E; try discriminate; intros b b' HA; cbn [fl_interactions bqm_interactions]; [exact HA|].
  cbn [dkeys map fst] in E. injection E as <- <- E. unfold fl_add_interaction, bqm_add_interaction. destruct (String.eqb x y); [reflexivity|]. cbv zeta.
  assert (HB := alike_variable a y 0%Qc 0%Qc _ _ (alike_variable a x 0%Qc 0%Qc _ _ HA)). set (b1 := fl_add_variable a y 0%Qc _) in *. set (b2 := bqm_add_variable y 0%Qc _) in *. clearbody b1 b2. destruct HB as (B1 & B2 & B3).
  assert (PK : pair_key x y (b_quad b1) = pair_key x y (b_quad b2)) by (unfold pair_key; rewrite (dmem_alike _ _ _ B3); reflexivity). rewrite PK.
  apply IH; auto. unfold alike. cbn [b_spin b_linear b_quad]. split; auto. split; auto. apply dset_keys_alike. auto.
Qed.
Lemma alike_to_bqm a p : match fl_to_bqm a p, to_bqm 1 p with Ok c, Ok c' => alike c c' | Err e, Err e' => e = e' | _, _ => False end.
Proof.
  unfold fl_to_bqm, to_bqm, bqm_new. apply alike_interactions; [unfold dkeys; rewrite !map_map; reflexivity|].
  set (b0 := mkBqm _ [] [] _). assert (H0 : alike b0 b0) by (split; auto). revert H0. generalize b0 at 1 3. generalize b0. clear b0. induction (p_linear p) as [|[v c] l IH]; intros b b' H; cbn [map fold_left fst snd]; auto. apply IH. apply alike_variable. auto.
Qed.
Lemma alike_spin a b b' : alike b b' -> b_spin (fl_to_spin a b) = true /\ dkeys (b_linear (fl_to_spin a b)) = dkeys (b_linear b') /\ dkeys (b_quad (fl_to_spin a b)) = dkeys (b_quad b').
Proof. intros (A1 & A2 & A3). unfold fl_to_spin. destruct (b_spin b) eqn:ES; auto. cbn [b_spin b_linear b_quad]. rewrite <- A2, <- A3. unfold dkeys. rewrite !map_map. auto. Qed.
Section Any.
Variables (a : arith) (w : world) (g : generator) (o : options) (p : physical) (ls : list string) (orig b : bqm) (lin : list Qc) (adj : list (dict nat Qc)).
Hypothesis RG : rng_ok g.
Hypothesis HS : prepared (of_bqm p b) ls b b lin adj.
Notation n := (length (b_linear b)).
Definition placed (k : walk) : Prop := length (k_x k) = n /\ Forall spinz (k_x k).
Lemma flips_placed rs temp idxs : forall k k', fl_flips a w lin adj rs temp k idxs = Ok k' -> placed k -> placed k'.
Proof.
  induction idxs as [|i idxs IH]; intros k k' H HP; cbn [fl_flips] in H; [injection H as <-; auto|]. apply rbind_ok in H. destruct H as (k1 & H1 & H). apply (IH _ _ H). clear IH H. destruct HP as [HL HX].
  unfold fl_flip in H1. apply rbind_ok in H1. destruct H1 as (d & _ & H1). apply rbind_ok in H1. destruct H1 as ([[] v] & _ & H1); cbn [fst snd] in H1; injection H1 as <-; unfold placed; cbn [k_x]; auto.
  split; [rewrite upd_nth_length; auto|]. apply (flipped_entries spinz i (k_x k)); auto. apply spin_opp.
Qed.
Lemma sweeps_placed rs ks : forall st st', fl_sweeps a w g o lin adj n rs st ks = Ok st' -> placed (s_walk st) ->
  placed (s_walk st') /\ length (s_ehist st') = length (s_ehist st) + length ks /\ length (s_thist st') = length (s_thist st) + length ks /\ length (s_ahist st') = length (s_ahist st) + length ks.
Proof.
  induction ks as [|k ks IH]; intros st st' H HP; cbn [fl_sweeps] in H; [injection H as <-; cbn [length]; repeat split; auto; apply HP|]. apply rbind_ok in H. destruct H as (s1 & H1 & H).
  unfold fl_sweep in H1. apply rbind_ok in H1. destruct H1 as (rv & _ & H1). destruct (pickups g (o_pickup o) n (s_trace st)) as [idxs tr]. apply rbind_ok in H1. destruct H1 as (k' & HK & H1). apply rbind_ok in H1. destruct H1 as (tt & _ & H1). injection H1 as <-.
  apply flips_placed in HK; [|exact HP]. destruct (IH _ _ H HK) as (I1 & I2 & I3 & I4). cbn [s_ehist s_thist s_ahist] in *. rewrite app_length in *. cbn [length] in *. repeat split; try apply I1; lia.
Qed.
Definition placed_read (d : read) (x : list Z) : Prop := length x = length ls /\ Forall spinz x /\ d_sample d = combine ls x /\
  length (d_ehist d) = Z.to_nat (o_sweeps o) /\ length (d_thist d) = Z.to_nat (o_sweeps o) /\ length (d_ahist d) = Z.to_nat (o_sweeps o).
Lemma read_placed s0 tr d tr' : fl_annealing a w g o p orig b lin adj s0 tr = Ok (d, tr') -> (forall x, length x = length ls -> starts ls s0 x -> Forall spinz x) -> exists x, placed_read d x.
Proof.
  intros H HX0. unfold fl_annealing in H. apply rbind_ok in H. destruct H as ([x0 t1] & H0 & H). cbn [fst snd] in H. rewrite <- (of_initial g p b) in H0. destruct (initial_spec _ _ _ _ _ _ HS g RG _ _ _ _ H0) as (L0 & S0).
  apply rbind_ok in H. destruct H as (e0 & _ & H). apply rbind_ok in H. destruct H as ([tm tg] & _ & H). destruct (o_sweeps o * Z.of_nat n <? 0)%Z; [discriminate|].
  apply rbind_ok in H. destruct H as (st & HSW & H). inversion H; subst d tr'. clear H. unfold placed_read. cbn [d_sample d_ehist d_thist d_ahist].
  pose proof (pr_n _ _ _ _ _ _ HS) as HN. pose proof (pr_maps _ _ _ _ _ _ HS) as HM. assert (X0 : Forall spinz x0) by (apply HX0; auto; congruence).
  destruct (sweeps_placed _ _ _ _ HSW) as ([F1 F2] & F3 & F4 & F5); [split; auto|]. rewrite seq_length in F3, F4, F5. exists (k_x (s_walk st)).
  split; [congruence|]. split; auto. split; [|cbn in F3, F4, F5; auto]. change (make_sample p) with (make_sample (of_bqm p b)). apply (make_sample_eq _ ls HM). congruence.
Qed.
Lemma reads_placed : forall inits tr l, fl_reads a w g o p orig b lin adj inits tr = Ok l -> (forall s0, In s0 inits -> forall x, length x = length ls -> starts ls s0 x -> Forall spinz x) ->
  length l = length inits /\ exists xs, Forall2 placed_read l xs.
Proof.
  induction inits as [|s0 r IH]; intros tr l H HI; cbn [fl_reads] in H; [injection H as <-; split; auto; exists []; constructor|]. apply rbind_ok in H. destruct H as ([d t1] & H1 & H). apply rbind_ok in H. destruct H as (l' & H2 & H). injection H as <-.
  destruct (read_placed _ _ _ _ H1) as [x HX]; [apply HI; simpl; auto|]. destruct (IH _ _ H2) as [L [xs HXS]]; [intros; eapply HI; simpl; eauto|]. split; [cbn; auto|]. exists (x :: xs). constructor; auto.
Qed.
End Any.
(** The aggregation does not look at energies. *)
Definition mute_row (r : srow) : srow := (fst (fst r), 0%Qc, snd r).
Definition mute_read (r : read) : read := mkRead (d_sample r) 0%Qc (d_ehist r) (d_thist r) (d_ahist r).
Lemma aggregate_mute l : aggregate (map mute_read l) = map mute_row (aggregate l).
Proof.
  unfold aggregate. assert (G : forall l acc, fold_left (fun acc r => aggregate_add (d_sample r) (d_energy r) acc) (map mute_read l) (map mute_row acc) = map mute_row (fold_left (fun acc r => aggregate_add (d_sample r) (d_energy r) acc) l acc)).
  { clear l. induction l as [|r l IH]; intros acc; cbn [map fold_left]; auto. rewrite <- IH. f_equal. cbn [mute_read d_sample d_energy]. clear. induction acc as [|[[s e] c] acc IH]; cbn [map aggregate_add mute_row fst snd]; auto. destruct (sample_eqb s (d_sample r)); cbn [map mute_row fst snd]; auto. f_equal. exact IH. }
  apply (G l []).
Qed.
(** No rounding and no order of addition, however wrong, changes the shape of the answer: one read per requested read with one
    history entry per sweep, samples over exactly the variables of the model with legal values, each sample once, with counts
    that add up to the number of reads. *)
Theorem C152_answer : forall rnd order w p ls o out,
  world_ok w -> well_indexed p ls -> legal_states p o -> fl_result rnd order w p o = Ok out ->
  length (out_reads out) = Z.to_nat (o_reads o) /\
  (forall r, In r (out_reads out) -> length (d_ehist r) = Z.to_nat (o_sweeps o) /\ length (d_thist r) = Z.to_nat (o_sweeps o) /\ length (d_ahist r) = Z.to_nat (o_sweeps o)) /\
  (forall s e c, In (s, e, c) (out_set out) -> dkeys s = ls /\ Forall (legal (p_mtype p)) (dvals s) /\ 0 < c) /\
  NoDup (map (fun r : srow => fst (fst r)) (out_set out)) /\
  list_sum (map snd (out_set out)) = Z.to_nat (o_reads o).
Proof.
  intros rnd order w p ls o out WO HW HL H. unfold fl_result in H. set (a := machine rnd order) in *. pose proof (alike_to_bqm a p) as AL.
  unfold fl_solve in H. destruct (check_args p o) as [[]|] eqn:EC; [|discriminate]. destruct (pick_rng w (o_seed o)) as [g|] eqn:EG; [|discriminate].
  assert (RG : rng_ok g).
  { destruct WO as [HF HSD]. unfold pick_rng in EG. destruct (o_seed o) as [z|]; [|inversion EG; subst; auto]. destruct (Z.eqb z 0); [inversion EG; subst; auto|]. destruct (z <? 0)%Z; inversion EG; subst; auto. }
  destruct (fl_to_bqm a p) as [b0|]; [|discriminate]. destruct (to_bqm 1 p) as [orig|] eqn:EB; [|contradiction]. cbn [snd] in H. cbv zeta in H.
  apply rbind_ok in H. destruct H as (lin & FL & H). apply rbind_ok in H. destruct H as (adj & FA & H). apply rbind_ok in H. destruct H as (l & HR & H). injection H as <-. cbn [out_set out_reads].
  destruct (alike_spin a _ _ AL) as (S1 & S2 & S3). destruct (to_bqm_spec _ _ _ EB) as (_ & _ & _ & _ & _ & ET & _). assert (ET' : b_spin b0 = is_ising (p_mtype p)) by (destruct AL as [-> _]; rewrite ET; reflexivity).
  assert (HS : prepared (of_bqm p (fl_to_spin a b0)) ls (fl_to_spin a b0) (fl_to_spin a b0) lin adj) by (eapply prepared_alike; eauto).
  match type of HR with fl_reads _ _ _ _ _ _ _ _ _ ?I0 _ = _ => set (inits := I0) in * end.
  assert (HI0 : inits = start_states p o).
  { unfold inits, start_states. destruct (has_init o) eqn:EH; auto. rewrite ET'. destruct (p_mtype p); cbn [negb andb is_ising]; auto. }
  destruct (reads_placed a w g o p ls b0 _ lin adj RG HS inits [] l HR) as (LR & xs & HXS).
  { intros s0 HS0 x HX HX'. rewrite HI0 in HS0. eapply start_spins; eauto. }
  rewrite HI0, (start_length p o EC) in LR. split; auto. split.
  { intros r HIr. destruct (Forall2_in_l _ _ _ _ HXS HIr) as (x & _ & (_ & _ & _ & A1 & A2 & A3)). auto. }
  pose proof HW as (ND & _). assert (X1 : Forall2 (fun r x => length x = length ls /\ d_sample r = combine ls x /\ d_energy r = (fun _ : list Z => 0%Qc) x) (map mute_read l) xs).
  { clear -HXS. induction HXS as [|r x l xs (A1 & A2 & A3 & _) F IH]; cbn [map]; constructor; auto. }
  pose proof (aggregate_spec ls (fun _ => 0%Qc) ND _ _ X1) as HA. rewrite aggregate_mute in HA. pose proof (agg_total _ _ _ _ HA) as HT. destruct HA as (ys & N & F & C).
  assert (SY : forall y, In y ys -> Forall spinz y).
  { intros y HY. destruct (Forall2_in_r _ _ _ _ F HY) as (r & _ & _ & _ & _ & Q1 & Q2). assert (HI : In y xs) by (apply (count_occ_In (list_eq_dec Z.eq_dec)); lia). destruct (Forall2_in_r _ _ _ _ HXS HI) as (r' & _ & (_ & A2 & _)). exact A2. }
  unfold sampleset. rewrite ET'. split; [|split].
  - intros s e c HI. apply in_map_iff in HI. destruct HI as ([[s1 e1] c1] & EQ & HI). injection EQ as <- <- <-. apply (in_map mute_row) in HI. destruct (Forall2_in_l _ _ _ _ F HI) as (y & Hy & LY & A1 & _ & _ & P). cbn [fst snd mute_row] in *. subst s1.
    specialize (SY y Hy). rewrite convert_combine by auto. split; [unfold dkeys; apply map_fst_combine; rewrite map_length; auto|]. split; auto.
    unfold dvals. rewrite map_snd_combine by (rewrite map_length; auto). apply Forall_forall. intros z HZ. apply in_map_iff in HZ. destruct HZ as (z' & <- & HZ). rewrite Forall_forall in SY. apply spin_to_legal. auto.
  - assert (HE : map (fun r : srow => fst (fst r)) (map (fun r : srow => match r with (s, e, c) => (convert_sample (is_ising (p_mtype p)) s, e, c) end) (aggregate l)) = map (fun y => convert_sample (is_ising (p_mtype p)) (combine ls y)) ys).
    { clear - F. revert ys F. induction (aggregate l) as [|[[s e] c] rows IH]; cbn [map]; intros ys F; inversion F as [|r y ? ys' (L1 & A1 & _) F']; subst; cbn [map]; auto. cbn [fst snd mute_row] in *. rewrite A1, (IH _ F'). auto. }
    assert (LY : forall y, In y ys -> length y = length ls) by (intros y Hy; destruct (Forall2_in_r _ _ _ _ F Hy) as (r & _ & L1 & _); exact L1).
    refine (eq_ind_r (fun L => NoDup L) _ HE). clear F HE HT C. induction ys as [|y ys IH]; cbn [map]; constructor; inversion N; subst.
    + intros HI. apply in_map_iff in HI. destruct HI as (y' & HE & HI). assert (L1 := LY y (or_introl eq_refl)). assert (L2 := LY y' (or_intror HI)). assert (Y1 := SY y (or_introl eq_refl)). assert (Y2 := SY y' (or_intror HI)).
      rewrite !convert_combine in HE by auto. apply (f_equal (map snd)) in HE. rewrite !map_snd_combine in HE by (rewrite map_length; auto).
      assert (y' = y); [|subst; contradiction]. clear - HE Y1 Y2. revert y' HE Y2. induction y as [|z y IH]; intros [|z' y'] HE Y2; try discriminate; auto.
      inversion Y1; inversion Y2; subst. cbn [map] in HE. inversion HE. f_equal; [|apply IH; auto].
      destruct (is_ising (p_mtype p)); cbn [spin_to] in *; auto. destruct H1 as [->| ->], H5 as [->| ->]; auto; discriminate.
    + apply IH; auto; intros; [apply SY|apply LY]; simpl; auto.
  - rewrite map_map in HT |- *. rewrite <- LR. rewrite (Forall2_len _ _ _ HXS), <- HT. f_equal. apply map_ext. intros [[s e] c]. reflexivity.
Qed.
(** Nor does it change what the call does to the caller's initial states. *)
Theorem C152_caller : forall rnd order w mo o, fst (fl_solve (machine rnd order) w mo o) = fst (solve w mo o).
Proof.
  intros rnd order w [p|] o; [|reflexivity]. unfold fl_solve, solve. destruct (check_args p o); [|reflexivity]. destruct (pick_rng w (o_seed o)); [|reflexivity].
  pose proof (alike_to_bqm (machine rnd order) p) as AL. destruct (fl_to_bqm (machine rnd order) p) as [b|], (to_bqm 1 p) as [b'|]; try contradiction; [|reflexivity]. destruct AL as [E _]. cbn [fst]. rewrite E. reflexivity.
Qed.
(** An arithmetic in which every result is 7 and every sum empty. *)
Example C152_hyps : world_ok world0 /\ well_indexed (phys2 Qubo) ["a"; "b"] /\ legal_states (phys2 Qubo) options1 /\
  okshape (fl_result (fun _ => qz 7) (fun _ => []) world0 (phys2 Qubo) options1) = [(1, [0; 0], 2)] /\
  match fl_result (fun _ => qz 7) (fun _ => []) world0 (phys2 Qubo) options1 with Ok out => map snd (out_set out) = [1] | Err _ => False end.
Proof. split; [apply world0_ok|]. split; [apply phys2_indexed|]. split; [apply legal1|]. split; vm_compute; reflexivity. Qed.
Print Assumptions C151_error.
Print Assumptions C151_best.
Print Assumptions C152_answer.
Print Assumptions C152_caller.
