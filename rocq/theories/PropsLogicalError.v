(** * PropsLogicalError: C155 - rounding between a logical model and the energies reported for it. *)
From Verif Require Import PyBase PyLemmas Numbers Constraint LogicalModel Spec PhysicalProofs Samples PropsPhysical EnergyProofs
  ToPhysicalProofs Physical BqmProofs History PropsHistory PropsBqm Solver SolverSpec SolverProofs PropsSolver NppStream PropsNppSolve PropsPenalty Rounded PropsRounded PropsError RoundedLogical.
From Coq Require Import Permutation.
Open Scope string_scope.
Open Scope list_scope.

(** ** Specification *)
Definition is_plain (c : coef) : Prop := exists q, c = CNum q.
(** Only plain numbers, no constraints. *)
Definition plain_model (m : lmodel) : Prop :=
  m_constrs m = [] /\ is_plain (m_offset m) /\ Forall (fun r => is_plain (r_coef r) /\ is_plain (r_scale r)) (m_rows m).
(** coefficient * scale of an interaction, 0 if it was removed. *)
Definition strength (r : row) : Qc := if r_removed r then 0%Qc else (value [] (r_coef r) * value [] (r_scale r))%Qc.
(** The interactions on a label, on a pair. *)
Definition on_label (a : string) (r : row) : bool := match r_key r with K1 b => String.eqb a b | K2 _ _ => false end.
Definition on_pair (a b : string) (r : row) : bool := match r_key r with K1 _ => false | K2 c d => String.eqb a c && String.eqb b d end.
Definition entry {K} `{Eqb K} (k : K) (d : dict K Qc) : Qc := match dget k d with Some v => v | None => 0%Qc end.
(** Values of spins and bits. *)
Definition small (s : assignment) : Prop := forall l, exists z, (z = 0 \/ spinz z)%Z /\ s l = qz z.

(** ** One dictionary *)
Section Dict.
Variables (u : Qc) (rnd : Qc -> Qc).
Hypothesis U0 : (0 <= u)%Qc.
Hypothesis RE : forall v, (qabs (rnd v - v) <= u * qabs v)%Qc.
Context {K : Type} `{Eqb K}.
Notation triple := (Qc * Qc * Qc)%type.
Definition proj {W} (g : triple -> W) (l : dict K triple) : dict K W := map (fun e => (fst e, g (snd e))) l.
Lemma proj_get {W} (g : triple -> W) k l : dget k (proj g l) = match dget k l with Some v => Some (g v) | None => None end.
Proof. unfold proj. induction l as [|[k' v] l IH]; cbn [map dget fst snd]; auto. destruct (eqb k k'); auto. Qed.
Lemma proj_set {W} (g : triple -> W) k v l : proj g (dset k v l) = dset k (g v) (proj g l).
Proof. unfold proj. induction l as [|[k' v'] l IH]; cbn [map dset fst snd]; auto. destruct (eqb k k'); cbn [map fst snd]; auto. rewrite IH. auto. Qed.
(** The rounded sum, the exact sum and the sum of the magnitudes, side by side. *)
Definition tadd (k : K) (qt q : Qc) (l : dict K triple) : dict K triple :=
  match dget k l with
  | Some (x, y, M) => dset k (rnd (x + qt)%Qc, (y + q)%Qc, (M + qabs q)%Qc) l
  | None => dset k (qt, q, qabs q) l
  end.
Lemma tadd_rounded k qt q l : proj (fun t => fst (fst t)) (tadd k qt q l) = fl_dadd rnd k qt (proj (fun t => fst (fst t)) l).
Proof. unfold tadd, fl_dadd. rewrite proj_get. destruct (dget k l) as [[[x y] M]|]; rewrite proj_set; reflexivity. Qed.
Lemma tadd_exact k qt q l : proj (fun t => snd (fst t)) (tadd k qt q l) = dadd k q (proj (fun t => snd (fst t)) l).
Proof. unfold tadd, dadd. rewrite proj_get. destruct (dget k l) as [[[x y] M]|]; rewrite proj_set; reflexivity. Qed.
Lemma tadd_mass k qt q l : proj snd (tadd k qt q l) = dadd k (qabs q) (proj snd l).
Proof. unfold tadd, dadd. rewrite proj_get. destruct (dget k l) as [[[x y] M]|]; rewrite proj_set; reflexivity. Qed.
Lemma entry_mono m m' (e : K * triple) : m <= m' -> entry_ok u m e -> entry_ok u m' e.
Proof. intros HM [A B]. split; [|exact B]. refine (near_mono u U0 m m' _ _ _ _ A HM _ (Qcle_refl _)). pose proof (qabs_nonneg (snd (fst (snd e)))). qord. Qed.
Lemma forall_set (P : K * triple -> Prop) k v l : (forall k', eqb k k' = true -> P (k', v)) -> P (k, v) -> Forall P l -> Forall P (dset k v l).
Proof.
  intros HE HP. induction 1 as [|[k' v'] l HX HL IH]; cbn [dset]; [constructor; auto|]. destruct (eqb k k') eqn:E; constructor; auto.
Qed.
Lemma tadd_ok m k q l : 1 <= m -> Forall (entry_ok u m) l -> Forall (entry_ok u (S m)) (tadd k (rnd q) q l).
Proof.
  intros HM HF. assert (HF' : Forall (entry_ok u (S m)) l) by (eapply Forall_impl; [|exact HF]; intros e; apply entry_mono; lia).
  unfold tadd. destruct (dget k l) as [[[x y] M]|] eqn:E.
  - assert (HE : entry_ok u m (k, (x, y, M))). { rewrite Forall_forall in HF. apply dget_in in E. exact (HF _ E). }
    destruct HE as [A B]. cbn [fst snd] in A, B.
    assert (HN : near u (S m) (M + qabs q) (rnd (x + rnd q)%Qc) (y + q)%Qc /\ (qabs (y + q) <= M + qabs q)%Qc).
    { assert (B' : (qabs (y + q) <= M + qabs q)%Qc) by (pose proof (qabs_add y q); qord). split; [|exact B'].
      apply (near_round u U0 rnd RE); [|exact B']. apply near_add; [exact A|].
      exact (near_mono u U0 1 m _ _ _ _ (near_once u U0 rnd RE q) HM (qabs_nonneg q) (Qcle_refl _)). }
    apply forall_set; auto; intros; exact HN.
  - assert (HN : near u (S m) (qabs q) (rnd q) q /\ (qabs q <= qabs q)%Qc).
    { split; [|apply Qcle_refl]. refine (near_mono u U0 1 (S m) _ _ _ _ (near_once u U0 rnd RE q) _ (qabs_nonneg q) (Qcle_refl _)). lia. }
    apply forall_set; auto; intros; exact HN.
Qed.
End Dict.

(** ** The rows *)
Section Rows.
Variables (u : Qc) (rnd : Qc -> Qc).
Hypothesis U0 : (0 <= u)%Qc.
Hypothesis RE : forall v, (qabs (rnd v - v) <= u * qabs v)%Qc.
Notation triple := (Qc * Qc * Qc)%type.
Definition rounded_of {K} (l : dict K triple) : dict K Qc := proj (fun t => fst (fst t)) l.
Definition exact_of_ {K} (l : dict K triple) : dict K Qc := proj (fun t => snd (fst t)) l.
Definition mass_of {K} (l : dict K triple) : dict K Qc := proj snd l.
(** The state after some rows. *)
Record follows_rows (done : list row) (g : LogicalModel.agg) (L : dict string triple) (Q : dict (string * string) triple) : Prop := {
  fr_lin : g_lin g = rounded_of L;
  fr_quad : g_quad g = rounded_of Q;
  fr_okl : Forall (entry_ok u (S (length done))) L;
  fr_okq : Forall (entry_ok u (S (length done))) Q;
  fr_sum : forall s, (dsum s (exact_of_ L) + dsum (fun ab => s (fst ab) * s (snd ab)) (exact_of_ Q))%Qc = csum [] s done;
  fr_mass : (dsum (fun _ => 1) (mass_of L) + dsum (fun _ => 1) (mass_of Q))%Qc = asum (map strength done);
  fr_exl : forall a, entry a (exact_of_ L) = qsum (map strength (filter (on_label a) done));
  fr_mal : forall a, entry a (mass_of L) = asum (map strength (filter (on_label a) done));
  fr_exq : forall a b, entry (a, b) (exact_of_ Q) = qsum (map strength (filter (on_pair a b) done));
  fr_maq : forall a b, entry (a, b) (mass_of Q) = asum (map strength (filter (on_pair a b) done));
  fr_nol : NoDup (dkeys (g_lin g));
  fr_noq : NoDup (dkeys (g_quad g)) }.
Lemma qsum_snoc l x : qsum (l ++ [x]) = (qsum l + x)%Qc.
Proof. rewrite qsum_app. cbn [qsum]. ring. Qed.
Lemma asum_snoc l x : asum (l ++ [x]) = (asum l + qabs x)%Qc.
Proof. unfold asum. rewrite map_app, qsum_app. cbn [map qsum]. ring. Qed.
Lemma entry_dadd {K} `{Eqb K} k k' q (d : dict K Qc) : entry k (dadd k' q d) = (entry k d + if eqb k k' then q else 0)%Qc.
Proof. unfold entry. rewrite dget_dadd. destruct (eqb k k'); [destruct (dget k d); ring|]. destruct (dget k d); ring. Qed.
Lemma fl_dadd_nodup {K} `{Eqb K} k q (d : dict K Qc) : NoDup (dkeys d) -> NoDup (dkeys (fl_dadd rnd k q d)).
Proof. intros ND. unfold fl_dadd. destruct (dget k d); apply dset_nodup; auto. Qed.
Lemma rows_follow l : forall done g L Q g', follows_rows done g L Q -> Forall (fun r => is_plain (r_coef r) /\ is_plain (r_scale r)) l ->
  fl_agg_rows rnd g l = Ok g' -> exists L' Q', follows_rows (done ++ l) g' L' Q'.
Proof.
  induction l as [|r l IH]; intros done g L Q g' HF HP E; cbn [fl_agg_rows] in E.
  - injection E as <-. rewrite app_nil_r. eauto.
  - inversion HP as [|? ? [[c Hc] [s Hs]] HP']; subst. destruct (fl_agg_row rnd g r) as [g1|] eqn:E1; [|discriminate].
    replace (done ++ r :: l) with ((done ++ [r]) ++ l) by (rewrite <- app_assoc; reflexivity).
    assert (HL : length (done ++ [r]) = S (length done)) by (rewrite app_length; cbn; lia).
    assert (HG : exists L1 Q1, follows_rows (done ++ [r]) g1 L1 Q1); [|destruct HG as (L1 & Q1 & HG); exact (IH _ _ _ _ _ HG HP' E)].
    unfold fl_agg_row in E1. destruct HF as [F1 F2 F3 F4 F5 F6 F7 F8 F9 F10 F11 F12].
    assert (KL : Forall (entry_ok u (S (S (length done)))) L) by (eapply Forall_impl; [|exact F3]; intros e; apply entry_mono; [exact U0|lia]).
    assert (KQ : Forall (entry_ok u (S (S (length done)))) Q) by (eapply Forall_impl; [|exact F4]; intros e; apply entry_mono; [exact U0|lia]).
    destruct (r_removed r) eqn:ER.
    + injection E1 as <-. assert (ES : strength r = 0%Qc) by (unfold strength; rewrite ER; reflexivity).
      exists L, Q. constructor; cbn [g_lin g_quad]; auto; try (rewrite HL; assumption).
      * intros s0. rewrite csum_app, csum_cons, csum_nil, <- F5. unfold contribution. rewrite ER. ring.
      * rewrite map_app. cbn [map]. rewrite asum_snoc, ES, <- F6. change (qabs 0) with 0%Qc. ring.
      * intros a. rewrite filter_app, map_app, qsum_app, <- F7. cbn [filter]. destruct (on_label a r); cbn [map qsum]; rewrite ?ES; ring.
      * intros a. rewrite filter_app, map_app, asum_app, <- F8. cbn [filter]. destruct (on_label a r); unfold asum; cbn [map qsum]; rewrite ?ES; try (change (qabs 0) with 0%Qc); ring.
      * intros a b. rewrite filter_app, map_app, qsum_app, <- F9. cbn [filter]. destruct (on_pair a b r); cbn [map qsum]; rewrite ?ES; ring.
      * intros a b. rewrite filter_app, map_app, asum_app, <- F10. cbn [filter]. destruct (on_pair a b r); unfold asum; cbn [map qsum]; rewrite ?ES; try (change (qabs 0) with 0%Qc); ring.
    + rewrite Hc, Hs in E1. cbv zeta in E1. assert (ES : strength r = (c * s)%Qc) by (unfold strength; rewrite ER, Hc, Hs, !value_num; reflexivity).
      assert (EC : forall s0, contribution [] s0 r = (strength r * monomial s0 (r_key r))%Qc) by (intros s0; unfold contribution, strength; rewrite ER; reflexivity).
      destruct (r_key r) as [x|x y] eqn:EK; injection E1 as <-.
      * exists (tadd rnd x (rnd (c * s)%Qc) (c * s)%Qc L), Q. constructor; cbn [g_lin g_quad]; auto; try (rewrite HL; assumption).
        -- rewrite F1. unfold rounded_of. rewrite tadd_rounded. reflexivity.
        -- rewrite HL. apply tadd_ok; auto. lia.
        -- intros s0. unfold exact_of_ at 1. rewrite tadd_exact, dsum_dadd, csum_app, csum_cons, csum_nil, <- F5, EC, ES. cbn [monomial]. unfold exact_of_. ring.
        -- unfold mass_of at 1. rewrite tadd_mass, dsum_dadd, map_app. cbn [map]. rewrite asum_snoc, ES, <- F6. unfold mass_of. ring.
        -- intros a. unfold exact_of_. rewrite tadd_exact, entry_dadd, filter_app, map_app, qsum_app, <- F7. cbn [filter]. unfold on_label. rewrite EK. change (eqb a x) with (String.eqb a x). unfold exact_of_. destruct (String.eqb a x); cbn [map qsum]; rewrite ?ES; ring.
        -- intros a. unfold mass_of. rewrite tadd_mass, entry_dadd, filter_app, map_app, asum_app, <- F8. cbn [filter]. unfold on_label. rewrite EK. change (eqb a x) with (String.eqb a x). unfold mass_of, asum. destruct (String.eqb a x); cbn [map qsum]; rewrite ?ES; ring.
        -- intros a b. rewrite filter_app, map_app, qsum_app, <- F9. cbn [filter]. unfold on_pair. rewrite EK. cbn [map qsum]. ring.
        -- intros a b. rewrite filter_app, map_app, asum_app, <- F10. cbn [filter]. unfold on_pair. rewrite EK. unfold asum. cbn [map qsum]. ring.
        -- apply fl_dadd_nodup. exact F11.
      * exists L, (tadd rnd (x, y) (rnd (c * s)%Qc) (c * s)%Qc Q). constructor; cbn [g_lin g_quad]; auto; try (rewrite HL; assumption).
        -- rewrite F2. unfold rounded_of. rewrite tadd_rounded. reflexivity.
        -- rewrite HL. apply tadd_ok; auto. lia.
        -- intros s0. unfold exact_of_ at 2. rewrite tadd_exact, dsum_dadd, csum_app, csum_cons, csum_nil, <- F5, EC, ES. cbn [monomial fst snd]. unfold exact_of_. ring.
        -- unfold mass_of at 2. rewrite tadd_mass, dsum_dadd, map_app. cbn [map]. rewrite asum_snoc, ES, <- F6. unfold mass_of. ring.
        -- intros a. rewrite filter_app, map_app, qsum_app, <- F7. cbn [filter]. unfold on_label. rewrite EK. cbn [map qsum]. ring.
        -- intros a. rewrite filter_app, map_app, asum_app, <- F8. cbn [filter]. unfold on_label. rewrite EK. unfold asum. cbn [map qsum]. ring.
        -- intros a b. unfold exact_of_. rewrite tadd_exact, entry_dadd, filter_app, map_app, qsum_app, <- F9. cbn [filter]. unfold on_pair. rewrite EK. change (eqb (a, b) (x, y)) with (String.eqb a x && String.eqb b y). unfold exact_of_. destruct (String.eqb a x && String.eqb b y); cbn [map qsum]; rewrite ?ES; ring.
        -- intros a b. unfold mass_of. rewrite tadd_mass, entry_dadd, filter_app, map_app, asum_app, <- F10. cbn [filter]. unfold on_pair. rewrite EK. change (eqb (a, b) (x, y)) with (String.eqb a x && String.eqb b y). unfold mass_of, asum. destruct (String.eqb a x && String.eqb b y); cbn [map qsum]; rewrite ?ES; ring.
        -- apply fl_dadd_nodup. exact F12.
Qed.
End Rows.
Lemma rows_start u : follows_rows u [] (mkAgg [] [] []) [] [].
Proof. constructor; cbn; intros; try constructor; ring. Qed.
Lemma mass_qsum {K} (l : dict K (Qc * Qc * Qc)) : dsum (fun _ => 1%Qc) (mass_of l) = qsum (map (fun e => snd (snd e)) l).
Proof. unfold dsum, mass_of, proj. rewrite map_map. cbn [fst snd]. induction l as [|e l IH]; cbn [map qsum]; auto. rewrite IH. ring. Qed.
Lemma entry_filter {K} `{Eqb K} (k : K) (d : dict K Qc) : NoDup (dkeys d) -> entry k (filter LogicalModel.nonzero d) = entry k d.
Proof.
  intros ND. unfold entry. rewrite dget_filter by exact ND. destruct (dget k d) as [v|]; auto. unfold LogicalModel.nonzero. cbn [snd]. destruct (Qc_eqb v 0) eqn:E; cbn [negb]; auto.
  unfold Qc_eqb in E. destruct (Qc_eq_dec v 0); [auto|discriminate].
Qed.
(** What came out of the interactions. *)
Lemma fl_follows u rnd m p : relative u rnd -> plain_model m -> m_len m = length (m_rows m) -> fl_to_physical rnd m = Ok p ->
  exists g L Q, follows_rows u (m_rows m) g L Q /\ fl_agg_rows rnd (mkAgg [] [] []) (m_rows m) = Ok g /\ p_mtype p = m_mtype m /\
    p_linear p = filter LogicalModel.nonzero (g_lin g) /\ p_quad p = filter LogicalModel.nonzero (g_quad g) /\ m_offset m = CNum (p_offset p).
Proof.
  intros [U0 RE] (_ & _ & HP) HL E. unfold fl_to_physical, visited in E. rewrite HL, Nat.leb_refl, firstn_all in E. cbn [rbind] in E.
  destruct (fl_agg_rows rnd (mkAgg [] [] []) (m_rows m)) as [g|] eqn:EG; [|discriminate]. cbn [rbind] in E. destruct (m_offset m) as [off| | |]; try discriminate. injection E as E.
  destruct (rows_follow u rnd U0 RE _ _ _ _ _ _ (rows_start u) HP EG) as (L & Q & HF). exists g, L, Q. split; [exact HF|]. split; [reflexivity|].
  revert E. unfold build_physical. destruct (index_labels _ _ _ _ _ _) as [l2i i2l]. intros <-. cbn. auto.
Qed.
Lemma near_entry {K} `{Eqb K} u m (k : K) (l : dict K (Qc * Qc * Qc)) : (0 <= u)%Qc -> Forall (entry_ok u m) l -> near u m (entry k (mass_of l)) (entry k (rounded_of l)) (entry k (exact_of_ l)).
Proof.
  intros U0 HF. unfold entry, mass_of, rounded_of, exact_of_. rewrite !proj_get. destruct (dget k l) as [[[x y] M]|] eqn:E.
  - rewrite Forall_forall in HF. apply dget_in in E. exact (proj1 (HF _ E)).
  - apply near_refl; [exact U0|apply Qcle_refl].
Qed.

(** ** C155 *)
(** Every coefficient of the physical model differs from the sum of coefficient * scale over the interactions on its label (its
    pair) by at most [(1 + u)^(n + 1) - 1] times the sum of their magnitudes, [n] being the number of interactions. *)
Theorem C155_coefficients : forall u rnd m p, relative u rnd -> plain_model m -> m_len m = length (m_rows m) -> fl_to_physical rnd m = Ok p ->
  (forall a, let l := map strength (filter (on_label a) (m_rows m)) in
     (qabs (entry a (p_linear p) - qsum l) <= drift u (S (length (m_rows m))) * asum l)%Qc) /\
  (forall a b, let l := map strength (filter (on_pair a b) (m_rows m)) in
     (qabs (entry (a, b) (p_quad p) - qsum l) <= drift u (S (length (m_rows m))) * asum l)%Qc).
Proof.
  intros u rnd m p RU HP HL E. destruct (fl_follows _ _ _ _ RU HP HL E) as (g & L & Q & [F1 F2 F3 F4 F5 F6 F7 F8 F9 F10 F11 F12] & _ & _ & EL & EQ & _). split.
  - intros a. cbv zeta. rewrite EL, entry_filter, F1, <- F7, <- F8 by exact F11. apply near_entry; [apply RU|exact F3].
  - intros a b. cbv zeta. rewrite EQ, entry_filter, F2, <- F9, <- F10 by exact F12. apply near_entry; [apply RU|exact F4].
Qed.
Lemma fl_entries u rnd m p : relative u rnd -> plain_model m -> m_len m = length (m_rows m) -> fl_to_physical rnd m = Ok p ->
  let k := S (length (m_rows m)) in
  (forall s, small s -> near u k (asum (map strength (m_rows m))) (energy_physical s p) (energy [] s m)) /\
  (asum (dvals (p_linear p)) + asum (dvals (p_quad p)) <= (1 + drift u k) * asum (map strength (m_rows m)))%Qc.
Proof.
  intros RU HP HL E. destruct (fl_follows _ _ _ _ RU HP HL E) as (g & L & Q & [F1 F2 F3 F4 F5 F6 F7 F8 F9 F10 F11 F12] & _ & _ & EL & EQ & EO). cbv zeta. destruct RU as [U0 RE].
  set (k := S (length (m_rows m))) in *.
  assert (NL : entries u k (rounded_of L) (exact_of_ L) (dsum (fun _ => 1%Qc) (mass_of L))) by (exists L; repeat split; auto; rewrite mass_qsum; apply Qcle_refl).
  assert (NQ : entries u k (rounded_of Q) (exact_of_ Q) (dsum (fun _ => 1%Qc) (mass_of Q))) by (exists Q; repeat split; auto; rewrite mass_qsum; apply Qcle_refl).
  split.
  - intros s HS. unfold energy_physical, energy. rewrite EO, value_num, EL, EQ. fold (csum [] s (m_rows m)).
    change (near u k (asum (map strength (m_rows m))) (- dsum s (filter LogicalModel.nonzero (g_lin g)) - dsum (fun ab => s (fst ab) * s (snd ab)) (filter LogicalModel.nonzero (g_quad g)) + p_offset p)%Qc (- csum [] s (m_rows m) + p_offset p)%Qc).
    rewrite !dsum_nonzero, F1, F2, <- F5, <- F6. pose proof (entries_dsum u U0 _ _ _ _ s NL HS) as H1.
    assert (HS2 : forall ab : string * string, exists z, (z = 0 \/ spinz z)%Z /\ (s (fst ab) * s (snd ab))%Qc = qz z).
    { intros [a b]. cbn [fst snd]. destruct (HS a) as (z & HZ & ->), (HS b) as (z' & HZ' & ->). exists (z * z')%Z. split; [|rewrite qz_mul; reflexivity]. unfold spinz in *. destruct HZ as [->|[->| ->]], HZ' as [->|[->| ->]]; auto. }
    pose proof (entries_dsum u U0 _ _ _ _ (fun ab => (s (fst ab) * s (snd ab))%Qc) NQ HS2) as H2.
    pose proof (near_neg u _ _ _ _ (near_add u _ _ _ _ _ _ _ H1 H2)) as H3. unfold near in *. eapply Qcle_trans; [|exact H3]. match goal with |- (qabs ?x <= qabs ?y)%Qc => replace x with y by ring end. apply Qcle_refl.
  - assert (FI : forall K (d : dict K Qc), (asum (dvals (filter LogicalModel.nonzero d)) <= asum (dvals d))%Qc).
    { intros K d. induction d as [|[x v] d IH]; [apply Qcle_refl|]. cbn [filter]. destruct (LogicalModel.nonzero (x, v)); unfold dvals in *; cbn [map snd]; rewrite ?asum_cons; pose proof (qabs_nonneg v); qord. }
    rewrite EL, EQ, F1, F2, <- F6. pose proof (FI _ (rounded_of L)). pose proof (FI _ (rounded_of Q)). pose proof (entries_asum u U0 _ _ _ _ NL). pose proof (entries_asum u U0 _ _ _ _ NQ).
    rewrite Qcmult_plus_distr_r. qord.
Qed.
(** On every sample the energy of the physical model differs from the energy of the logical model by at most
    [(1 + u)^(n + 1) - 1] times the sum of the magnitudes of its interactions. *)
Theorem C155_energy : forall u rnd m p s, relative u rnd -> plain_model m -> m_len m = length (m_rows m) -> fl_to_physical rnd m = Ok p -> small s ->
  (qabs (energy_physical s p - energy [] s m) <= drift u (S (length (m_rows m))) * asum (map strength (m_rows m)))%Qc.
Proof. intros u rnd m p s RU HP HL E HS. exact (proj1 (fl_entries _ _ _ _ RU HP HL E) s HS). Qed.

Lemma fl_dadd_from rnd {K} `{Eqb K} (P : K -> Qc -> Prop) k q (d : dict K Qc) : (forall x, P k (rnd x)) -> P k q -> Forall (fun e => P (fst e) (snd e)) d -> Forall (fun e => P (fst e) (snd e)) (fl_dadd rnd k q d).
Proof.
  intros H1 H2 HF. assert (HS : forall v, P k v -> Forall (fun e => P (fst e) (snd e)) (dset k v d)).
  { intros v HV. apply Forall_forall. intros [k' v'] HI. apply dset_in in HI. rewrite Forall_forall in HF. destruct HI as [[-> ->]|HI]; [exact HV|exact (HF _ HI)]. }
  unfold fl_dadd. destruct (dget k d); auto.
Qed.
Lemma rows_from rnd (O : string -> string -> Prop) l : (forall r a b, In r l -> r_key r = K2 a b -> O a b) -> forall g g', fl_agg_rows rnd g l = Ok g' ->
  Forall (fun e : string * Qc => exists w, snd e = rnd w) (g_lin g) -> Forall (fun e : string * string * Qc => O (fst (fst e)) (snd (fst e)) /\ exists w, snd e = rnd w) (g_quad g) ->
  Forall (fun e : string * Qc => exists w, snd e = rnd w) (g_lin g') /\ Forall (fun e : string * string * Qc => O (fst (fst e)) (snd (fst e)) /\ exists w, snd e = rnd w) (g_quad g').
Proof.
  induction l as [|r l IH]; intros HO g g' E H1 H2; cbn [fl_agg_rows] in E; [injection E as <-; auto|].
  destruct (fl_agg_row rnd g r) as [g1|] eqn:E1; [|discriminate]. apply (IH (fun r a b HI => HO r a b (or_intror HI)) _ _ E).
  - unfold fl_agg_row in E1. destruct (r_removed r); [injection E1 as <-; exact H1|]. destruct (r_coef r); try discriminate. destruct (r_scale r); try discriminate. destruct (r_key r); injection E1 as <-; cbn [g_lin]; auto.
    apply (fl_dadd_from rnd (fun _ v => exists w, v = rnd w)); eauto.
  - unfold fl_agg_row in E1. destruct (r_removed r); [injection E1 as <-; exact H2|]. destruct (r_coef r); try discriminate. destruct (r_scale r); try discriminate. destruct (r_key r) as [|x y] eqn:EK; injection E1 as <-; cbn [g_quad]; auto.
    assert (HX := HO r x y (or_introl eq_refl) EK). apply (fl_dadd_from rnd (fun ab v => O (fst ab) (snd ab) /\ exists w, v = rnd w)); eauto.
Qed.
(** From the logical model to the answer: every energy the solver reports differs from the energy of the logical model on the
    reported sample by at most [(1 + u)^k - 1] times the sum of the magnitudes of its interactions (and the offset three times),
    [k] being the number of roundings on the way. *)
Theorem C155_answer : forall u rnd order w m p ls o out s e c,
  relative u rnd -> (forall v, rnd (rnd v) = rnd v) -> rnd (value [] (m_offset m)) = value [] (m_offset m) ->
  plain_model m -> m_len m = length (m_rows m) -> Forall key_ok (m_rows m) -> fl_to_physical rnd m = Ok p ->
  (forall l, Permutation (order l) l) -> world_ok w -> well_indexed p ls -> legal_states p o ->
  fl_result rnd order w p o = Ok out -> In (s, e, c) (out_set out) ->
  (qabs (e - energy [] (value_of s) m) <=
     drift u (roundings (Z.to_nat (o_sweeps o)) (length ls) (length (p_quad p)) + S (length (m_rows m))) *
       (asum (map strength (m_rows m)) + qz 3 * qabs (value [] (m_offset m))))%Qc.
Proof.
  intros u rnd order w m p ls o out s e c RU RI RO HP HL HK E OR WO HW HS H HI.
  assert (SV : small (value_of s)).
  { destruct (C152_answer _ _ _ _ _ _ _ WO HW HS H) as (_ & _ & LG & _). destruct (LG _ _ _ HI) as (_ & LV & _). intros l. unfold value_of. destruct (dget l s) as [z|] eqn:EZ; [|exists 0%Z; split; auto].
    exists z. split; auto. rewrite Forall_forall in LV. apply dget_in in EZ. apply (in_map snd) in EZ. specialize (LV z EZ). unfold spinz. destruct (p_mtype p); cbn in LV; intuition auto. }
  destruct (fl_follows _ _ _ _ RU HP HL E) as (g & L & Q & [F1 F2 F3 F4 F5 F6 F7 F8 F9 F10 F11 F12] & EG & _ & EL & EQ & EO).
  destruct (rows_from rnd (fun a b => String.ltb a b = true) (m_rows m)) with (g := mkAgg [] [] []) (g' := g) as [G1 G2]; auto; [|constructor|constructor|].
  { intros r a b HR EK. rewrite Forall_forall in HK. destruct (HK r HR) as [_ K]. rewrite EK in K. exact K. }
  assert (FS : forall K (P : K * Qc -> Prop) (d : dict K Qc), Forall P d -> Forall P (filter LogicalModel.nonzero d)).
  { intros K P d HF. apply Forall_forall. intros x HX. apply filter_In in HX. rewrite Forall_forall in HF. apply HF. tauto. }
  assert (NF : forall K (d : dict K Qc), NoDup (dkeys d) -> NoDup (dkeys (filter LogicalModel.nonzero d))).
  { intros K d. unfold dkeys. induction d as [|x d IH]; cbn [filter map]; auto. intros ND. inversion ND as [|? ? N1 N2]; subst. destruct (LogicalModel.nonzero x); cbn [map]; auto. constructor; auto. intros HX. apply N1. apply in_map_iff in HX. destruct HX as (y & <- & HY). apply filter_In in HY. apply in_map. tauto. }
  apply FS in G1. apply FS in G2. rewrite <- EL in G1. rewrite <- EQ in G2.
  assert (NR : no_repeats p).
  { split; [rewrite EL; apply NF; exact F11|]. split; [rewrite EQ; apply NF; exact F12|]. intros x y H1 H2. rewrite Forall_forall in G2.
    apply in_map_iff in H1. destruct H1 as ([[x1 y1] v1] & E1 & H1). cbn in E1. injection E1 as -> ->. apply in_map_iff in H2. destruct H2 as ([[x2 y2] v2] & E2 & H2). cbn in E2. injection E2 as -> ->.
    apply G2 in H1. apply G2 in H2. destruct H1 as [H1 _], H2 as [H2 _]. cbn [fst snd] in H1, H2. apply ltb_asym in H1. rewrite H1 in H2. discriminate. }
  rewrite EO, value_num in RO |- *.
  assert (HC : Forall (fun v => rnd v = v) (coefs p)).
  { unfold coefs. constructor; [exact RO|]. apply Forall_app. split; apply Forall_forall; intros v HV; unfold dvals in HV; apply in_map_iff in HV; destruct HV as (x & <- & HX).
    - rewrite Forall_forall in G1. destruct (G1 x HX) as (v & ->). apply RI.
    - rewrite Forall_forall in G2. destruct (G2 x HX) as (_ & v & ->). apply RI. }
  pose proof (C151_error _ _ _ _ _ _ _ _ _ _ _ RU OR WO HW HS NR HC H HI) as B1. destruct (fl_entries _ _ _ _ RU HP HL E) as [B2 B3]. specialize (B2 _ SV).
  destruct RU as [U0 RE]. set (n := S (length (m_rows m))) in *. set (A := asum (map strength (m_rows m))) in *. set (R := roundings _ _ _) in *.
  assert (A0 : (0 <= A)%Qc) by (unfold A; apply asum_nonneg). pose proof (qabs_nonneg (p_offset p)) as O0. pose proof (drift_nonneg u U0 n) as D0.
  assert (T3 : (qz 3 * qabs (p_offset p) = qabs (p_offset p) + qabs (p_offset p) + qabs (p_offset p))%Qc) by (change 3%Z with (1 + 1 + 1)%Z; rewrite !qz_add, qz_1; ring).
  assert (T2 : (qz 2 * qabs (p_offset p) = qabs (p_offset p) + qabs (p_offset p))%Qc) by (change 2%Z with (1 + 1)%Z; rewrite !qz_add, qz_1; ring).
  assert (DO : (0 <= drift u n * (qabs (p_offset p) + qabs (p_offset p) + qabs (p_offset p)))%Qc) by (apply qmul_nonneg; auto; qord).
  refine (near_trans u U0 R n (asum (coefs p) + qz 2 * qabs (p_offset p))%Qc (A + qz 3 * qabs (p_offset p))%Qc _ _ _ B1 _ _ _); rewrite T3.
  - refine (near_mono u U0 n n A _ _ _ B2 (le_n _) A0 _). qord.
  - qord.
  - rewrite T2. unfold coefs. rewrite asum_cons, asum_app. rewrite !Qcmult_plus_distr_l, !Qcmult_1_l in *. rewrite !Qcmult_plus_distr_r in *. qord.
Qed.
(** Without rounding this is the physical model of LogicalModel.to_physical. *)
Theorem C155_no_rounding : forall ev evs fd m m' p, plain_model m -> to_physical ev evs fd m = (m', Ok p) -> fl_to_physical (fun v => v) m = Ok p.
Proof.
  intros ev evs fd m m' p (HC & [off HO] & HP) E. unfold to_physical in E. rewrite HC in E. change (merge_constrs ev evs 0 (dvals []) m) with (m, Ok tt) in E. cbv beta iota in E. unfold fl_to_physical. destruct (visited m) as [rows|] eqn:EV; [|discriminate]. cbn [rbind].
  assert (HR : Forall (fun r => is_plain (r_coef r) /\ is_plain (r_scale r)) rows).
  { unfold visited in EV. destruct (_ <=? _)%nat; [|discriminate]. injection EV as <-. apply Forall_forall. intros r HI. rewrite Forall_forall in HP. apply HP. rewrite <- (firstn_skipn (m_len m)). apply in_or_app. auto. }
  assert (EA : forall l g, Forall (fun r => is_plain (r_coef r) /\ is_plain (r_scale r)) l -> agg_rows fd g l = fl_agg_rows (fun v => v) g l).
  { induction l as [|r l IH]; intros g HF; [reflexivity|]. inversion HF as [|? ? [[x Hx] [y Hy]] HF']; subst. cbn [agg_rows fl_agg_rows].
    assert (E1 : agg_row fd g r = fl_agg_row (fun v => v) g r) by (unfold agg_row, fl_agg_row; rewrite Hx, Hy; destruct (r_removed r); reflexivity). rewrite E1. destruct (fl_agg_row _ g r); auto. }
  rewrite EA in E by exact HR. destruct (fl_agg_rows (fun v => v) (mkAgg [] [] []) rows) as [g|]; [|discriminate]. cbn [rbind]. rewrite HO in E |- *. cbn [ceval] in E. cbv zeta in E. match type of E with (match ?t with _ => _ end) = _ => destruct t as [m3 [[]|]] end; [|discriminate]. injection E as _ E. f_equal. exact E.
Qed.

(** ** A model whose coefficients are rounded *)
Definition m53 : lmodel := fst ((
  variables (VName "x") (ShTuple [ShInt 2]) ;;;
  add_interaction env0 (TVar (spn "x" 0)) (NStr "") (num (2 ^ 53)) (num 1) AtNone TsNone ;;;
  add_interaction env0 (TVar (spn "x" 0)) (NStr "again") (num 1) (num 1) AtNone TsNone ;;;
  add_interaction env0 (TTuple [EVar (spn "x" 1); EVar (spn "x" 0)]) (NStr "") (num 3) (num 2) AtNone TsNone ;;;
  set_offset (CNum (qz 4))) (new_model Ising)).
Definition p53 : physical := match fl_to_physical nearest m53 with Ok p => p | Err _ => wide end.
Definition o53 : options := mkOptions 1 1 (qfrac 1 2) (qz 10) (Some [[("x[0]", 1%Z); ("x[1]", 1%Z)]]) RNone "sequential" None.
Lemma nearest_twice v : nearest (nearest v) = nearest v.
Proof.
  unfold nearest at 2 3. destruct (_ && _ && _ && _) eqn:EC; [|unfold nearest; rewrite EC; reflexivity]. apply andb_true_iff in EC. destruct EC as [_ EO]. set (n := Qnum (this v)) in *.
  set (k := if ((n - 1) mod 4 =? 0)%Z then (n - 1)%Z else (n + 1)%Z).
  assert (HK : Z.odd k = false).
  { unfold k. clear -EO. clearbody n. destruct ((n - 1) mod 4 =? 0)%Z; [rewrite Z.odd_sub|rewrite Z.odd_add]; rewrite EO; reflexivity. }
  assert (HQ : Qnum (this (qz k)) = k).
  { unfold qz. cbn [this Q2Qc inject_Z]. unfold Qred, inject_Z. pose proof (Z.ggcd_correct_divisors k 1) as D. pose proof (Z.ggcd_gcd k 1) as G. destruct (Z.ggcd k 1) as [g [aa bb]]. cbn [fst snd] in *. destruct D as [D1 D2]. rewrite Z.gcd_1_r in G. subst g. cbn [Qnum]. lia. }
  unfold nearest. rewrite HQ, HK, andb_false_r. reflexivity.
Qed.
Lemma p53_indexed : well_indexed p53 ["x[0]"; "x[1]"].
Proof.
  assert (E1 : p_l2i p53 = [("x[0]", 0); ("x[1]", 1)]) by (vm_compute; reflexivity). assert (E2 : dkeys (p_linear p53) = ["x[0]"]) by (vm_compute; reflexivity). assert (E3 : dkeys (p_quad p53) = [("x[0]", "x[1]")]) by (vm_compute; reflexivity).
  split; [repeat constructor; simpl; intuition discriminate|]. split; [|split; [vm_compute; reflexivity|]].
  - intros l i. rewrite E1. cbn [dget]. destruct (eqb l "x[0]") eqn:L1.
    + apply eqb_eq in L1. subst. split; [intros H; inversion H; reflexivity|]. destruct i as [|[|[|i]]]; cbn; intros H; inversion H; auto.
    + destruct (eqb l "x[1]") eqn:L2.
      * apply eqb_eq in L2. subst. split; [intros H; inversion H; reflexivity|]. destruct i as [|[|[|i]]]; cbn; intros H; inversion H; auto.
      * split; [discriminate|]. destruct i as [|[|[|i]]]; cbn; intros H; inversion H; subst; rewrite ?eqb_refl in *; discriminate.
  - intros l. unfold occurs. rewrite E2, E3. cbn. split.
    + intros [<-|[<-|[]]]; [left; auto|right]. exists "x[0]", "x[1]". auto.
    + intros [[<-|[]]|(a & b & [H|[]] & HL)]; [auto|]. inversion H; subst. destruct HL; subst; auto.
Qed.
(** The hypotheses are met by a model whose first coefficient is rounded and whose reported energy is not the true one. *)
Example C155_hyps : relative ulp53 nearest /\ (forall v, nearest (nearest v) = nearest v) /\ nearest (value [] (m_offset m53)) = value [] (m_offset m53) /\
  plain_model m53 /\ m_len m53 = length (m_rows m53) /\ Forall key_ok (m_rows m53) /\ fl_to_physical nearest m53 = Ok p53 /\
  qsum (map strength (filter (on_label "x[0]") (m_rows m53))) <> entry "x[0]" (p_linear p53) /\
  world_ok world0 /\ well_indexed p53 ["x[0]"; "x[1]"] /\ legal_states p53 o53 /\
  exists out s e c, fl_result nearest (@rev Qc) world0 p53 o53 = Ok out /\ In (s, e, c) (out_set out) /\ e <> energy [] (value_of s) m53.
Proof.
  split; [apply nearest_relative|]. split; [apply nearest_twice|]. split; [apply Qc_is_canon; vm_compute; reflexivity|]. split; [|split; [reflexivity|split; [|split; [|split; [|split; [apply world0_ok|split; [apply p53_indexed|split]]]]]]].
  - split; [reflexivity|]. split; [eexists; vm_compute; reflexivity|]. repeat constructor; eexists; vm_compute; reflexivity.
  - repeat constructor.
  - unfold p53. destruct (fl_to_physical nearest m53) as [p|] eqn:E; auto. vm_compute in E. discriminate.
  - intros H. apply (f_equal this) in H. vm_compute in H. discriminate.
  - intros s l z [<-|[]] _ H. cbn in H. replace (p_mtype p53) with Ising by (vm_compute; reflexivity). cbn [legal]. destruct (String.eqb l "x[0]"); [inversion H; auto|]. destruct (String.eqb l "x[1]"); [inversion H; auto|discriminate].
  - assert (B : match fl_result nearest (@rev Qc) world0 p53 o53 with Ok out => match out_set out with [(s, e, c)] => negb (Qc_eqb e (energy [] (value_of s) m53)) | _ => false end | Err _ => false end = true) by (vm_compute; reflexivity).
    destruct (fl_result nearest (@rev Qc) world0 p53 o53) as [out|]; [|discriminate]. destruct (out_set out) as [|[[s e] c] [|]] eqn:ES; try discriminate.
    exists out, s, e, c. split; [reflexivity|]. split; [rewrite ES; left; reflexivity|]. intros HE. apply negb_true_iff in B. unfold Qc_eqb in B. destruct (Qc_eq_dec e _) as [|NE]; [discriminate|]. contradiction.
Qed.
Print Assumptions C155_coefficients.
Print Assumptions C155_energy.
Print Assumptions C155_answer.
Print Assumptions C155_no_rounding.
