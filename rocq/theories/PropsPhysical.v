(** * PropsPhysical: C09-C14, the physical model produced by to_physical. *)
From Verif Require Import PyBase PyLemmas Constraint LogicalModel Spec LogicalProofs EnergyProofs ConvertProofs
  ConstraintProofs MergeProofs PhysicalProofs ToPhysicalProofs Indep Samples.
Open Scope list_scope.

(** ** C09: energy *)

(** Energy of the physical model = energy of the logical model + energies of
    the constraints' own models, for every assignment. *)
Theorem C09_to_physical_energy : forall ev evs fd m m' p,
  m_len m = length (m_rows m) ->
  to_physical ev evs fd m = (m', Ok p) ->
  exists cms, cmodels evs 0 (m_mtype m) (dvals (m_constrs m)) = Ok cms /\ resolved fd m /\
    forall s, energy_physical s p = (energy fd s m + qsum (map (energy fd s) cms))%Qc.
Proof.
  intros ev evs fd m m' p HL E. destruct (to_physical_ok _ _ _ _ _ _ HL E) as (cms & HC & HR & ->).
  exists cms. split; auto. split; auto. intros s. apply phys_energy.
Qed.
Theorem C09_no_constraints : forall ev evs fd m m' p,
  m_len m = length (m_rows m) -> m_constrs m = [] ->
  to_physical ev evs fd m = (m', Ok p) -> forall s, energy_physical s p = energy fd s m.
Proof.
  intros ev evs fd m m' p HL HC E s. destruct (to_physical_ok _ _ _ _ _ _ HL E) as (cms & HC' & HR & ->).
  rewrite HC in HC'. inversion HC'; subst. rewrite phys_energy. unfold sum_energy; simpl. ring.
Qed.
(** QUBO: the constraints contribute exactly their penalties. *)
Theorem C09_qubo : forall ev evs fd m m' p x,
  m_len m = length (m_rows m) -> m_mtype m = Qubo -> Forall constr_ok (dvals (m_constrs m)) ->
  to_physical ev evs fd m = (m', Ok p) -> binary x ->
  energy_physical x p = (energy fd x m + penalties x (dvals (m_constrs m)))%Qc.
Proof.
  intros ev evs fd m m' p x HL HT HO E HB. destruct (to_physical_ok _ _ _ _ _ _ HL E) as (cms & HC & HR & ->).
  rewrite phys_energy. f_equal. rewrite HT in HC. unfold sum_energy, penalties. generalize 0 HC. clear HC E.
  revert cms. induction (dvals (m_constrs m)) as [|c cs IH]; intros cms k HC; simpl in HC.
  - inversion HC; reflexivity.
  - inversion HO; subst. destruct (cmodel (evs k) Qubo c) as [cm|] eqn:EC; [|discriminate].
    destruct (cmodels evs (S k) Qubo cs) as [l|] eqn:EL; [|discriminate]. inversion HC; subst. simpl.
    rewrite (cmodel_energy_qubo _ _ _ fd x EC); auto. f_equal. eapply IH; eauto.
Qed.
(** Ising: the penalties, and the constant by which each constraint's model is shifted. *)
Theorem C09_ising : forall ev evs fd m m' p s,
  m_len m = length (m_rows m) -> m_mtype m = Ising -> Forall constr_ok (dvals (m_constrs m)) ->
  to_physical ev evs fd m = (m', Ok p) -> spin s ->
  energy_physical s p = (energy fd s m + penalties (to_binary s) (dvals (m_constrs m)) + qsum (map ising_shift (dvals (m_constrs m))))%Qc.
Proof.
  intros ev evs fd m m' p s HL HT HO E HS. destruct (to_physical_ok _ _ _ _ _ _ HL E) as (cms & HC & HR & ->).
  rewrite phys_energy, <- Qcplus_assoc. f_equal. rewrite HT in HC. unfold sum_energy, penalties. generalize 0 HC. clear HC E.
  revert cms. induction (dvals (m_constrs m)) as [|c cs IH]; intros cms k HC; simpl in HC.
  - inversion HC; simpl; ring.
  - inversion HO; subst. destruct (cmodel (evs k) Ising c) as [cm|] eqn:EC; [|discriminate].
    destruct (cmodels evs (S k) Ising cs) as [l|] eqn:EL; [|discriminate]. inversion HC; subst. simpl.
    rewrite (cmodel_energy_ising _ _ _ fd s EC), (IH H2 _ _ EL) by assumption. ring.
Qed.
(** to_physical does return a physical model: for every aligned model with
    unique names whose placeholders are given, whose constraints' models can be
    built and none of whose pending removals is named like an interaction of a
    constraint's model. *)
Theorem C09_to_physical_succeeds : forall ev evs fd m cms,
  aligned m -> names_unique m -> resolved fd m ->
  cmodels evs 0 (m_mtype m) (dvals (m_constrs m)) = Ok cms ->
  (forall r cm, In r (m_rows m) -> r_removed r = true -> In cm cms -> ~ In (r_name r) (names cm)) ->
  exists m' p, to_physical ev evs fd m = (m', Ok p).
Proof.
  intros ev evs fd m cms HA HU HR HC HP.
  destruct (to_physical_purged ev evs fd m cms HA HU HC HR) as (m' & E & _); eauto.
  intros r Hr HX HI. apply in_flat_map in HI. destruct HI as (cm & H1 & H2). eapply HP; eauto.
Qed.

Example C09_hyps_qubo : exists m' p, to_physical env0 evs0 feed0 qubo_model = (m', Ok p) /\
  m_len qubo_model = length (m_rows qubo_model) /\ m_mtype qubo_model = Qubo /\
  Forall constr_ok (dvals (m_constrs qubo_model)) /\ length (p_quad p) = 4 /\ length (p_linear p) = 4.
Proof.
  destruct (to_physical env0 evs0 feed0 qubo_model) as [m' [p|e]] eqn:E; [|vm_compute in E; discriminate].
  exists m', p. split; auto. split; [reflexivity|]. split; [reflexivity|]. split.
  - repeat constructor; simpl; intuition discriminate.
  - pose proof (f_equal (fun z => match snd z with Ok p => (length (p_quad p), length (p_linear p)) | _ => (0, 0) end) E) as HH.
    vm_compute in HH. inversion HH. auto.
Qed.
Example C09_hyps_ising : exists m' p, to_physical env0 evs0 feed0 ising_con = (m', Ok p) /\
  m_len ising_con = length (m_rows ising_con) /\ m_mtype ising_con = Ising /\
  Forall constr_ok (dvals (m_constrs ising_con)).
Proof.
  destruct (to_physical env0 evs0 feed0 ising_con) as [m' [p|e]] eqn:E; [|vm_compute in E; discriminate].
  exists m', p. split; auto. split; [reflexivity|]. split; [reflexivity|].
  repeat constructor; simpl; intuition discriminate.
Qed.
Example C09_hyps_none : exists m' p, to_physical env0 evs0 feed0 ising_model = (m', Ok p) /\ m_constrs ising_model = [].
Proof.
  destruct (to_physical env0 evs0 feed0 ising_model) as [m' [p|e]] eqn:E; [|vm_compute in E; discriminate].
  exists m', p. auto.
Qed.
Example C09_hyps_succeeds : exists cms, cmodels evs0 0 (m_mtype ising_con) (dvals (m_constrs ising_con)) = Ok cms /\
  (forall r cm, In r (m_rows ising_con) -> r_removed r = true -> In cm cms -> ~ In (r_name r) (names cm)) /\
  aligned ising_con /\ names_unique ising_con /\ resolved feed0 ising_con.
Proof.
  assert (HB : match cmodels evs0 0 (m_mtype ising_con) (dvals (m_constrs ising_con)) with
               Ok cms => purgeableb ising_con cms | Err _ => false end = true) by (vm_compute; reflexivity).
  destruct (cmodels evs0 0 (m_mtype ising_con) (dvals (m_constrs ising_con))) as [cms|] eqn:E; [|discriminate].
  exists cms. split; auto. split.
  - apply purgeableb_ok; auto.
  - split; [apply icon_al|]. split; [apply icon_wf|apply icon_res].
Qed.

(** ** C10: coefficients *)

Theorem C10_coefficients : forall ev evs fd m m' p,
  m_len m = length (m_rows m) -> to_physical ev evs fd m = (m', Ok p) ->
  exists cms, cmodels evs 0 (m_mtype m) (dvals (m_constrs m)) = Ok cms /\
    let rows := m_rows m ++ flat_map m_rows cms in
    NoDup (dkeys (p_linear p)) /\ NoDup (dkeys (p_quad p)) /\
    (forall a, lin_total fd rows a = 0%Qc -> dget a (p_linear p) = None) /\
    (forall a, lin_total fd rows a <> 0%Qc -> dget a (p_linear p) = Some (lin_total fd rows a)) /\
    (forall a b, quad_total fd rows a b = 0%Qc -> dget (a, b) (p_quad p) = None) /\
    (forall a b, quad_total fd rows a b <> 0%Qc -> dget (a, b) (p_quad p) = Some (quad_total fd rows a b)).
Proof.
  intros ev evs fd m m' p HL E. destruct (to_physical_ok _ _ _ _ _ _ HL E) as (cms & HC & HR & ->).
  exists cms. split; auto. intros rows. destruct (phys_nodup fd m cms) as [N1 N2].
  split; [auto|]. split; [auto|]. split; [|split; [|split]]; intros *.
  - intros HH. rewrite phys_linear. destruct (Qc_eq_dec _ _); auto. contradiction.
  - intros HH. rewrite phys_linear. destruct (Qc_eq_dec _ _); auto. contradiction.
  - intros HH. rewrite phys_quad. destruct (Qc_eq_dec _ _); auto. contradiction.
  - intros HH. rewrite phys_quad. destruct (Qc_eq_dec _ _); auto. contradiction.
Qed.
(** In the sample the two interactions on (x[0], x[1]) cancel and are absent. *)
Example C10_hyps : exists m' p, to_physical env0 evs0 feed0 ising_model = (m', Ok p) /\
  dkeys (p_linear p) = ["x[0]"%string] /\ dkeys (p_quad p) = [("x[1]"%string, "x[2]"%string)].
Proof.
  destruct (to_physical env0 evs0 feed0 ising_model) as [m' [p|e]] eqn:E; [|vm_compute in E; discriminate].
  exists m', p. split; auto.
  pose proof (f_equal (fun z => match snd z with Ok p => (dkeys (p_linear p), dkeys (p_quad p)) | _ => ([], []) end) E) as HH.
  vm_compute in HH. inversion HH. auto.
Qed.

(** ** C11: the logical model afterwards *)

Theorem C11_frame : forall ev evs fd m m' p cms,
  aligned m -> names_unique m ->
  cmodels evs 0 (m_mtype m) (dvals (m_constrs m)) = Ok cms ->
  (forall r cm, In r (m_rows m) -> r_removed r = true -> In cm cms -> ~ In (r_name r) (names cm)) ->
  to_physical ev evs fd m = (m', Ok p) ->
  m_mtype m' = m_mtype m /\ m_vars m' = m_vars m /\ m_offset m' = m_offset m /\
  m_deleted m' = m_deleted m /\ m_fixed m' = m_fixed m /\ m_constrs m' = m_constrs m /\
  m_attrs m' = m_attrs m /\ m_prev m' = Some p /\
  m_rows m' = map (set_dirty false) (filter (fun r => negb (r_removed r)) (m_rows m)) /\
  (forall r a, In r (m_rows m) -> active r -> attr_of m' (r_name r) a = attr_of m (r_name r) a) /\
  aligned m' /\ names_unique m'.
Proof.
  intros ev evs fd m m' p cms HA HU HC HP E.
  destruct (to_physical_ok _ _ _ _ _ _ (proj1 HA) E) as (cms' & HC' & HR & ->).
  rewrite HC in HC'. inversion HC'; subst cms'.
  destruct (to_physical_purged ev evs fd m cms HA HU HC HR) as (m2 & E2 & [P1 P2 P3 P4]).
  { intros r Hr HX HI. apply in_flat_map in HI. destruct HI as (cm & H1 & H2). eapply HP; eauto. }
  rewrite E in E2. inversion E2; subst m2. unfold frame2, frame in P2. simpl in P2. inversion P2.
  do 11 (split; [auto|]). unfold names_unique, names. rewrite P1, map_map. simpl.
  clear -HU. unfold names_unique, names in HU. induction (m_rows m) as [|r l IH]; simpl in *; [constructor|].
  inversion HU; subst. destruct (kept r); simpl; auto. constructor; auto.
  intros HI. apply H1. apply in_map_iff in HI. destruct HI as (r' & HE & HI). apply filter_In in HI. apply in_map_iff. exists r'; tauto.
Qed.
(** A second call - at any later time, with any ids - gives the same physical
    model, whenever it returns; for QUBO models (and for Ising models without
    constraints) it does return. *)
Theorem C11_again : forall ev evs ev2 evs2 fd m m' p cms,
  aligned m -> names_unique m ->
  cmodels evs 0 (m_mtype m) (dvals (m_constrs m)) = Ok cms ->
  (forall r cm, In r (m_rows m) -> r_removed r = true -> In cm cms -> ~ In (r_name r) (names cm)) ->
  to_physical ev evs fd m = (m', Ok p) ->
  (forall m2 p2, to_physical ev2 evs2 fd m' = (m2, Ok p2) -> p2 = p /\ m2 = m') /\
  ((m_mtype m = Qubo \/ m_constrs m = [] \/ evs2 = evs) -> to_physical ev2 evs2 fd m' = (m', Ok p)).
Proof.
  intros ev evs ev2 evs2 fd m m' p cms HA HU HC HP E.
  pose proof (C11_frame _ _ _ _ _ _ _ HA HU HC HP E) as (F1&F2&F3&F4&F5&F6&F7&F8&F9&F10&F11&F12).
  destruct (to_physical_ok _ _ _ _ _ _ (proj1 HA) E) as (cms' & HC' & HR & HPE).
  rewrite HC in HC'. inversion HC'; subst cms'. clear HC'.
  assert (PG : purged m p m').
  { constructor; auto. unfold frame2, frame; simpl. congruence. }
  assert (NR : filter (fun r => negb (r_removed r)) (m_rows m') = m_rows m' /\ map (set_dirty false) (m_rows m') = m_rows m').
  { rewrite F9. clear. induction (m_rows m) as [|r l [IH1 IH2]]; simpl; auto. destruct (r_removed r) eqn:ER; simpl; auto.
    rewrite ER; simpl. rewrite IH1. split; [reflexivity|]. f_equal. apply IH2. }
  assert (HR' : resolved fd m').
  { split; [|rewrite F3; apply HR]. intros r Hr HAr. rewrite F9 in Hr. apply in_map_iff in Hr.
    destruct Hr as (r0 & <- & Hr). apply filter_In in Hr. destruct Hr as [Hr HX]. simpl.
    apply (proj1 HR); auto. }
  assert (KEY : forall cms2, cmodels evs2 0 (m_mtype m') (dvals (m_constrs m')) = Ok cms2 ->
             to_physical ev2 evs2 fd m' = (m', Ok p)).
  { intros cms2 HC2.
    destruct (to_physical_purged ev2 evs2 fd m' cms2 F11 F12 HC2 HR') as (m2 & E2 & P2).
    { intros r Hr HX. exfalso. rewrite <- (proj1 NR) in Hr. apply filter_In in Hr. rewrite HX in Hr. simpl in Hr. destruct Hr; discriminate. }
    assert (HS : Forall2 same_terms cms cms2).
    { rewrite F1, F6 in HC2. eapply cmodels_indep; eauto. }
    rewrite (phys_again fd m m' p cms cms2 PG HS) in E2, P2. rewrite <- HPE in E2, P2. rewrite E2. f_equal.
    pose proof (pg_rows _ _ _ P2) as R2. unfold kept in R2.
    rewrite (proj1 NR), (proj2 NR) in R2.
    pose proof (pg_frame _ _ _ P2) as FF. unfold frame2, frame in FF; simpl in FF. inversion FF.
    destruct (pg_al _ _ _ P2) as (L2 & C2 & N2 & W2). destruct F11 as (L1 & C1 & N1 & W1).
    assert (HL : m_len m2 = m_len m') by (rewrite L2, L1, R2; auto).
    assert (HCOL : m_cols m2 = m_cols m').
    { assert (HK : dkeys (m_cols m2) = dkeys (m_cols m')) by congruence.
      assert (HV : forall k i, attr_val m2 i k = attr_val m' i k).
      { intros k i. destruct (Nat.lt_ge_cases i (m_len m')) as [Hi|Hi].
        - rewrite L1 in Hi. destruct (nth_error (m_rows m') i) as [r|] eqn:ER; [|apply nth_error_None in ER; lia].
          assert (Hin : In r (m_rows m')) by (eapply nth_error_In; eauto).
          assert (Hact : active r). { rewrite <- (proj1 NR) in Hin. apply filter_In in Hin. unfold active. destruct (r_removed r); simpl in Hin; destruct Hin; auto; discriminate. }
          pose proof (pg_attr _ _ _ P2 r k Hin Hact) as HQ. unfold attr_of in HQ.
          assert (HI : index_of (r_name r) (names m') = Some i).
          { destruct (nth_error_split_mid _ _ _ ER) as (l1 & l2 & EL & ELn). unfold names. rewrite EL, map_app. simpl.
            rewrite index_of_mid, map_length, ELn; auto. unfold names_unique, names in F12. rewrite EL, map_app in F12. simpl in F12.
            apply NoDup_remove_2 in F12. rewrite in_app_iff in F12. tauto. }
          unfold names in HQ, HI. rewrite R2 in HQ. rewrite HI in HQ. auto.
        - unfold attr_val.
          assert (A1 : forall c, dget k (m_cols m2) = Some c -> length c = m_len m').
          { intros c Hc. rewrite <- HL. rewrite Forall_forall in W2. apply (W2 (k, c)). eapply dget_in; eauto. }
          assert (A2 : forall c, dget k (m_cols m') = Some c -> length c = m_len m').
          { intros c Hc. rewrite Forall_forall in W1. apply (W1 (k, c)). eapply dget_in; eauto. }
          destruct (dget k (m_cols m2)); destruct (dget k (m_cols m')); try rewrite !nth_overflow; auto;
            try rewrite (A1 _ eq_refl); try rewrite (A2 _ eq_refl); auto. }
      assert (NK : NoDup (dkeys (m_cols m'))) by (rewrite C1; auto).
      clear -HK HV NK W1 W2 HL. unfold attr_val in HV. revert HK HV NK W1 W2. rewrite HL.
      generalize (m_cols m') (m_cols m2). intros d d'. revert d'.
      induction d as [|[k c] d IH]; intros [|[k' c'] d'] HK HV NK W1 W2; simpl in *; try discriminate; auto.
      injection HK as HK0 HK1. subst k'. inversion NK; subst. inversion W1 as [|? ? HW1 W1']; subst. inversion W2 as [|? ? HW2 W2']; subst. simpl in *. f_equal.
      - f_equal. apply (nth_ext _ _ ANan ANan); [congruence|]. intros i _. specialize (HV k i). rewrite String.eqb_refl in HV. auto.
      - apply IH; auto. intros k0 i. specialize (HV k0 i). destruct (String.eqb k0 k) eqn:EQ; auto.
        apply String.eqb_eq in EQ; subst k0.
        assert (X1 : dget k d = None) by (apply dget_none; auto).
        assert (X2 : dget k d' = None) by (apply dget_none; unfold dkeys in *; rewrite HK1; auto).
        rewrite X1, X2. auto. }
    destruct m2, m'. simpl in *. subst. inversion FF. subst. reflexivity. }
  split.
  - intros m2 p2 E2. destruct (to_physical_ok _ _ _ _ _ _ (proj1 F11) E2) as (cms2 & HC2 & _ & _).
    rewrite (KEY _ HC2) in E2. inversion E2; auto.
  - intros [HQ|[HN|HE]].
    + rewrite HQ in HC. destruct (cmodels_qubo_ok evs evs2 _ 0 0 _ HC) as (cms2 & HC2 & _).
      apply (KEY cms2). rewrite F1, F6, HQ. exact HC2.
    + apply (KEY []). rewrite F6, HN. reflexivity.
    + subst evs2. apply (KEY cms). rewrite F1, F6. auto.
Qed.
Example C11_hyps : exists cms m' p, cmodels evs0 0 (m_mtype qubo_model) (dvals (m_constrs qubo_model)) = Ok cms /\
  (forall r cm, In r (m_rows qubo_model) -> r_removed r = true -> In cm cms -> ~ In (r_name r) (names cm)) /\
  to_physical env0 evs0 feed0 qubo_model = (m', Ok p) /\ m_mtype qubo_model = Qubo /\
  aligned qubo_model /\ names_unique qubo_model /\ length (m_rows m') = 2 /\ length (m_rows qubo_model) = 3.
Proof.
  assert (HB : match cmodels evs0 0 (m_mtype qubo_model) (dvals (m_constrs qubo_model)) with
               Ok cms => purgeableb qubo_model cms | Err _ => false end = true) by (vm_compute; reflexivity).
  destruct (cmodels evs0 0 (m_mtype qubo_model) (dvals (m_constrs qubo_model))) as [cms|] eqn:E; [|discriminate].
  destruct (to_physical env0 evs0 feed0 qubo_model) as [m' [p|e]] eqn:E2; [|vm_compute in E2; discriminate].
  exists cms, m', p. split; auto. split; [apply purgeableb_ok; auto|]. split; auto. split; [reflexivity|].
  split; [apply qubo_al|]. split; [apply qubo_wf|]. split; [|reflexivity].
  pose proof (f_equal (fun z => length (m_rows (fst z))) E2) as HH. vm_compute in HH. auto.
Qed.

(** ** C12: exception safety *)

(** Full statement: if to_physical raises, the logical model is unchanged. It
    holds for models without constraints. *)
Theorem C12_no_constraints_partial : forall ev evs fd m m' e,
  aligned m -> names_unique m -> m_constrs m = [] ->
  to_physical ev evs fd m = (m', Err e) -> m' = m /\ e = PlaceholderError /\ ~ resolved fd m.
Proof.
  intros ev evs fd m m' e HA HU HC E.
  assert (HM : merged m [] m) by (apply merged_nil; apply HA).
  rewrite to_physical_after, HC in E. simpl in E.
  destruct (after_merge_eq fd m [] m HM (Forall_nil _)) as [H1 H2].
  assert (RD : resolved fd m \/ ~ resolved fd m).
  { rewrite resolved_rows. unfold resolves.
    destruct (Forall_dec (row_resolved fd) (row_resolved_dec fd) (m_rows m)); [|tauto].
    destruct (ceval fd (m_offset m)); [left; split; auto; discriminate|]. right. intros [_ HX]; auto. }
  destruct RD as [HR|HR].
  - exfalso. destruct (H1 HR) as (rem & HP & EQ). rewrite EQ in E.
    destruct (purge_result m [] rem (phys fd m []) HA HU) as (m3 & E3 & _); auto.
    { intros r _ _ []. }
    rewrite E3 in E. discriminate.
  - rewrite (H2 HR) in E. inversion E; subst; auto.
Qed.
(** With constraints it does not: the constraint's interactions stay in the
    logical model, and change its energy from then on. *)
Theorem C12_refuted : exists m m1 s,
  m = fst (qubo_ops (new_model Qubo)) /\ aligned m /\ well_formed m /\
  to_physical env0 evs0 [] m = (m1, Err PlaceholderError) /\
  m_rows m1 <> m_rows m /\ energy feed0 s m1 <> energy feed0 s m.
Proof.
  assert (R : snd (to_physical env0 evs0 [] qubo_model) = Err PlaceholderError) by (vm_compute; reflexivity).
  exists qubo_model, (fst (to_physical env0 evs0 [] qubo_model)), (fun _ => 1%Qc).
  split; [reflexivity|]. split; [apply qubo_al|]. split; [apply qubo_wf|]. split; [|split].
  - rewrite <- R. destruct (to_physical env0 evs0 [] qubo_model); reflexivity.
  - intros H. apply (f_equal (@length row)) in H. vm_compute in H. discriminate.
  - intros H. apply (f_equal this) in H. vm_compute in H. discriminate.
Qed.
(** A model with unique names and every placeholder given is rejected because a
    removed interaction is named like an interaction of a constraint. *)
Definition clash_model : lmodel :=
  fst ((add_interaction env0 (TVar (bin "q" 3)) (NStr "q[0] (one)") (num 1) (num 1) AtNone TsNone ;;;
        remove_interaction TNone (NStr "q[0] (one)"))%py qubo_model).
Theorem C12_clash_refuted : exists m1, to_physical env0 evs0 feed0 clash_model = (m1, Err ValueError) /\
  aligned clash_model /\ well_formed clash_model /\ resolved feed0 clash_model.
Proof.
  assert (R : snd (to_physical env0 evs0 feed0 clash_model) = Err ValueError) by (vm_compute; reflexivity).
  exists (fst (to_physical env0 evs0 feed0 clash_model)). split.
  - rewrite <- R. destruct (to_physical env0 evs0 feed0 clash_model); reflexivity.
  - split; [apply alignedb_ok; vm_compute; reflexivity|]. split; [apply wfb_ok; vm_compute; reflexivity|apply resolvedb_ok; vm_compute; reflexivity].
Qed.
Example C12_hyps : exists m', to_physical env0 evs0 [] ising_model = (m', Err PlaceholderError) /\
  aligned ising_model /\ names_unique ising_model /\ m_constrs ising_model = [].
Proof.
  assert (R : snd (to_physical env0 evs0 [] ising_model) = Err PlaceholderError) by (vm_compute; reflexivity).
  exists (fst (to_physical env0 evs0 [] ising_model)). split.
  - rewrite <- R. destruct (to_physical env0 evs0 [] ising_model); reflexivity.
  - split; [apply ising_al|]. split; [apply ising_wf|reflexivity].
Qed.

(** ** C13: index maps *)

Theorem C13_index_bijection : forall ev evs fd m m' p,
  m_len m = length (m_rows m) -> NoDup (all_labels (m_vars m)) ->
  to_physical ev evs fd m = (m', Ok p) ->
  exists ls,    (* the indexed labels, in index order *)
    NoDup ls /\ (exists f, ls = filter f (all_labels (m_vars m))) /\
    dkeys (p_l2i p) = ls /\ dkeys (p_i2l p) = seq 0 (length ls) /\
    (forall l i, dget l (p_l2i p) = Some i <-> nth_error ls i = Some l) /\
    (forall l i, dget i (p_i2l p) = Some l <-> nth_error ls i = Some l) /\
    (forall l, In l ls <-> In l (all_labels (m_vars m)) /\ ~ In l (dkeys (m_deleted m)) /\ occurs p l).
Proof.
  intros ev evs fd m m' p HL HN E. destruct (to_physical_ok _ _ _ _ _ _ HL E) as (cms & HC & HR & ->).
  destruct (phys_index fd m cms HN) as (ls & N & O & L & I & D). exists ls. split; auto. split; auto.
  rewrite L, I. split; [apply combine_keys; rewrite seq_length; auto|].
  split; [apply combine_keys; rewrite seq_length; auto|]. split; [|split; [|exact D]].
  - intros l i. rewrite combine_seq_get by auto. rewrite Nat.sub_0_r. intuition lia.
  - intros l i. rewrite combine_seq_get'. rewrite Nat.sub_0_r. intuition lia.
Qed.
Example C13_hyps : exists m' p, to_physical env0 evs0 feed0 qubo_model = (m', Ok p) /\
  NoDup (all_labels (m_vars qubo_model)) /\ length (p_l2i p) = 4.
Proof.
  destruct (to_physical env0 evs0 feed0 qubo_model) as [m' [p|e]] eqn:E; [|vm_compute in E; discriminate].
  exists m', p. split; auto. split; [apply nodupb_ok; reflexivity|].
  pose proof (f_equal (fun z => match snd z with Ok p => length (p_l2i p) | _ => 0 end) E) as HH. vm_compute in HH. auto.
Qed.

(** ** C14: declared labels *)

Inductive decl := DVar (n : string) (sh : sharg) | DApp (n : string) (sh : sharg).
Definition d_name (d : decl) : string := match d with DVar n _ | DApp n _ => n end.
Definition declare (d : decl) (m : lmodel) : lmodel :=
  match d with DVar n sh => fst (variables (VName n) sh m) | DApp n sh => fst (append (VName n) sh m) end.
Lemma declared_dset n a vs : declared_by_name vs -> has_char "["%char n = false ->
  (exists sh vt, array_create n sh vt = Ok a) -> declared_by_name (dset n a vs).
Proof.
  intros [ND HV] HN HA. split; [apply dset_nodup; auto|]. intros k b HI.
  apply dset_in in HI. destruct HI as [[-> ->]|HI]; auto.
Qed.
Lemma declare_keeps d m : has_char "["%char (d_name d) = false -> declared_by_name (m_vars m) ->
  declared_by_name (m_vars (declare d m)).
Proof.
  destruct d as [n sh|n sh]; simpl; intros HN HD.
  - destruct (check_shape false sh) as [z|]; simpl; auto. destruct (array_create n z _) eqn:E; simpl; auto.
    apply declared_dset; eauto.
  - destruct (check_shape true sh) as [z|]; simpl; auto. destruct (dget n (m_vars m)).
    + destruct (array_create n _ _) eqn:E; simpl; auto. apply declared_dset; eauto.
    + destruct (check_shape false sh) as [z'|]; simpl; auto. destruct (array_create n z' _) eqn:E; simpl; auto.
      apply declared_dset; eauto.
Qed.
Theorem C14_labels_distinct : forall t ds,
  Forall (fun d => has_char "["%char (d_name d) = false) ds ->
  NoDup (all_labels (m_vars (fold_left (fun m d => declare d m) ds (new_model t)))).
Proof.
  intros t ds HF. apply all_labels_nodup.
  assert (HD : declared_by_name (m_vars (new_model t))) by (split; [constructor|intros n a []]).
  revert HD. generalize (new_model t). induction HF as [|d ds Hd HF IH]; simpl; auto.
  intros m HD. apply IH. apply declare_keeps; auto.
Qed.
(** Without the restriction on names labels can coincide. *)
Theorem C14_bracket_names_collide : ~ NoDup (all_labels (m_vars
  (fold_left (fun m d => declare d m)
     [DVar "x" (ShTuple [ShInt 1; ShInt 2]); DVar "x[0]" (ShTuple [ShInt 2])] (new_model Ising)))).
Proof. vm_compute. intros H. inversion H as [|? ? HX HN]. apply HX. simpl. auto. Qed.
Example C14_hyps : let ds := [DVar "x" (ShTuple [ShInt 2; ShInt 3]); DApp "x" (ShTuple [ShInt 1; ShInt 0]); DVar "y" (ShTuple [ShInt 4])] in
  Forall (fun d => has_char "["%char (d_name d) = false) ds /\
  length (all_labels (m_vars (fold_left (fun m d => declare d m) ds (new_model Ising)))) = 13.
Proof. split; [repeat constructor|reflexivity]. Qed.

Print Assumptions C09_to_physical_energy.
Print Assumptions C09_no_constraints.
Print Assumptions C09_qubo.
Print Assumptions C09_ising.
Print Assumptions C09_to_physical_succeeds.
Print Assumptions C10_coefficients.
Print Assumptions C11_frame.
Print Assumptions C11_again.
Print Assumptions C12_no_constraints_partial.
Print Assumptions C12_refuted.
Print Assumptions C12_clash_refuted.
Print Assumptions C13_index_bijection.
Print Assumptions C14_labels_distinct.
Print Assumptions C14_bracket_names_collide.
