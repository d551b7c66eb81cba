(** * PropsSolvers: what the solvers have in common (C74, C75, C77, C78) and
    concrete cases for the theorems of PropsServices. *)
From Verif Require Import PyBase PyLemmas Numbers Constraint LogicalModel Spec LogicalProofs Physical BqmProofs PhysicalProofs ToPhysicalProofs PropsPhysical PropsBqm Solver SolverSpec
  SolverProofs PropsSolver Services ServicesSpec PropsServices History PropsHistory Samples.
From Coq Require Import Lqa Permutation Sorted.
Local Open Scope string_scope.
Local Open Scope list_scope.

(** ** Exact enumeration *)
Lemma vectors_in lo hi n : forall x, In x (vectors lo hi n) <-> length x = n /\ Forall (fun z => z = lo \/ z = hi) x.
Proof.
  induction n as [|n IH]; intros x; cbn [vectors].
  - split; [intros [<-|[]]; auto|]. intros [HL _]. destruct x; [simpl; auto|discriminate].
  - rewrite in_app_iff, !in_map_iff. split.
    + intros [(y & <- & HY)|(y & <- & HY)]; apply IH in HY; destruct HY as [LY FY]; simpl; split; auto.
    + intros [HL HF]. destruct x as [|z x]; [discriminate|]. inversion HL. inversion HF; subst.
      destruct H2 as [-> | ->]; [left|right]; exists x; split; auto; apply IH; auto.
Qed.
Lemma vectors_nodup lo hi n : lo <> hi -> NoDup (vectors lo hi n).
Proof.
  intros NE. induction n as [|n IH]; cbn [vectors]; [repeat constructor; simpl; tauto|]. apply NoDup_app_iff. split; [|split].
  - apply FinFun.Injective_map_NoDup; auto. intros a b E. congruence.
  - apply FinFun.Injective_map_NoDup; auto. intros a b E. congruence.
  - intros x HA HB. apply in_map_iff in HA, HB. destruct HA as (y & <- & _), HB as (z & E & _). congruence.
Qed.
Lemma exact_ok b : wf_bqm b -> exists rows, exact_sampler b = Ok rows /\
  map (fun r : srow => fst (fst r)) rows = map (combine (bqm_variables b)) (vectors (if b_spin b then (-1)%Z else 0%Z) 1 (length (bqm_variables b))) /\
  forall s e c, In (s, e, c) rows -> e = energy_bqm (value_of s) b /\ c = 1.
Proof.
  intros W. unfold exact_sampler. set (vs := vectors _ _ _).
  assert (HV : forall x, In x vs -> length x = length (bqm_variables b)) by (intros x HX; apply vectors_in in HX; tauto).
  clearbody vs. induction vs as [|x vs IH].
  - exists []. split; [reflexivity|]. split; [reflexivity|]. intros ? ? ? [].
  - destruct IH as (rows & E & M & H); [intros; apply HV; simpl; auto|]. destruct (bqm_energy_total b (combine (bqm_variables b) x) W) as [e EE].
    { intros l HL. apply dget_some_in. unfold dkeys. rewrite map_fst_combine; auto. apply HV. simpl. auto. }
    exists ((combine (bqm_variables b) x, e, 1) :: rows). cbn [rmap]. rewrite EE. cbn [rbind]. rewrite E. cbn [rbind]. split; auto.
    cbn [map]. rewrite M. split; auto. intros s e' c [HI|HI]; [|eauto]. inversion HI; subst. split; auto. apply bqm_energy_ok. auto.
Qed.
Lemma exact_rows b rows : exact_sampler b = Ok rows ->
  map (fun r : srow => fst (fst r)) rows = map (combine (bqm_variables b)) (vectors (if b_spin b then (-1)%Z else 0%Z) 1 (length (bqm_variables b))) /\
  forall s e c, In (s, e, c) rows -> e = energy_bqm (value_of s) b /\ c = 1.
Proof.
  unfold exact_sampler. generalize (vectors (if b_spin b then (-1)%Z else 0%Z) 1 (length (bqm_variables b))). intros vs. revert rows.
  induction vs as [|x vs IH]; intros rows E; cbn [rmap] in E.
  - inversion E. split; auto. intros ? ? ? [].
  - apply rbind_ok in E. destruct E as (r & E1 & E). apply rbind_ok in E. destruct E as (t & E2 & E). apply rbind_ok in E1. destruct E1 as (e0 & E1 & E3).
    inversion E; inversion E3; subst. destruct (IH _ E2) as [M H]. cbn [map fst]. rewrite M. split; auto.
    intros s e c [HI|HI]; [|eauto]. inversion HI; subst. split; auto. apply bqm_energy_ok. auto.
Qed.
Lemma exact_honest : forall b rows s e c, NoDup (bqm_variables b) -> exact_sampler b = Ok rows -> In (s, e, c) rows ->
  e = energy_bqm (value_of s) b /\ NoDup (dkeys s) /\ (forall l, In l (dkeys s) <-> In l (bqm_variables b)) /\ Forall (bqm_legal b) (dvals s) /\ c = 1.
Proof.
  intros b rows s e c W E HI. destruct (exact_rows b rows E) as (M & H).
  destruct (H _ _ _ HI) as [-> ->]. split; auto. assert (HS : In s (map (fun r : srow => fst (fst r)) rows)) by (apply in_map_iff; exists (s, energy_bqm (value_of s) b, 1); auto).
  rewrite M in HS. apply in_map_iff in HS. destruct HS as (x & <- & HX). apply vectors_in in HX. destruct HX as [LX FX].
  unfold dkeys, dvals. rewrite map_fst_combine, map_snd_combine by auto. split; auto. split; [tauto|]. split; auto.
  eapply Forall_impl; [|exact FX]. unfold bqm_legal. intros z. destruct (b_spin b); intros [->| ->]; auto.
Qed.

(** ** C74: every solver reports the energy of the physical model *)
Lemma bqm_facts p b : to_bqm (- (1))%Qc p = Ok b ->
  wf_bqm b /\ (forall s, energy_bqm s b = energy_physical s p) /\ (forall l, In l (bqm_variables b) <-> occurs p l) /\
  (forall z, bqm_legal b z <-> legal (p_mtype p) z).
Proof.
  intros E. destruct (C37_to_bqm _ _ E) as (H1 & H2 & H3 & H4 & _). destruct (to_bqm_spec _ _ _ E) as (_ & W & _ & _ & _ & ES & _).
  split; auto. split; auto. split; auto. intros z. unfold bqm_legal, legal. rewrite ES. destruct (p_mtype p); tauto.
Qed.
Definition reports (p : physical) (rows : list srow) : Prop :=
  forall s e c, In (s, e, c) rows ->
    e = energy_physical (value_of s) p /\ NoDup (dkeys s) /\ (forall l, In l (dkeys s) <-> occurs p l) /\ Forall (legal (p_mtype p)) (dvals s).
Theorem C74_local : forall exact neal p rows, honest_sampler neal -> local_solve exact neal (Some p) = Ok rows -> reports p rows.
Proof.
  intros exact neal p rows HH E s e c HI. unfold local_solve in E. destruct (is_empty p); [discriminate|]. apply rbind_ok in E. destruct E as (b & EB & E).
  destruct (bqm_facts _ _ EB) as (W & F1 & F2 & F3).
  assert (G : e = energy_bqm (value_of s) b /\ NoDup (dkeys s) /\ (forall l, In l (dkeys s) <-> In l (bqm_variables b)) /\ Forall (bqm_legal b) (dvals s)).
  { destruct exact; [destruct (exact_honest _ _ _ _ _ (proj1 W) E HI) as (A & B & C & D & _); auto|eapply HH; eauto; apply W]. }
  destruct G as (A & B & C & D). rewrite A, F1. split; auto. split; auto. split; [intros l; rewrite C; apply F2|]. eapply Forall_impl; [|exact D]. intros z. apply F3.
Qed.
Theorem C74_dwave : forall composite p rows, honest_sampler composite -> dwave_solve composite (Some p) = Ok rows -> reports p rows.
Proof.
  intros composite p rows HH E. apply (C74_local false composite); auto.
Qed.
Theorem C74_sawatabi : forall w p ls o out,
  world_ok w -> well_indexed p ls -> legal_states p o -> result w p o = Ok out -> reports p (out_set out).
Proof.
  intros w p ls o out WO HW HL E s e c HI. split; [eapply C39_reported_energy; eauto|]. destruct (C40_samples _ _ _ _ _ WO HW HL E) as (H & _).
  destruct (H _ _ _ HI) as (K & L & _). rewrite K. destruct HW as (ND & _ & _ & HO). split; auto.
Qed.
(** Optigan: only up to the offset (see [C74_refuted]). *)
Theorem C74_optigan_partial : forall n g steps timeout dup p ls q a rows,
  well_indexed p ls -> optigan_solve n g steps timeout dup (Some p) = ([q], Ok rows) -> n_post n q = Ok a ->
  length (a_energies a) = length (a_spins a) ->
  Forall (fun x => length x = length ls /\ Forall bit x) (a_spins a) ->
  (forall j x e, nth_error (a_spins a) j = Some x -> nth_error (a_energies a) j = Some e -> e = poly_value (vec x) (q_polynomial q)) ->
  p_offset p = 0%Qc -> reports p rows.
Proof.
  intros n g steps timeout dup p ls q a rows HW E EP LE FL HE HZ s e c HI.
  split; [rewrite <- (C59_energy _ _ _ _ _ _ _ _ _ _ _ _ _ HW E EP FL HE HI), HZ; ring|].
  assert (ES : a_status a = 200%Z).
  { destruct (Z.eq_dec (a_status a) 200) as [|NS]; auto. pose proof (C59_status _ _ _ _ _ _ _ _ _ E EP NS). discriminate. }
  assert (FL' : Forall (fun x => length x = length ls) (a_spins a)) by (eapply Forall_impl; [|exact FL]; intros x [H _]; exact H).
  destruct (C59_samples _ _ _ _ _ _ _ _ _ _ HW E EP ES FL' LE) as (rows' & ER & _ & _ & H). inversion ER; subst rows'.
  destruct (H _ _ _ HI) as (K & _ & _ & j & J1 & _). rewrite K. pose proof HW as (ND & _ & _ & HO). split; auto. split; auto.
  assert (HT : p_mtype p = Qubo).
  { destruct (p_mtype p) eqn:ET; auto. rewrite (proj2 (proj2 (C59_rejects n g steps timeout dup)) p ET) in E. inversion E. }
  rewrite HT. rewrite Forall_forall in FL. destruct (FL _ (nth_error_In _ _ J1)) as [_ B]. exact B.
Qed.

(** ** C75: the exact local solver *)
(** Every assignment of the model's variables is there exactly once. *)
Theorem C75_exact : forall neal p rows, local_solve true neal (Some p) = Ok rows ->
  reports p rows /\ NoDup (map (fun r : srow => fst (fst r)) rows) /\ (forall r, In r rows -> snd r = 1) /\
  (forall a : assignment, (forall l, occurs p l -> exists z, legal (p_mtype p) z /\ a l = qz z) ->
     exists s e c, In (s, e, c) rows /\ forall l, occurs p l -> value_of s l = a l).
Proof.
  intros neal p rows E. pose proof E as E'. unfold local_solve in E. destruct (is_empty p); [discriminate|]. apply rbind_ok in E. destruct E as (b & EB & E).
  destruct (bqm_facts _ _ EB) as (W & F1 & F2 & F3). pose proof W as (ND & _).
  split; [|split; [|split]].
  - intros s e c HI. destruct (exact_honest _ _ _ _ _ (proj1 W) E HI) as (A & B & C & D & _). rewrite A, F1. split; auto. split; auto.
    split; [intros l; rewrite C; apply F2|]. eapply Forall_impl; [|exact D]. intros z. apply F3.
  - destruct (exact_ok b W) as (rows' & E2 & M & _). rewrite E in E2. inversion E2; subst rows'. rewrite M.
    assert (HN : NoDup (vectors (if b_spin b then (-1)%Z else 0%Z) 1 (length (bqm_variables b)))) by (apply vectors_nodup; destruct (b_spin b); lia).
    assert (HV : forall x, In x (vectors (if b_spin b then (-1)%Z else 0%Z) 1 (length (bqm_variables b))) -> length x = length (bqm_variables b)) by (intros x HX; apply vectors_in in HX; tauto).
    revert HN HV. generalize (vectors (if b_spin b then (-1)%Z else 0%Z) 1 (length (bqm_variables b))). clear. induction l as [|x l IH]; intros HN HV; cbn [map]; constructor; inversion HN; subst.
    + intros HI. apply in_map_iff in HI. destruct HI as (y & EC & HI). apply (f_equal (map snd)) in EC.
      rewrite !map_snd_combine in EC; [congruence|apply HV; simpl; auto|apply HV; simpl; auto].
    + apply IH; auto. intros; apply HV; simpl; auto.
  - intros [[s e] c] HI. destruct (exact_honest _ _ _ _ _ (proj1 W) E HI) as (_ & _ & _ & _ & ->). auto.
  - intros a HA. destruct (exact_ok b W) as (rows' & E2 & M & _). rewrite E in E2. inversion E2; subst rows'.
    assert (HX : forall vs, (forall l, In l vs -> occurs p l) -> exists x, length x = length vs /\ Forall (legal (p_mtype p)) x /\ forall i l z, nth_error vs i = Some l -> nth_error x i = Some z -> a l = qz z).
    { induction vs as [|l vs IH]; intros HO; [exists []; repeat split; auto; intros [|i] l z H; discriminate|].
      destruct IH as (x & LX & FX & HXX); [intros; apply HO; simpl; auto|]. destruct (HA l) as (z & LZ & EZ); [apply HO; simpl; auto|].
      exists (z :: x). split; [simpl; auto|]. split; auto. intros [|i] l' z' H1 H2; cbn [nth_error] in *; [inversion H1; inversion H2; subst; auto|eauto]. }
    destruct (HX (bqm_variables b)) as (x & LX & FX & HXX); [intros l HL; apply F2; auto|].
    assert (HI : In (combine (bqm_variables b) x) (map (fun r : srow => fst (fst r)) rows)).
    { rewrite M. apply in_map. apply vectors_in. split; auto. eapply Forall_impl; [|exact FX]. intros z LZ. apply F3 in LZ. unfold bqm_legal in LZ. destruct (b_spin b); tauto. }
    apply in_map_iff in HI. destruct HI as ([[s e] c] & ES & HI). cbn [fst] in ES. subst s. exists (combine (bqm_variables b) x), e, c. split; auto.
    intros l OC. apply F2 in OC. destruct (In_nth_error _ _ OC) as [i Hi]. destruct (nth_error x i) as [z|] eqn:EZ.
    + rewrite (HXX _ _ _ Hi EZ). eapply value_combine; eauto.
    + apply nth_error_None in EZ. assert (i < length (bqm_variables b)) by (apply nth_error_Some; congruence). lia.
Qed.
(** It succeeds on every model with interactions, none of them of a variable with itself. *)
Theorem C75_succeeds : forall neal p, (p_linear p <> [] \/ p_quad p <> []) -> (forall l, ~ In (l, l) (dkeys (p_quad p))) ->
  exists rows, local_solve true neal (Some p) = Ok rows.
Proof.
  intros neal p HN HS. unfold local_solve. assert (HE : is_empty p = false).
  { unfold is_empty. destruct (p_linear p), (p_quad p); auto. destruct HN; congruence. }
  rewrite HE. destruct (proj2 (proj1 (C37_succeeds_iff (- (1))%Qc p)) HS) as [b EB]. rewrite EB. cbn [rbind].
  destruct (bqm_facts _ _ EB) as (W & _). destruct (exact_ok b W) as (rows & E & _). eauto.
Qed.
(** Sample with the lowest energy: SampleSet.first. *)
Definition lowest (s : dict string Z) (e : Qc) (rows : list srow) : Prop :=
  (exists c, In (s, e, c) rows) /\ forall s' e' c', In (s', e', c') rows -> (e <= e')%Qc.
(** It is a global minimum of the energy. *)
Theorem C75_minimum : forall neal p rows s e, local_solve true neal (Some p) = Ok rows -> lowest s e rows ->
  e = energy_physical (value_of s) p /\
  forall a : assignment, (forall l, occurs p l -> exists z, legal (p_mtype p) z /\ a l = qz z) -> (e <= energy_physical a p)%Qc.
Proof.
  intros neal p rows s e E ((c & HI) & HM). destruct (C75_exact _ _ _ E) as (HR & _ & _ & HA). destruct (HR _ _ _ HI) as (EE & _). split; auto.
  intros a HL. destruct (HA a HL) as (s' & e' & c' & HI' & HV). destruct (HR _ _ _ HI') as (EE' & _).
  rewrite <- (energy_physical_ext p (value_of s') a HV), <- EE'. eauto.
Qed.
Theorem C75_has_lowest : forall neal p rows, local_solve true neal (Some p) = Ok rows -> exists s e, lowest s e rows.
Proof.
  intros neal p rows E. destruct (C75_exact _ _ _ E) as (_ & _ & _ & HA).
  assert (HN : rows <> []).
  { destruct (HA (fun _ => 1%Qc)) as (s & e & c & HI & _); [intros l _; exists 1%Z; split; [destruct (p_mtype p); simpl; auto|reflexivity]|]. intros ->. destruct HI. }
  clear - HN. induction rows as [|[[s e] c] rows IH]; [congruence|]. destruct rows as [|r rows].
  - exists s, e. split; [exists c; simpl; auto|]. intros s' e' c' [HI|[]]. inversion HI. apply Qcle_refl.
  - destruct IH as (s1 & e1 & (c1 & H1) & H2); [discriminate|]. destruct (Qclt_le_dec e1 e) as [HL|HL].
    + exists s1, e1. split; [exists c1; simpl in *; auto|]. intros s' e' c' [HI|HI]; [inversion HI; subst; apply Qclt_le_weak; auto|eauto].
    + exists s, e. split; [exists c; simpl; auto|]. intros s' e' c' [HI|HI]; [inversion HI; apply Qcle_refl|]. eapply Qcle_trans; eauto.
Qed.
(** Legal assignments of a logical model, and its objective: the Hamiltonian
    plus the penalties of the constraints on the 0/1 values. *)
Definition legal_assignment (t : mtype) (a : assignment) : Prop := match t with Ising => spin a | Qubo => binary a end.
Definition objective (fd : feed) (m : lmodel) (a : assignment) : Qc :=
  (energy fd a m + penalties (match m_mtype m with Ising => to_binary a | Qubo => a end) (dvals (m_constrs m)))%Qc.
Lemma legal_values t a l : legal_assignment t a -> exists z, legal t z /\ a l = qz z.
Proof.
  intros H. destruct t; destruct (H l) as [->| ->]; cbn [legal].
  - exists (-1)%Z. split; auto; reflexivity.
  - exists 1%Z. split; auto; reflexivity.
  - exists 0%Z. split; auto; reflexivity.
  - exists 1%Z. split; auto; reflexivity.
Qed.
(** Every completion of the best sample minimises the objective of the logical model. *)
Theorem C75_ground_state : forall neal ev evs fd m m' p rows s e a,
  m_len m = length (m_rows m) -> Forall constr_ok (dvals (m_constrs m)) -> to_physical ev evs fd m = (m', Ok p) ->
  local_solve true neal (Some p) = Ok rows -> lowest s e rows ->
  legal_assignment (m_mtype m) a -> (forall l z, dget l s = Some z -> a l = qz z) ->
  forall b, legal_assignment (m_mtype m) b -> (objective fd m a <= objective fd m b)%Qc.
Proof.
  intros neal ev evs fd m m' p rows s e a HL HC E ES LW LA HA b LB.
  assert (HT : p_mtype p = m_mtype m) by (destruct (to_physical_ok _ _ _ _ _ _ HL E) as (cms & _ & _ & ->); unfold phys, build_physical; destruct (index_labels _ _ _ _ _ _); reflexivity).
  destruct (C75_minimum _ _ _ _ _ ES LW) as [EE HM].
  assert (H1 : (energy_physical a p <= energy_physical b p)%Qc).
  { assert (HS : energy_physical (value_of s) p = energy_physical a p).
    { apply energy_physical_ext. intros l OC. destruct LW as ((c & HI) & _). destruct (C75_exact _ _ _ ES) as (HR & _). destruct (HR _ _ _ HI) as (_ & _ & HK & _).
      apply HK in OC. apply dget_some_in in OC. destruct OC as [z HZ]. unfold value_of. rewrite HZ. symmetry. auto. }
    rewrite <- HS, <- EE. apply HM. intros l _. rewrite HT. apply legal_values. auto. }
  unfold objective. destruct (m_mtype m) eqn:ET.
  - rewrite (C09_ising _ _ _ _ _ _ a HL ET HC E LA), (C09_ising _ _ _ _ _ _ b HL ET HC E LB) in H1.
    set (k := qsum (map ising_shift (dvals (m_constrs m)))) in *. apply (Qcplus_le_compat _ _ (- k) (- k)) in H1; [|apply Qcle_refl].
    replace (energy fd a m + penalties (to_binary a) (dvals (m_constrs m)) + k + - k)%Qc with (energy fd a m + penalties (to_binary a) (dvals (m_constrs m)))%Qc in H1 by ring.
    replace (energy fd b m + penalties (to_binary b) (dvals (m_constrs m)) + k + - k)%Qc with (energy fd b m + penalties (to_binary b) (dvals (m_constrs m)))%Qc in H1 by ring.
    exact H1.
  - rewrite <- (C09_qubo _ _ _ _ _ _ a HL ET HC E LA), <- (C09_qubo _ _ _ _ _ _ b HL ET HC E LB). exact H1.
Qed.

(** ** C77: unusable models are refused by every solver, before anything is sampled or sent *)
Definition no_interactions (p : physical) : Prop := p_linear p = [] /\ p_quad p = [].
Theorem C77_rejects : forall w o exact neal composite (A : Type) (f : bqm -> A) n g steps timeout dup,
  (snd (solve w None o) = Err TypeError /\ local_solve exact neal None = Err TypeError /\ default_beta_range f None = Err TypeError /\
   dwave_solve composite None = Err TypeError /\ optigan_solve n g steps timeout dup None = ([], Err TypeError)) /\
  forall p, no_interactions p ->
   snd (solve w (Some p) o) = Err ValueError /\ local_solve exact neal (Some p) = Err ValueError /\ default_beta_range f (Some p) = Err ValueError /\
   dwave_solve composite (Some p) = Err ValueError /\ optigan_solve n g steps timeout dup (Some p) = ([], Err ValueError).
Proof.
  intros. split; [repeat split; reflexivity|]. intros p [H1 H2].
  assert (HE : is_empty p = true) by (unfold is_empty; rewrite H1, H2; reflexivity).
  unfold solve, check_args, local_solve, default_beta_range, dwave_solve, optigan_solve. rewrite H1, H2, HE. cbn [length Nat.eqb andb snd]. auto.
Qed.
(** A model with an interaction is never refused for having none: the samplers
    get the BQM of the model. *)
Theorem C77_accepts : forall neal composite (A : Type) (f : bqm -> A) p b,
  ~ no_interactions p -> to_bqm (- (1))%Qc p = Ok b ->
  local_solve false neal (Some p) = neal b /\ dwave_solve composite (Some p) = composite b /\ default_beta_range f (Some p) = Ok (f b).
Proof.
  intros neal composite A f p b HN HB. assert (HE : is_empty p = false).
  { unfold is_empty. destruct (p_linear p) eqn:E1, (p_quad p) eqn:E2; auto. exfalso. apply HN. split; auto. }
  unfold local_solve, dwave_solve, default_beta_range. rewrite HE, HB. auto.
Qed.

(** ** C78: variables that get a value *)
(** Every variable with a non-zero total coefficient has a value in every sample. *)
Theorem C78_values_partial : forall ev evs fd m m' p rows s e c,
  m_len m = length (m_rows m) -> to_physical ev evs fd m = (m', Ok p) -> reports p rows -> In (s, e, c) rows ->
  exists cms, cmodels evs 0 (m_mtype m) (dvals (m_constrs m)) = Ok cms /\
    forall l, (lin_total fd (m_rows m ++ flat_map m_rows cms) l <> 0%Qc \/
               exists k, quad_total fd (m_rows m ++ flat_map m_rows cms) l k <> 0%Qc \/ quad_total fd (m_rows m ++ flat_map m_rows cms) k l <> 0%Qc) ->
      exists z, dget l s = Some z /\ legal (m_mtype m) z.
Proof.
  intros ev evs fd m m' p rows s e c HL E HR HI. destruct (C10_coefficients _ _ _ _ _ _ HL E) as (cms & HC & H). cbv zeta in H.
  destruct H as (_ & _ & _ & H1 & _ & H2). exists cms. split; auto. intros l HT.
  assert (HM : p_mtype p = m_mtype m) by (destruct (to_physical_ok _ _ _ _ _ _ HL E) as (cms' & _ & _ & ->); unfold phys, build_physical; destruct (index_labels _ _ _ _ _ _); reflexivity).
  destruct (HR _ _ _ HI) as (_ & _ & HK & HV). assert (OC : occurs p l).
  { destruct HT as [HT|(k & [HT|HT])].
    - left. apply dget_some_in. eauto.
    - right. exists l, k. split; auto. apply dget_some_in. eauto.
    - right. exists k, l. split; auto. apply dget_some_in. eauto. }
  apply HK in OC. apply dget_some_in in OC. destruct OC as [z HZ]. exists z. split; auto. rewrite <- HM. rewrite Forall_forall in HV. apply HV.
  apply dget_in in HZ. apply (in_map snd) in HZ. exact HZ.
Qed.
(** A declared variable may be absent from the samples of every solver. *)
Definition lonely : lmodel :=
  fst (do_op env0 evs0 (OAdd (TVar (spn "x" 0)) (NStr "") (num 2) (num 1) AtNone TsNone)
    (fst (do_op env0 evs0 (OVariables (VName "x") (ShTuple [ShInt 2])) (new_model Ising)))).
Theorem C78_refuted : exists m m' p rows l,
  reachable m /\ to_physical env0 evs0 [] m = (m', Ok p) /\ local_solve true (fun _ => Err ValueError) (Some p) = Ok rows /\ rows <> [] /\
  In l (all_labels (m_vars m)) /\ m_deleted m = [] /\ forall s e c, In (s, e, c) rows -> dget l s = None.
Proof.
  destruct (to_physical env0 evs0 [] lonely) as [m' [p|e]] eqn:E; [|exfalso; assert (X := f_equal okb E); vm_compute in X; discriminate].
  assert (HR : reachable lonely) by (apply r_op, r_op, r_new).
  assert (HK : dkeys (p_linear p) = ["x[0]"] /\ p_quad p = []).
  { assert (X : match snd (m', Ok p) with Ok q => (dkeys (p_linear q), length (p_quad q)) | Err _ => ([], 1) end = (["x[0]"], 0)) by (rewrite <- E; vm_compute; reflexivity).
    cbn [snd] in X. injection X as X1 X2. split; auto. destruct (p_quad p); auto. discriminate. }
  destruct HK as [HK HQ].
  destruct (C75_succeeds (fun _ => Err ValueError) p) as [rows ER].
  { left. intros H. rewrite H in HK. discriminate. }
  { rewrite HQ. intros l []. }
  exists lonely, m', p, rows, "x[1]". split; auto. split; auto. split; auto. split; [|split; [|split]].
  - destruct (C75_has_lowest _ _ _ ER) as (s & e & (c & HI) & _). intros ->. destruct HI.
  - vm_compute. auto.
  - reflexivity.
  - intros s e c HI. destruct (C75_exact _ _ _ ER) as (H & _). destruct (H _ _ _ HI) as (_ & _ & HS & _). apply dget_none. intros X. apply HS in X.
    destruct X as [X|(a & b & X & _)]; [rewrite HK in X; destruct X as [X|[]]; discriminate|rewrite HQ in X; destruct X].
Qed.

(** ** Concrete cases *)
Definition answers : list (list Z) := [[1; 0]; [0; 1]; [1; 0]]%Z.
Lemma answers_bits : Forall (fun x => length x = 2 /\ Forall bit x) answers.
Proof. apply Forall_forall. intros x [<-|[<-|[<-|[]]]]; split; auto; apply Forall_forall; intros z HZ; simpl in HZ; unfold bit; intuition. Qed.
Definition network0 : network :=
  mkNetwork (fun f => if String.eqb f "a.yml" then Ok ("https://e", "k") else Err KeyError)
    (fun q => Ok (mkResponse 200 answers (map (fun x => poly_value (vec x) (q_polynomial q)) answers))).
Definition optigan0 : optigan := optigan_new "/home/u/.optigan.yml" true (Some "a.yml") None (Some "t").
Lemma credentials0 : credentials network0 optigan0 ("https://e", "k").
Proof. right. split; [intros [(s & X & _) _]; discriminate|]. exists "a.yml". split; [reflexivity|]. split; [discriminate|reflexivity]. Qed.
Lemma optigan0_answers t : exists q rows a, optigan_solve network0 optigan0 10 10000 false (Some (phys2 t)) =
    ([q], Ok rows) /\ n_post network0 q = Ok a /\ a_status a = 200%Z /\ a_spins a = answers /\ length (a_energies a) = 3 /\
    (forall j x e, nth_error (a_spins a) j = Some x -> nth_error (a_energies a) j = Some e -> e = poly_value (vec x) (q_polynomial q)) /\
    (exists e c, In ([("a", 1%Z); ("b", 0%Z)], e, c) rows) \/ t = Ising.
Proof.
  destruct t; [exists (mkRequest "" "" 0 0 [] false), [], (mkResponse 0 [] []); right; reflexivity|].
  destruct (C59_request network0 optigan0 10 10000 false (phys2 Qubo) ["a"; "b"] ("https://e", "k")) as (t & EQ & _); [left; discriminate|reflexivity|apply phys2_indexed|apply credentials0|].
  destruct (optigan_solve network0 optigan0 10 10000 false (Some (phys2 Qubo))) as [qs rs] eqn:E. cbn [fst] in EQ. subst qs. set (q := mkRequest _ _ _ _ _ _) in *.
  destruct (C59_samples _ _ _ _ _ _ ["a"; "b"] q (mkResponse 200 answers (map (fun x => poly_value (vec x) (q_polynomial q)) answers)) _ (phys2_indexed Qubo) E eq_refl eq_refl) as (rows & -> & _ & H & _).
  { repeat constructor. }
  { reflexivity. }
  exists q, rows, (mkResponse 200 answers (map (fun x => poly_value (vec x) (q_polynomial q)) answers)). left. split; auto. repeat (split; [reflexivity|]). split; [|apply (H [1; 0]%Z); simpl; auto].
  cbn [a_spins a_energies]. intros j x e HJ HE. rewrite (map_nth_error _ _ _ HJ) in HE. inversion HE. auto.
Qed.
(** The service leaves the offset out. *)
Theorem C74_refuted : exists n g p ls q rows a s e c,
  well_indexed p ls /\ optigan_solve n g 10 10000 false (Some p) = ([q], Ok rows) /\ n_post n q = Ok a /\
  (forall j x e, nth_error (a_spins a) j = Some x -> nth_error (a_energies a) j = Some e -> e = poly_value (vec x) (q_polynomial q)) /\
  In (s, e, c) rows /\ e <> energy_physical (value_of s) p.
Proof.
  destruct (optigan0_answers Qubo) as (q & rows & a & [(E & EP & ES & EA & EL & HE & (e & c & HI))|X]); [|discriminate].
  exists network0, optigan0, (phys2 Qubo), ["a"; "b"], q, rows, a, [("a", 1%Z); ("b", 0%Z)], e, c.
  split; [apply phys2_indexed|]. split; auto. split; auto. split; auto. split; auto. intros EE.
  assert (FB : Forall (fun x => length x = length ["a"; "b"] /\ Forall bit x) (a_spins a)).
  { rewrite EA. apply answers_bits. }
  pose proof (C59_energy _ _ _ _ _ _ _ _ _ _ _ _ _ (phys2_indexed Qubo) E EP FB HE HI) as H. rewrite <- EE in H. cbn [p_offset phys2] in H.
  assert (X : (qz 5 = 0)%Qc) by (apply (f_equal (fun z => (z - e)%Qc)) in H; ring_simplify in H; exact H). discriminate X.
Qed.
Example C57_hyps :
  read_as_number None ["12"; "x1"; ""; "-3"; "007"; "1_0"; " 4"; ("5" ++ String newline "")%string; "9a"] = Ok [12; 7; 5]%Z /\
  read_as_number (Some 2) ["12"; "007"] = Err ValueError /\ read_as_number (Some 2) ["12"; "07"; "0x7"] = Ok [12; 7]%Z.
Proof. repeat split; reflexivity. Qed.
Example C59_hyps : exists q rows a, optigan_solve network0 optigan0 10 10000 false (Some (phys2 Qubo)) = ([q], Ok rows) /\
  n_post network0 q = Ok a /\ a_status a = 200%Z /\ Forall (fun x => length x = 2 /\ Forall bit x) (a_spins a) /\ length (a_energies a) = length (a_spins a) /\
  (forall j x e, nth_error (a_spins a) j = Some x -> nth_error (a_energies a) j = Some e -> e = poly_value (vec x) (q_polynomial q)) /\ rows <> [].
Proof.
  destruct (optigan0_answers Qubo) as (q & rows & a & [(E & EP & ES & EA & EL & HE & (e & c & HI))|X]); [|discriminate].
  exists q, rows, a. split; auto. split; auto. split; auto. split; [rewrite EA; apply answers_bits|]. split; [rewrite EL, EA; auto|]. split; auto. intros ->. destruct HI.
Qed.
Example C61_hyps : flatten [Leaf 1; Nest [Leaf 2; Nest [Nest []; Leaf 3]]; Nest []; Leaf 4] = [1; 2; 3; 4] /\
  at_path (Nest [Leaf 1; Nest [Leaf 2; Nest [Nest []; Leaf 3]]; Nest []; Leaf 4]) [1; 1; 1] = Some (Leaf 3).
Proof. split; reflexivity. Qed.
Example C74_C75_hyps : honest_sampler exact_sampler /\
  exists rows s e, local_solve true (fun _ => Ok []) (Some (phys2 Ising)) = Ok rows /\ length rows = 4 /\ lowest s e rows.
Proof.
  split; [intros b rows s e c N E HI; destruct (exact_honest _ _ _ _ _ N E HI) as (A & B & C & D & _); auto|].
  destruct (C75_succeeds (fun _ => Ok []) (phys2 Ising)) as [rows E]; [left; discriminate|apply quad2_loop|].
  destruct (C75_has_lowest _ _ _ E) as (s & e & HL). exists rows, s, e. split; auto. split; auto.
  assert (X := f_equal (fun z => match z with Ok l => length l | Err _ => 0 end) E). vm_compute in X. auto.
Qed.
Example C75_logical_hyps : exists m' p rows s e a,
  m_len qubo_model = length (m_rows qubo_model) /\ Forall constr_ok (dvals (m_constrs qubo_model)) /\ to_physical env0 evs0 feed0 qubo_model = (m', Ok p) /\
  local_solve true (fun _ => Ok []) (Some p) = Ok rows /\ lowest s e rows /\ legal_assignment (m_mtype qubo_model) a /\ (forall l z, dget l s = Some z -> a l = qz z).
Proof.
  destruct (to_physical env0 evs0 feed0 qubo_model) as [m' [p|e]] eqn:E; [|exfalso; assert (X := f_equal okb E); vm_compute in X; discriminate].
  assert (HK : length (p_linear p) = 4 /\ forallb (fun k => negb (String.eqb (fst k) (snd k))) (dkeys (p_quad p)) = true).
  { assert (X : match snd (m', Ok p) with Ok q => (length (p_linear q), forallb (fun k => negb (String.eqb (fst k) (snd k))) (dkeys (p_quad q))) | Err _ => (0, false) end = (4, true))
      by (rewrite <- E; vm_compute; reflexivity).
    cbn [snd] in X. injection X as X1 X2. split; auto. }
  destruct HK as [HK HQ]. destruct (C75_succeeds (fun _ => Ok []) p) as [rows ER].
  { left. intros H. rewrite H in HK. discriminate. }
  { intros l HI. rewrite forallb_forall in HQ. apply HQ in HI. cbn [fst snd] in HI. rewrite String.eqb_refl in HI. discriminate. }
  destruct (C75_has_lowest _ _ _ ER) as (s & e & HL). exists m', p, rows, s, e, (value_of s). split; [reflexivity|]. split; [repeat constructor; simpl; intuition discriminate|]. split; auto. split; auto. split; auto. split.
  - destruct HL as ((c & HI) & _). destruct (C75_exact _ _ _ ER) as (H & _). destruct (H _ _ _ HI) as (_ & _ & _ & HV).
    assert (HM : p_mtype p = Qubo) by (destruct (to_physical_ok _ _ _ _ _ _ (eq_refl (m_len qubo_model)) E) as (cms' & _ & _ & ->); unfold phys, build_physical; destruct (index_labels _ _ _ _ _ _); reflexivity).
    rewrite HM in HV. intros l. unfold value_of. destruct (dget l s) as [z|] eqn:EG; auto. apply dget_in in EG. apply (in_map snd) in EG. rewrite Forall_forall in HV.
    destruct (HV z EG) as [-> | ->]; [left|right]; reflexivity.
  - intros l z HZ. unfold value_of. rewrite HZ. auto.
Qed.
Print Assumptions C74_local.
Print Assumptions C74_dwave.
Print Assumptions C74_sawatabi.
Print Assumptions C74_optigan_partial.
Print Assumptions C75_exact.
Print Assumptions C75_succeeds.
Print Assumptions C75_minimum.
Print Assumptions C75_has_lowest.
Print Assumptions C75_ground_state.
Print Assumptions C77_rejects.
Print Assumptions C77_accepts.
Print Assumptions C78_values_partial.
Print Assumptions C78_refuted.
Print Assumptions C74_refuted.
