(** * PropsOrder: C124 the order of the additions, C125 what decides the physical model, C126 equivalent ways to enter an interaction. *)
From Coq Require Import Permutation.
From Verif Require Import PyBase PyLemmas Numbers Constraint LogicalModel Spec LogicalProofs PhysicalProofs ToPhysicalProofs EnergyProofs Samples Physical BqmProofs InteractionProofs History PropsHistory
  PropsInteractions PropsPhysical PropsBqm PropsAlike Solver SolverSpec PropsSolver Services PropsSolvers PropsPenalty ReachProofs PropsReach PropsTsp PropsDetermined PropsEntered.
Local Open Scope string_scope.
Local Open Scope list_scope.

(** ** Specification *)

(** One call of add_interaction, with the clock at its time. *)
Record call := mkCall { ca_env : env; ca_target : target; ca_name : narg; ca_coef : carg; ca_scale : carg; ca_attrs : attrarg; ca_ts : tsarg }.
Definition make (c : call) : LM unit := add_interaction (ca_env c) (ca_target c) (ca_name c) (ca_coef c) (ca_scale c) (ca_attrs c) (ca_ts c).
(** The calls, one after the other; the first that raises ends it. *)
Definition makes (l : list call) : LM unit := mfor l make.
(** The attributes are python dictionaries. *)
Definition proper_call (c : call) : Prop := attrs_wf (ca_attrs c).
(** The models have the same variables, in the same order, and the same deleted ones. *)
Definition same_variables_declared (m m' : lmodel) : Prop :=
  m_mtype m = m_mtype m' /\ m_vars m = m_vars m' /\ (forall l, In l (dkeys (m_deleted m)) <-> In l (dkeys (m_deleted m'))).

(** ** One call *)
Definition call_row (c : call) : option row :=
  match ca_coef c, ca_scale c, ca_attrs c, ca_ts c with
  | ABad, _, _, _ | _, ABad, _, _ | _, _, AtBad, _ | _, _, _, TsBad => None
  | AC co, AC sc, _, _ =>
      match interaction_info (ca_target c) with
      | Err _ => None
      | Ok inf => match add_name (ca_name c) (in_name inf) with
                  | Err _ => None
                  | Ok nm => Some (mkRow nm (in_key inf) (in_inter inf) co sc (Some (ts_given (ca_env c) (ca_ts c))) true false)
                  end
      end
  end.
Lemma make_iff c m : aligned m -> proper_call c -> (exists m', make c m = (m', Ok tt)) <-> exists r, call_row c = Some r /\ ~ In (r_name r) (names m).
Proof.
  intros HA HW. unfold make. rewrite (C03_succeeds_iff _ _ _ _ _ _ _ _ HA HW). unfold call_row. split.
  - intros (co & sc & i & dn & nm & -> & -> & NA & NT & HD & HS & HN). apply denotes_info in HD. apply add_name_spec in HS. rewrite HD. cbn [in_name in_key in_inter]. rewrite HS.
    destruct (ca_attrs c), (ca_ts c); try contradiction; (eexists; split; [reflexivity|exact HN]).
  - intros (r & E & HN). destruct (ca_coef c) as [co|], (ca_scale c) as [sc|]; try discriminate.
    assert (HG : ca_attrs c <> AtBad /\ ca_ts c <> TsBad) by (destruct (ca_attrs c), (ca_ts c); try discriminate; split; discriminate). destruct HG as [G1 G2].
    destruct (interaction_info (ca_target c)) as [inf|] eqn:EI; [|destruct (ca_attrs c), (ca_ts c); discriminate].
    destruct (add_name (ca_name c) (in_name inf)) as [nm|] eqn:EN; [|destruct (ca_attrs c), (ca_ts c); discriminate].
    assert (HR : r_name r = nm) by (destruct (ca_attrs c), (ca_ts c); try contradiction; injection E as <-; reflexivity). rewrite HR in HN.
    exists co, sc, (in_inter inf), (in_name inf), nm. split; auto. split; auto. split; auto. split; auto. split; [apply info_denotes; auto|]. split; [apply add_name_spec; auto|auto].
Qed.
Definition asked (c : call) (k : string) : aval := match given (ca_attrs c) k with Some v => v | None => ANan end.
Lemma make_effect c m m' : aligned m -> proper_call c -> make c m = (m', Ok tt) -> exists r, call_row c = Some r /\ ~ In (r_name r) (names m) /\
  m_rows m' = m_rows m ++ [r] /\ same_rest m m' /\ aligned m' /\ (forall n k, In n (names m) -> attr_of m' n k = attr_of m n k) /\ (forall k, attr_of m' (r_name r) k = asked c k).
Proof.
  intros HA HW E. destruct (proj1 (make_iff c m HA HW)) as (r & EC & HN); [eauto|]. exists r. split; auto. split; auto.
  unfold make in E. destruct (C03_effect _ _ _ _ _ _ _ _ _ HA HW E) as (co & sc & i & dn & nm & E1 & E2 & HD & HS & HN' & ER & SR & HA' & V1 & V2).
  assert (EQ : r = mkRow nm (inter_key i) i co sc (Some (ts_given (ca_env c) (ca_ts c))) true false).
  { unfold call_row in EC. rewrite E1, E2 in EC. apply denotes_info in HD. apply add_name_spec in HS. rewrite HD in EC. cbn [in_name in_key in_inter] in EC. rewrite HS in EC.
    destruct (ca_attrs c), (ca_ts c); congruence. }
  split; [rewrite ER, EQ; reflexivity|]. split; auto. split; auto.
  assert (NM : names m' = names m ++ [r_name r]) by (unfold names; rewrite ER, EQ, map_app; reflexivity).
  split.
  - intros n k HI. unfold attr_of. rewrite NM. destruct (index_of_in n (names m) HI) as [j EJ]. rewrite (index_of_app_l _ _ [r_name r] _ EJ), EJ. apply V1.
    apply index_of_some in EJ. assert (HLT : j < length (names m)) by (apply nth_error_Some; congruence). unfold names in HLT. rewrite map_length in HLT. exact HLT.
  - intros k. unfold attr_of. rewrite NM, (index_of_mid _ _ [] HN). unfold names. rewrite map_length. apply V2.
Qed.
Lemma makes_iff l : forall m, aligned m -> Forall proper_call l ->
  (exists m', makes l m = (m', Ok tt)) <-> exists rs, map call_row l = map Some rs /\ NoDup (map r_name rs) /\ forall r, In r rs -> ~ In (r_name r) (names m).
Proof.
  induction l as [|c l IH]; intros m HA HP.
  - split; [|intros _; eexists; reflexivity]. intros _. exists []. repeat split; [constructor|]. intros r [].
  - inversion HP as [|? ? HC HP']; subst. unfold makes. cbn [mfor]. fold (makes l). unfold bind at 1. destruct (make c m) as [m1 [[]|e]] eqn:E.
    + destruct (make_effect c m m1 HA HC E) as (r & ER & HN & EM & _ & HA1 & _). rewrite (IH m1 HA1 HP').
      assert (NM : names m1 = names m ++ [r_name r]) by (unfold names; rewrite EM, map_app; reflexivity). rewrite NM. split.
      * intros (rs & H1 & H2 & H3). exists (r :: rs). cbn [map]. rewrite ER, H1. split; auto. split.
        -- constructor; auto. intros C. apply in_map_iff in C. destruct C as (x & EX & HX). apply (H3 x HX). rewrite EX. apply in_or_app. right. left. reflexivity.
        -- intros x [<-|HX]; auto. intros C. apply (H3 x HX). apply in_or_app. left. exact C.
      * intros (rs & H1 & H2 & H3). destruct rs as [|x rs]; [discriminate|]. cbn [map] in H1. rewrite ER in H1. injection H1 as HX H1. subst x. exists rs. split; auto. cbn [map] in H2. inversion H2 as [|? ? N1 N2]; subst. split; auto.
        intros x HX C. apply in_app_or in C. destruct C as [C|[C|[]]]; [apply (H3 x); auto; right; exact HX|]. apply N1. rewrite C. apply in_map. exact HX.
    + split; [intros [m' C]; discriminate|]. intros (rs & H1 & H2 & H3). exfalso. destruct rs as [|x rs]; [discriminate|]. cbn [map] in H1. injection H1 as HX H1.
      destruct (proj2 (make_iff c m HA HC)) as [m' C]; [exists x; split; auto; apply H3; left; reflexivity|]. congruence.
Qed.
Lemma makes_effect l : forall m m', aligned m -> Forall proper_call l -> makes l m = (m', Ok tt) -> exists rs, map call_row l = map Some rs /\
  m_rows m' = m_rows m ++ rs /\ same_rest m m' /\ aligned m' /\ (forall n k, In n (names m) -> attr_of m' n k = attr_of m n k) /\
  (forall c r k, In c l -> call_row c = Some r -> attr_of m' (r_name r) k = asked c k).
Proof.
  induction l as [|c l IH]; intros m m' HA HP E.
  - exists []. cbn in E. injection E as <-. rewrite app_nil_r. repeat split; auto; try apply HA. intros c r k [].
  - inversion HP as [|? ? HC HP']; subst. unfold makes in E. cbn [mfor] in E. fold (makes l) in E. unfold bind at 1 in E. destruct (make c m) as [m1 [[]|e]] eqn:E1; [|discriminate].
    destruct (make_effect c m m1 HA HC E1) as (r & ER & HN & EM & SR & HA1 & V1 & V2). destruct (IH m1 m' HA1 HP' E) as (rs & H1 & H2 & H3 & H4 & H5 & H6).
    assert (NM : names m1 = names m ++ [r_name r]) by (unfold names; rewrite EM, map_app; reflexivity).
    exists (r :: rs). cbn [map]. rewrite ER, H1. split; auto. split; [rewrite H2, EM, <- app_assoc; reflexivity|]. split; [eapply same_rest_trans; eauto|]. split; auto. split.
    + intros n k HI. rewrite H5 by (rewrite NM; apply in_or_app; left; exact HI). auto.
    + intros c' r' k [<-|HI] EC; [|eauto]. rewrite ER in EC. injection EC as <-. rewrite H5 by (rewrite NM; apply in_or_app; right; left; reflexivity). auto.
Qed.

Lemma map_some_inj {A} (a b : list A) : map Some a = map Some b -> a = b.
Proof. revert b. induction a as [|x a IH]; intros [|y b] H; try discriminate; auto. cbn [map] in H. injection H as -> H. f_equal. auto. Qed.

(** ** C124: the order of the additions does not matter *)
(** If a sequence of additions is accepted, so is the same in any other order, and the models have the same interactions (in
    another order), the same attributes and the same energy for all values of the variables and placeholders; nothing else
    differs. *)
Theorem C124_order : forall l l' m m1, aligned m -> Forall proper_call l -> Permutation l l' -> makes l m = (m1, Ok tt) ->
  exists m2, makes l' m = (m2, Ok tt) /\ Permutation (m_rows m1) (m_rows m2) /\ same_rest m1 m2 /\
    (forall n k, attr_of m1 n k = attr_of m2 n k) /\ (forall fd s, energy fd s m1 = energy fd s m2).
Proof.
  intros l l' m m1 HA HP HL E. assert (HP' : Forall proper_call l') by (rewrite Forall_forall in *; intros c HC; apply HP; eapply Permutation_in; [apply Permutation_sym; exact HL|exact HC]).
  destruct (proj1 (makes_iff l m HA HP)) as (rs & ER & ND & HF); [eauto|].
  assert (HR : exists rs', map call_row l' = map Some rs' /\ Permutation rs rs').
  { assert (PM : Permutation (map call_row l) (map call_row l')) by (apply Permutation_map; exact HL). rewrite ER in PM. apply Permutation_sym, Permutation_map_inv in PM. destruct PM as (rs' & E' & P'). eauto. }
  destruct HR as (rs' & ER' & PR). destruct (proj2 (makes_iff l' m HA HP')) as [m2 E2].
  { exists rs'. split; auto. split; [eapply Permutation_NoDup; [apply Permutation_map; exact PR|exact ND]|]. intros r HI. apply HF. eapply Permutation_in; [apply Permutation_sym; exact PR|exact HI]. }
  exists m2. split; auto. destruct (makes_effect _ _ _ HA HP E) as (rs1 & X1 & H1 & S1 & A1 & V1 & W1). destruct (makes_effect _ _ _ HA HP' E2) as (rs2 & X2 & H2 & S2 & A2 & V2 & W2).
  assert (E1 : rs1 = rs) by (apply (map_some_inj rs1 rs); congruence). subst rs1.
  assert (E3 : rs2 = rs') by (apply (map_some_inj rs2 rs'); congruence). subst rs2.
  assert (PP : Permutation (m_rows m1) (m_rows m2)) by (rewrite H1, H2; apply Permutation_app_head; exact PR). split; auto. split; [|split].
  - destruct S1 as (? & ? & ? & ? & ? & ? & ?), S2 as (? & ? & ? & ? & ? & ? & ?). repeat split; congruence.
  - intros n k. destruct (in_dec string_dec n (names m)) as [HI|HI]; [rewrite V1, V2 by exact HI; reflexivity|].
    destruct (in_dec string_dec n (map r_name rs)) as [HJ|HJ].
    + apply in_map_iff in HJ. destruct HJ as (r & <- & HJ). assert (HC : exists c, In c l /\ call_row c = Some r).
      { assert (HS : In (Some r) (map call_row l)) by (rewrite ER; apply in_map; exact HJ). apply in_map_iff in HS. destruct HS as (c & EC & HC). eauto. }
      destruct HC as (c & HC & EC). rewrite (W1 c r k HC EC), (W2 c r k (Permutation_in _ HL HC) EC). reflexivity.
    + assert (N1 : ~ In n (names m1)) by (unfold names; rewrite H1, map_app, in_app_iff; tauto).
      assert (N2 : ~ In n (names m2)) by (intros C; apply N1; unfold names in *; eapply Permutation_in; [apply Permutation_map, Permutation_sym; exact PP|exact C]).
      apply index_of_none in N1, N2. unfold attr_of. rewrite N1, N2. reflexivity.
  - intros fd s. unfold energy. rewrite (qsum_perm _ _ (Permutation_map (contribution fd s) PP)). destruct S1 as (_ & _ & O1 & _), S2 as (_ & _ & O2 & _). rewrite O1, O2. reflexivity.
Qed.

(** ** C125: what decides the physical model *)
(** Two models with the same variables and the same energies have equal physical models: coefficients, offset, indices. *)
Theorem C125_energies_general : forall ev evs ev' evs' fd fd' m m' n n' p q,
  reachable m -> m_len m = length (m_rows m) -> to_physical ev evs fd m = (n, Ok p) ->
  reachable m' -> m_len m' = length (m_rows m') -> to_physical ev' evs' fd' m' = (n', Ok q) ->
  m_mtype m = m_mtype m' -> m_vars m = m_vars m' -> (forall l, occurs p l -> (In l (dkeys (m_deleted m)) <-> In l (dkeys (m_deleted m')))) -> NoDup (all_labels (m_vars m)) ->
  (forall a, lawful (m_mtype m) a -> energy_physical a p = energy_physical a q) -> physical_eqb p q = true.
Proof.
  intros ev evs ev' evs' fd fd' m m' n n' p q HR HL E HR' HL' E' ET EV ED HN HE.
  destruct (C105_coefficients _ _ _ _ _ _ _ _ _ _ _ _ 0%Qc HR HL E HR' HL' E' ET) as ((H1 & H2) & H3); [intros a LA; rewrite (HE a LA); ring|].
  assert (T : p_mtype p = p_mtype q) by (destruct (phys_facts _ _ _ _ _ _ HR HL E) as (T & _); destruct (phys_facts _ _ _ _ _ _ HR' HL' E') as (T' & _); congruence).
  assert (HN' : NoDup (all_labels (m_vars m'))) by (rewrite <- EV; auto).
  apply C64_equal_iff; [exact (C64_from_logical _ _ _ _ _ _ HL HN E)|exact (C64_from_logical _ _ _ _ _ _ HL' HN' E')|]. split; auto.
  assert (S1 : same_dict (p_linear p) (p_linear q)) by exact H1. assert (S2 : same_dict (p_quad p) (p_quad q)) by (intros [a b]; apply H2).
  split; auto. split; auto. split; [rewrite H3; ring|].
  destruct (C13_index_bijection _ _ _ _ _ _ HL HN E) as (ls & N & [f EF] & K1 & K2 & D1 & D2 & D3).
  destruct (C13_index_bijection _ _ _ _ _ _ HL' HN' E') as (ls' & N' & [f' EF'] & K1' & K2' & D1' & D2' & D3').
  assert (EL : ls = ls').
  { rewrite EF, EF', <- EV. apply filter_same. intros x. rewrite <- EF. replace (filter f' (all_labels (m_vars m))) with ls' by (rewrite EV; auto).
    rewrite D3, D3', <- EV. assert (HO : occurs p x <-> occurs q x); [|specialize (ED x); tauto]. unfold occurs.
    assert (HK : forall (K : Type) (EK : Eqb K) (d d' : dict K Qc), same_dict d d' -> forall k, In k (dkeys d) -> In k (dkeys d')).
    { intros K EK d d' HS k HI. apply dget_some_in in HI. destruct HI as [v HI]. rewrite HS in HI. apply dget_some_in. eauto. }
    assert (S1' : same_dict (p_linear q) (p_linear p)) by (intros k; symmetry; apply S1). assert (S2' : same_dict (p_quad q) (p_quad p)) by (intros k; symmetry; apply S2).
    split; (intros [HI|(a & b & HI & HX)]; [left; eapply HK; eauto|right; exists a, b; split; auto; eapply HK; eauto]). }
  assert (HH : forall A B (EA : Eqb A) (d d' : dict A B), (forall k v, dget k d = Some v <-> dget k d' = Some v) -> same_dict d d').
  { intros A B EA d d' HH k. destruct (dget k d) as [v|] eqn:EE; [symmetry; apply HH; auto|]. destruct (dget k d') as [v|] eqn:EE'; auto. apply HH in EE'. congruence. }
  split; apply HH; intros k v; [rewrite D1, D1', EL|rewrite D2, D2', EL]; tauto.
Qed.
Corollary C125_energies : forall ev evs ev' evs' fd fd' m m' n n' p q,
  reachable m -> m_len m = length (m_rows m) -> to_physical ev evs fd m = (n, Ok p) ->
  reachable m' -> m_len m' = length (m_rows m') -> to_physical ev' evs' fd' m' = (n', Ok q) ->
  same_variables_declared m m' -> NoDup (all_labels (m_vars m)) ->
  (forall a, lawful (m_mtype m) a -> energy_physical a p = energy_physical a q) -> physical_eqb p q = true.
Proof.
  intros ev evs ev' evs' fd fd' m m' n n' p q HR HL E HR' HL' E' (ET & EV & ED) HN HE. eapply (C125_energies_general _ _ _ _ _ _ m m'); eauto.
Qed.
(** Two models with the same variables, the same constraints and interactions of the same energy. *)
Theorem C125_interactions : forall ev evs ev' evs' fd m m' n n' p q,
  reachable m -> m_len m = length (m_rows m) -> to_physical ev evs fd m = (n, Ok p) ->
  reachable m' -> m_len m' = length (m_rows m') -> to_physical ev' evs' fd m' = (n', Ok q) ->
  same_variables_declared m m' -> NoDup (all_labels (m_vars m)) -> m_constrs m = m_constrs m' -> Forall constr_ok (dvals (m_constrs m)) ->
  (forall a, lawful (m_mtype m) a -> energy fd a m = energy fd a m') -> physical_eqb p q = true.
Proof.
  intros ev evs ev' evs' fd m m' n n' p q HR HL E HR' HL' E' HS HN EC HC HE. apply (C125_energies _ _ _ _ _ _ _ _ _ _ _ _ HR HL E HR' HL' E' HS HN).
  intros a LA. pose proof HS as (ET & _). assert (HC' : Forall constr_ok (dvals (m_constrs m'))) by (rewrite <- EC; exact HC). specialize (HE a LA). destruct (m_mtype m) eqn:EM; cbn [PropsSolvers.legal_assignment] in LA.
  - rewrite (C09_ising _ _ _ _ _ _ a HL EM HC E LA), (C09_ising _ _ _ _ _ _ a HL' (eq_sym ET) HC' E' LA), HE, EC. reflexivity.
  - rewrite (C09_qubo _ _ _ _ _ _ a HL EM HC E LA), (C09_qubo _ _ _ _ _ _ a HL' (eq_sym ET) HC' E' LA), HE, EC. reflexivity.
Qed.
(** In particular additions in two different orders give equal physical models. *)
Theorem C124_physical : forall l l' m m1 m2 ev evs ev' evs' fd n n' p q, reachable m -> aligned m -> Forall proper_call l -> Permutation l l' ->
  NoDup (all_labels (m_vars m)) -> Forall constr_ok (dvals (m_constrs m)) -> makes l m = (m1, Ok tt) -> makes l' m = (m2, Ok tt) ->
  to_physical ev evs fd m1 = (n, Ok p) -> to_physical ev' evs' fd m2 = (n', Ok q) -> physical_eqb p q = true.
Proof.
  intros l l' m m1 m2 ev evs ev' evs' fd n n' p q HR HA HP HL HN HC E1 E2 T1 T2. destruct (C124_order l l' m m1 HA HP HL E1) as (m2' & E2' & _ & SR & _ & HE). assert (m2' = m2) by congruence. subst m2'.
  assert (HP' : Forall proper_call l') by (rewrite Forall_forall in *; intros c HI; apply HP; eapply Permutation_in; [apply Permutation_sym; exact HL|exact HI]).
  destruct (makes_effect _ _ _ HA HP E1) as (_ & _ & _ & S1 & A1 & _). destruct (makes_effect _ _ _ HA HP' E2) as (_ & _ & _ & S2 & A2 & _).
  assert (RR : forall l m m', reachable m -> makes l m = (m', Ok tt) -> reachable m').
  { clear. induction l as [|c l IH]; intros m m' HR E; [injection E as <-; exact HR|]. unfold makes in E. cbn [mfor] in E. fold (makes l) in E. unfold bind at 1 in E. destruct (make c m) as [mm [[]|e]] eqn:EM; [|discriminate].
    apply (IH mm m'); auto. assert (H := r_op (ca_env c) (fun _ => ca_env c) (OAdd (ca_target c) (ca_name c) (ca_coef c) (ca_scale c) (ca_attrs c) (ca_ts c)) m HR). cbn [do_op] in H. unfold make in EM. rewrite EM in H. exact H. }
  apply (C125_interactions ev evs ev' evs' fd m1 m2 n n' p q); auto; try (destruct A1, A2; assumption).
  - apply (RR l m); auto.
  - apply (RR l' m); auto.
  - destruct SR as (A & B & C & D & _). split; [congruence|]. split; [congruence|]. intros x. rewrite D. tauto.
  - destruct S1 as (_ & V & _). rewrite V. exact HN.
  - destruct SR as (_ & _ & _ & _ & _ & K & _). congruence.
  - destruct S1 as (_ & _ & _ & _ & _ & K & _). rewrite K. exact HC.
Qed.

(** ** C126: equivalent ways to enter an interaction *)
Lemma make_reachable c m m' : reachable m -> make c m = (m', Ok tt) -> reachable m'.
Proof.
  intros HR EM. assert (H := r_op (ca_env c) (fun _ => ca_env c) (OAdd (ca_target c) (ca_name c) (ca_coef c) (ca_scale c) (ca_attrs c) (ca_ts c)) m HR). cbn [do_op] in H. unfold make in EM. rewrite EM in H. exact H.
Qed.
Lemma add_reachable ev t n co sc a ts m m' : reachable m -> add_interaction ev t n co sc a ts m = (m', Ok tt) -> reachable m'.
Proof. intros HR E. apply (make_reachable (mkCall ev t n co sc a ts) m m' HR E). Qed.
Lemma conclude m m1 m2 ev evs ev' evs' fd n n' p q : NoDup (all_labels (m_vars m)) -> Forall constr_ok (dvals (m_constrs m)) ->
  reachable m1 -> reachable m2 -> m_len m1 = length (m_rows m1) -> m_len m2 = length (m_rows m2) -> same_rest m m1 -> same_rest m m2 ->
  (forall a, energy fd a m1 = energy fd a m2) ->
  to_physical ev evs fd m1 = (n, Ok p) -> to_physical ev' evs' fd m2 = (n', Ok q) -> physical_eqb p q = true.
Proof.
  intros HN HC R1 R2 L1 L2 (A1 & A2 & A3 & A4 & A5 & A6 & _) (B1 & B2 & B3 & B4 & B5 & B6 & _) HE T1 T2.
  apply (C125_interactions ev evs ev' evs' fd m1 m2 n n' p q); auto.
  - split; [congruence|]. split; [congruence|]. intros l. rewrite A4, B4. tauto.
  - rewrite A2. exact HN.
  - congruence.
  - rewrite A6. exact HC.
Qed.
Lemma update_length ev t n co sc a ts m m' nm : aligned m -> attrs_wf a -> refers t n nm -> In nm (names m) ->
  update_interaction ev t n co sc a ts m = (m', Ok tt) -> m_len m' = m_len m.
Proof.
  intros HA HW HRef HIn E. pose proof (proj2 (internal_name_spec t n m nm) (conj HRef HIn)) as EIN.
  destruct (update_split ev t n co sc a ts m) as [(e' & E')|(c&s&d&q&U&[(nm'&l1&x&l2&EI&ER&HX&HN&HR&E')|(NT&(inf&EI&HH)&E')])].
  - congruence.
  - rewrite EIN in EI. inversion EI; subst nm'. pose proof U as [U1 U2 U3 U4].
    assert (ND : forall d0, d = Some d0 -> NoDup (dkeys d0)).
    { intros d0 ->. destruct a; simpl in U3; inversion U3; subst. apply HW; auto. }
    subst nm. destruct (update_at_rect m l1 x l2 c s d q (aligned_rect _ HA) ER HN ND) as (z & Ez & R & C & L & _).
    rewrite E', Ez in E. inversion E; subst z. exact L.
  - exfalso. unfold has_name in HH. apply mem_nin in HH. apply HH.
    destruct HRef as [[_ [i HD]]|(-> & -> & HNE)].
    + apply denotes_info in HD. rewrite EI in HD. inversion HD; subst; auto.
    + simpl in EI. discriminate.
Qed.
Lemma last_row (l : list row) : forall l1 y x l2, ~ In (r_name x) (map r_name l) -> l ++ [y] = l1 ++ x :: l2 -> l1 = l /\ l2 = [] /\ x = y.
Proof.
  induction l as [|h l IH]; intros k y z k2 HN E; destruct k as [|h' k]; cbn [app map] in *.
  - injection E as <- <-. auto.
  - injection E as <- E. destruct k; discriminate.
  - injection E as <- E. exfalso. apply HN. left. reflexivity.
  - injection E as <- E. destruct (IH k y z k2) as (-> & -> & ->); auto.
    intros C. apply HN. right. exact C.
Qed.
(** A coefficient and a scale are as good as their product. *)
Theorem C126_scale : forall ev t n c s a ts a' ts' ev1 m m1 m2 evp evs evp' evs' fd n1 n2 p q,
  reachable m -> aligned m -> attrs_wf a -> attrs_wf a' -> NoDup (all_labels (m_vars m)) -> Forall constr_ok (dvals (m_constrs m)) ->
  add_interaction ev t n (AC c) (AC s) a ts m = (m1, Ok tt) -> add_interaction ev1 t n (AC (cmul c s)) (AC (CNum 1%Qc)) a' ts' m = (m2, Ok tt) ->
  (forall v, energy fd v m1 = energy fd v m2) /\
  (to_physical evp evs fd m1 = (n1, Ok p) -> to_physical evp' evs' fd m2 = (n2, Ok q) -> physical_eqb p q = true).
Proof.
  intros ev t n c s a ts a' ts' ev1 m m1 m2 evp evs evp' evs' fd n1 n2 p q HR HA WA WA' HN HC E1 E2.
  destruct (C03_effect _ _ _ _ _ _ _ _ _ HA WA E1) as (c1 & s1 & i1 & d1 & nm1 & X1 & Y1 & D1 & _ & _ & R1 & S1 & A1 & _).
  destruct (C03_effect _ _ _ _ _ _ _ _ _ HA WA' E2) as (c2 & s2 & i2 & d2 & nm2 & X2 & Y2 & D2 & _ & _ & R2 & S2 & A2 & _).
  injection X1 as <-. injection Y1 as <-. injection X2 as <-. injection Y2 as <-.
  assert (EI : i1 = i2) by (apply denotes_info in D1, D2; congruence). subst i2.
  assert (HE : forall v, energy fd v m1 = energy fd v m2).
  { intros v. unfold energy. rewrite R1, R2, !map_app, !qsum_app. destruct S1 as (_ & _ & O1 & _), S2 as (_ & _ & O2 & _). rewrite O1, O2. unfold contribution. cbn [map qsum r_removed r_coef r_scale r_key].
    rewrite value_cmul. change (value fd (CNum 1%Qc)) with 1%Qc. ring. }
  split; auto. apply (conclude m m1 m2); auto; try (destruct A1, A2; assumption); eapply add_reachable; eauto.
Qed.
(** Two interactions of the same variables, under different names, are as good as one with the sum of the coefficients. *)
Theorem C126_split : forall ev t n c d s a ts ev1 n1 a1 ts1 ev2 n2 a2 ts2 m m1 m2 m3 evp evs evp' evs' fd k k' p q,
  reachable m -> aligned m -> attrs_wf a -> attrs_wf a1 -> attrs_wf a2 -> NoDup (all_labels (m_vars m)) -> Forall constr_ok (dvals (m_constrs m)) ->
  add_interaction ev t n (AC (CNum (c + d)%Qc)) (AC s) a ts m = (m1, Ok tt) ->
  add_interaction ev1 t n1 (AC (CNum c)) (AC s) a1 ts1 m = (m2, Ok tt) -> add_interaction ev2 t n2 (AC (CNum d)) (AC s) a2 ts2 m2 = (m3, Ok tt) ->
  (forall v, energy fd v m1 = energy fd v m3) /\
  (to_physical evp evs fd m1 = (k, Ok p) -> to_physical evp' evs' fd m3 = (k', Ok q) -> physical_eqb p q = true).
Proof.
  intros ev t n c d s a ts ev1 n1 a1 ts1 ev2 n2 a2 ts2 m m1 m2 m3 evp evs evp' evs' fd k k' p q HR HA W W1 W2 HN HC E1 E2 E3.
  destruct (C03_effect _ _ _ _ _ _ _ _ _ HA W E1) as (c1 & s1 & i1 & d1 & nm1 & X1 & Y1 & D1 & _ & _ & R1 & S1 & A1 & _).
  destruct (C03_effect _ _ _ _ _ _ _ _ _ HA W1 E2) as (c2 & s2 & i2 & d2 & nm2 & X2 & Y2 & D2 & _ & _ & R2 & S2 & A2 & _).
  destruct (C03_effect _ _ _ _ _ _ _ _ _ A2 W2 E3) as (c3 & s3 & i3 & d3 & nm3 & X3 & Y3 & D3 & _ & _ & R3 & S3 & A3 & _).
  injection X1 as <-. injection Y1 as <-. injection X2 as <-. injection Y2 as <-. injection X3 as <-. injection Y3 as <-.
  assert (EI : i1 = i2) by (apply denotes_info in D1, D2; congruence). subst i2. assert (EI : i1 = i3) by (apply denotes_info in D1, D3; congruence). subst i3.
  pose proof (same_rest_trans _ _ _ S2 S3) as S23.
  assert (HE : forall v, energy fd v m1 = energy fd v m3).
  { intros v. unfold energy. rewrite R3, R1, R2, !map_app, !qsum_app. destruct S1 as (_ & _ & O1 & _), S23 as (_ & _ & O2 & _). rewrite O1, O2. unfold contribution. cbn [map qsum r_removed r_coef r_scale r_key].
    change (value fd (CNum c)) with c. change (value fd (CNum d)) with d. change (value fd (CNum (c + d)%Qc)) with (c + d)%Qc. ring. }
  assert (Q1 : reachable m1) by (eapply add_reachable; eauto). assert (Q2 : reachable m2) by (exact (add_reachable _ _ _ _ _ _ _ _ _ HR E2)). assert (Q3 : reachable m3) by (exact (add_reachable _ _ _ _ _ _ _ _ _ Q2 E3)).
  split; auto. apply (conclude m m1 m3); auto; destruct A1, A3; assumption.
Qed.
(** Adding an interaction and then updating its coefficient and scale is as good as adding it with the final values. *)
Theorem C126_update : forall ev t n co sc a ts ev1 t1 k1 b r a1 ts1 ev2 a2 ts2 m m1 m2 m3 i dn nm evp evs evp' evs' fd n1 n2 p q,
  reachable m -> aligned m -> attrs_wf a -> attrs_wf a1 -> attrs_wf a2 -> NoDup (all_labels (m_vars m)) -> Forall constr_ok (dvals (m_constrs m)) ->
  denotes t i dn -> stored_name n dn nm -> refers t1 k1 nm ->
  add_interaction ev t n co sc a ts m = (m1, Ok tt) -> update_interaction ev1 t1 k1 (Some (AC (CNum b))) (Some (AC (CNum r))) a1 ts1 m1 = (m2, Ok tt) ->
  add_interaction ev2 t n (AC (CNum b)) (AC (CNum r)) a2 ts2 m = (m3, Ok tt) ->
  (forall v, energy fd v m2 = energy fd v m3) /\
  (to_physical evp evs fd m2 = (n1, Ok p) -> to_physical evp' evs' fd m3 = (n2, Ok q) -> physical_eqb p q = true).
Proof.
  intros ev t n co sc a ts ev1 t1 k1 b r a1 ts1 ev2 a2 ts2 m m1 m2 m3 i dn nm evp evs evp' evs' fd n1 n2 p q HR HA W W1 W2 HN HC HD HS HF E1 E2 E3.
  destruct (C03_effect _ _ _ _ _ _ _ _ _ HA W E1) as (c1 & s1 & i1 & d1 & nm1 & X1 & Y1 & D1 & S1 & NI & R1 & SR1 & A1 & _).
  destruct (C03_effect _ _ _ _ _ _ _ _ _ HA W2 E3) as (c3 & s3 & i3 & d3 & nm3 & X3 & Y3 & D3 & S3 & _ & R3 & SR3 & A3 & _).
  injection X3 as <-. injection Y3 as <-.
  assert (EI : i1 = i /\ d1 = dn) by (apply denotes_info in D1, HD; split; congruence). destruct EI as [-> ->].
  assert (EI : i3 = i /\ d3 = dn) by (apply denotes_info in D3, HD; split; congruence). destruct EI as [-> ->].
  assert (EN : nm1 = nm) by (apply add_name_spec in S1, HS; congruence). subst nm1.
  assert (NM : In nm (names m1)) by (unfold names; rewrite R1, map_app; apply in_or_app; right; left; reflexivity).
  destruct (C04_update _ _ _ _ _ _ _ _ _ _ A1 W1 HF NM E2) as (l1 & x & x' & l2 & U1 & U2 & U3 & U4 & U5 & (V1 & V2 & V3 & V4 & V5 & (z & Z1 & Z2) & (z' & Z3 & Z4) & _) & SR2 & _).
  injection Z1 as <-. injection Z3 as <-.
  assert (EX : l1 = m_rows m /\ l2 = [] /\ r_key x = inter_key i).
  { rewrite R1 in U1. destruct (last_row _ _ _ _ _ (ltac:(rewrite U2; exact NI)) U1) as (-> & -> & ->). auto. }
  destruct EX as (-> & -> & EK).
  assert (HE : forall v, energy fd v m2 = energy fd v m3).
  { intros v. unfold energy. rewrite U5, R3, !map_app, !qsum_app. destruct SR1 as (_ & _ & O1 & _), SR2 as (_ & _ & O2 & _), SR3 as (_ & _ & O3 & _). rewrite O2, O1, O3. unfold contribution. cbn [map qsum r_removed r_coef r_scale r_key].
    rewrite V4, V2, EK, Z2, Z4. rewrite U4. ring. }
  assert (R : reachable m1) by (eapply add_reachable; eauto).
  split; auto. apply (conclude m m2 m3); auto.
  - assert (H := r_op ev1 (fun _ => ev1) (OUpdate t1 k1 (Some (AC (CNum b))) (Some (AC (CNum r))) a1 ts1) m1 R). cbn [do_op] in H. rewrite E2 in H. exact H.
  - exact (add_reachable _ _ _ _ _ _ _ _ _ HR E3).
  - rewrite (update_length _ _ _ _ _ _ _ _ _ _ A1 W1 HF NM E2). pose proof A1 as (L & _). rewrite L, R1, U5, !app_length. reflexivity.
  - apply A3.
  - exact (same_rest_trans _ _ _ SR1 SR2).
Qed.
(** Adding an interaction and removing it again is as good as nothing. *)
Theorem C126_remove : forall ev t n co sc a ts t1 k1 m m1 m2 i dn nm evp evs evp' evs' fd n1 n2 p q,
  reachable m -> aligned m -> attrs_wf a -> NoDup (all_labels (m_vars m)) -> Forall constr_ok (dvals (m_constrs m)) ->
  denotes t i dn -> stored_name n dn nm -> refers t1 k1 nm ->
  add_interaction ev t n co sc a ts m = (m1, Ok tt) -> remove_interaction t1 k1 m1 = (m2, Ok tt) ->
  (forall v, energy fd v m2 = energy fd v m) /\
  (to_physical evp evs fd m2 = (n1, Ok p) -> to_physical evp' evs' fd m = (n2, Ok q) -> physical_eqb p q = true).
Proof.
  intros ev t n co sc a ts t1 k1 m m1 m2 i dn nm evp evs evp' evs' fd n1 n2 p q HR HA W HN HC HD HS HF E1 E2.
  destruct (C03_effect _ _ _ _ _ _ _ _ _ HA W E1) as (c1 & s1 & i1 & d1 & nm1 & X1 & Y1 & D1 & S1 & NI & R1 & SR1 & A1 & _).
  assert (EI : i1 = i /\ d1 = dn) by (apply denotes_info in D1, HD; split; congruence). destruct EI as [-> ->].
  assert (EN : nm1 = nm) by (apply add_name_spec in S1, HS; congruence). subst nm1.
  destruct (C06_effect _ _ _ _ E2) as (nm' & l1 & x & l2 & HF' & U1 & U2 & U3 & EM & HE).
  assert (EN : nm' = nm).
  { destruct HF as [[F1 [j F2]]|(F1 & F2 & F3)], HF' as [[G1 [k G2]]|(G1 & G2 & G3)].
    - apply denotes_info in F2, G2. congruence.
    - subst. inversion F2.
    - subst. inversion G2.
    - congruence. }
  rewrite R1 in U1. rewrite EN in U2. destruct (last_row _ _ _ _ _ (ltac:(rewrite U2; exact NI)) U1) as (-> & -> & ->).
  assert (HE' : forall v, energy fd v m2 = energy fd v m).
  { intros v. rewrite HE. unfold energy. rewrite R1, map_app, qsum_app. destruct SR1 as (_ & _ & O1 & _). rewrite O1. cbn [map qsum]. ring. }
  assert (R : reachable m1) by (eapply add_reachable; eauto).
  split; auto. apply (conclude m m2 m); auto.
  - assert (H := r_op ev (fun _ => ev) (ORemove t1 k1) m1 R). cbn [do_op] in H. rewrite E2 in H. exact H.
  - rewrite EM. cbn [m_len m_rows with_rows]. pose proof A1 as (L & _). rewrite L, R1, !app_length. reflexivity.
  - apply HA.
  - rewrite EM. destruct SR1 as (? & ? & ? & ? & ? & ? & ?). repeat split; auto.
  - repeat split.
Qed.

(** ** The hypotheses can be met *)
Definition base_model : lmodel := run_ops [OVariables (VName "q") (ShTuple [ShInt 3]); OAddConstraint (Some (NHot [bin "q" 0; bin "q" 1] 1 "one" 1%Qc))] (new_model Qubo).
Definition calls0 : list call :=
  [mkCall env0 (TVar (bin "q" 0)) (NStr "") (num 5) (num 2) (AtDict [("k", ANum (qz 3))]) TsNone;
   mkCall env0 (TTuple [EVar (bin "q" 2); EVar (bin "q" 1)]) (NStr "J") (AC (CPh "A")) (num 1) AtNone (TsNum (qz 7));
   mkCall env0 (TVar (bin "q" 0)) (NStr "again") (num (-4)) (num 1) (AtDict [("l", AStr "x")]) TsNone].
Definition after (x : lmodel * res unit) : lmodel := fst x.
Lemma base_facts : reachable base_model /\ aligned base_model /\ NoDup (all_labels (m_vars base_model)) /\ Forall constr_ok (dvals (m_constrs base_model)).
Proof.
  split; [apply history_reachable, run_history; constructor|]. split; [apply alignedb_ok; vm_compute; reflexivity|]. split; [apply nodupb_ok; vm_compute; reflexivity|].
  repeat constructor; cbn; intuition discriminate.
Qed.
Definition ok_physical (x : lmodel * res physical) : bool := match snd x with Ok _ => true | Err _ => false end.
Lemma ok_physical_ex x : ok_physical x = true -> exists n p, x = (n, Ok p).
Proof. destruct x as [n [p|e]]; [eauto|discriminate]. Qed.
Example C124_hyps : reachable base_model /\ aligned base_model /\ NoDup (all_labels (m_vars base_model)) /\ Forall constr_ok (dvals (m_constrs base_model)) /\
  Forall proper_call calls0 /\ Permutation calls0 (rev calls0) /\ (exists m1 m2, makes calls0 base_model = (m1, Ok tt) /\ makes (rev calls0) base_model = (m2, Ok tt) /\ m_rows m1 <> m_rows m2 /\
    (exists n p, to_physical env0 evs0 [("A", qz 2)] m1 = (n, Ok p)) /\ exists n p, to_physical env0 evs0 [("A", qz 2)] m2 = (n, Ok p)).
Proof.
  destruct base_facts as (H1 & H2 & H3 & H4). do 4 (split; auto). split; [|split; [apply Permutation_rev|]].
  - repeat constructor; intros d E; inversion E; subst; apply nodupb_ok; reflexivity.
  - exists (after (makes calls0 base_model)), (after (makes (rev calls0) base_model)). split; [vm_compute; reflexivity|]. split; [vm_compute; reflexivity|]. split.
    + intros E. apply (f_equal (map r_name)) in E. vm_compute in E. discriminate.
    + split; apply ok_physical_ex; vm_compute; reflexivity.
Qed.
Example C125_hyps : exists m m' n n' p q, m <> m' /\ reachable m /\ reachable m' /\ m_len m = length (m_rows m) /\ m_len m' = length (m_rows m') /\
  to_physical env0 evs0 [("A", qz 2)] m = (n, Ok p) /\ to_physical env0 evs0 [("A", qz 2)] m' = (n', Ok q) /\ same_variables_declared m m' /\ NoDup (all_labels (m_vars m)) /\ m_constrs m = m_constrs m' /\
  Forall constr_ok (dvals (m_constrs m)) /\ (forall a, lawful (m_mtype m) a -> energy [("A", qz 2)] a m = energy [("A", qz 2)] a m') /\ (forall a, lawful (m_mtype m) a -> energy_physical a p = energy_physical a q).
Proof.
  destruct C124_hyps as (H1 & H2 & H3 & H4 & H5 & H6 & m1 & m2 & E1 & E2 & NE & (n & p & T1) & (n' & q & T2)).
  destruct (C124_order _ _ _ _ H2 H5 H6 E1) as (m2' & E2' & _ & SR & _ & HE). assert (m2' = m2) by congruence. subst m2'.
  assert (H5' : Forall proper_call (rev calls0)) by (apply Forall_rev; exact H5).
  destruct (makes_effect _ _ _ H2 H5 E1) as (_ & _ & _ & S1 & A1 & _). destruct (makes_effect _ _ _ H2 H5' E2) as (_ & _ & _ & S2 & A2 & _).
  exists m1, m2, n, n', p, q. split; [congruence|].
  assert (RR : forall l m m', reachable m -> makes l m = (m', Ok tt) -> reachable m').
  { clear. induction l as [|c l IH]; intros m m' HR E; [injection E as <-; exact HR|]. unfold makes in E. cbn [mfor] in E. fold (makes l) in E. unfold bind at 1 in E. destruct (make c m) as [mm [[]|e]] eqn:EM; [|discriminate].
    apply (IH mm m'); auto. eapply make_reachable; eauto. }
  assert (R1 : reachable m1) by (exact (RR _ _ _ H1 E1)). assert (R2 : reachable m2) by (exact (RR _ _ _ H1 E2)).
  assert (L1 : m_len m1 = length (m_rows m1)) by apply A1. assert (L2 : m_len m2 = length (m_rows m2)) by apply A2.
  do 6 (split; auto). split; [destruct SR as (A & B & C & D & _); split; [congruence|]; split; [congruence|]; intros x; rewrite D; tauto|].
  split; [destruct S1 as (_ & V & _); rewrite V; exact H3|]. split; [destruct SR as (_ & _ & _ & _ & _ & K & _); congruence|].
  assert (HC : Forall constr_ok (dvals (m_constrs m1))) by (destruct S1 as (_ & _ & _ & _ & _ & K & _); rewrite K; exact H4). split; auto. split; [intros a _; apply HE|].
  assert (EQ : physical_eqb p q = true) by (exact (C124_physical _ _ _ _ _ _ _ _ _ _ _ _ _ _ H1 H2 H5 H6 H3 H4 E1 E2 T1 T2)). intros a LA. apply C64_equal_energy; auto.
  - eapply C64_from_logical; [exact L1| |exact T1]. destruct S1 as (_ & V & _). rewrite V. exact H3.
  - eapply C64_from_logical; [exact L2| |exact T2]. destruct S2 as (_ & V & _). rewrite V. exact H3.
Qed.
Definition tq : target := TVar (bin "q" 0).
Example C126_hyps : denotes tq (I1 (bin "q" 0)) "q[0]" /\ stored_name (NStr "") "q[0]" "q[0]" /\ refers TNone (NStr "q[0]") "q[0]" /\ attrs_wf AtNone /\
  (* scale *) (exists m1 m2, add_interaction env0 tq (NStr "") (AC (CPh "A")) (num 3) AtNone TsNone base_model = (m1, Ok tt) /\ add_interaction env0 tq (NStr "") (AC (cmul (CPh "A") (CNum (qz 3)))) (AC (CNum 1%Qc)) AtNone TsNone base_model = (m2, Ok tt) /\
    (exists n p, to_physical env0 evs0 [("A", qz 2)] m1 = (n, Ok p)) /\ exists n p, to_physical env0 evs0 [("A", qz 2)] m2 = (n, Ok p)) /\
  (* split *) (exists m1 m2 m3, add_interaction env0 tq (NStr "") (AC (CNum (qz 2 + qz 3)%Qc)) (num 1) AtNone TsNone base_model = (m1, Ok tt) /\ add_interaction env0 tq (NStr "") (num 2) (num 1) AtNone TsNone base_model = (m2, Ok tt) /\
    add_interaction env0 tq (NStr "other") (num 3) (num 1) AtNone TsNone m2 = (m3, Ok tt) /\ (exists n p, to_physical env0 evs0 [] m1 = (n, Ok p)) /\ exists n p, to_physical env0 evs0 [] m3 = (n, Ok p)) /\
  (* update, remove *) (exists m1 m2 m3 m4, add_interaction env0 tq (NStr "") (num 2) (num 1) AtNone TsNone base_model = (m1, Ok tt) /\ update_interaction env0 TNone (NStr "q[0]") (Some (AC (CNum (qz 7)))) (Some (AC (CNum (qz 4)))) AtNone TsNone m1 = (m2, Ok tt) /\
    add_interaction env0 tq (NStr "") (AC (CNum (qz 7))) (AC (CNum (qz 4))) AtNone TsNone base_model = (m3, Ok tt) /\ remove_interaction TNone (NStr "q[0]") m1 = (m4, Ok tt) /\
    (exists n p, to_physical env0 evs0 [] m2 = (n, Ok p)) /\ (exists n p, to_physical env0 evs0 [] m3 = (n, Ok p)) /\ (exists n p, to_physical env0 evs0 [] m4 = (n, Ok p)) /\ exists n p, to_physical env0 evs0 [] base_model = (n, Ok p)).
Proof.
  split; [constructor|]. split; [left; split; reflexivity|]. split; [right; repeat split; discriminate|]. split; [intros d E; discriminate|]. split; [|split].
  - exists (after (add_interaction env0 tq (NStr "") (AC (CPh "A")) (num 3) AtNone TsNone base_model)), (after (add_interaction env0 tq (NStr "") (AC (cmul (CPh "A") (CNum (qz 3)))) (AC (CNum 1%Qc)) AtNone TsNone base_model)).
    split; [vm_compute; reflexivity|]. split; [vm_compute; reflexivity|]. split; apply ok_physical_ex; vm_compute; reflexivity.
  - set (m2 := after (add_interaction env0 tq (NStr "") (num 2) (num 1) AtNone TsNone base_model)).
    exists (after (add_interaction env0 tq (NStr "") (AC (CNum (qz 2 + qz 3)%Qc)) (num 1) AtNone TsNone base_model)), m2, (after (add_interaction env0 tq (NStr "other") (num 3) (num 1) AtNone TsNone m2)).
    split; [vm_compute; reflexivity|]. split; [vm_compute; reflexivity|]. split; [vm_compute; reflexivity|]. split; apply ok_physical_ex; vm_compute; reflexivity.
  - set (m1 := after (add_interaction env0 tq (NStr "") (num 2) (num 1) AtNone TsNone base_model)).
    exists m1, (after (update_interaction env0 TNone (NStr "q[0]") (Some (AC (CNum (qz 7)))) (Some (AC (CNum (qz 4)))) AtNone TsNone m1)), (after (add_interaction env0 tq (NStr "") (AC (CNum (qz 7))) (AC (CNum (qz 4))) AtNone TsNone base_model)), (after (remove_interaction TNone (NStr "q[0]") m1)).
    do 4 (split; [vm_compute; reflexivity|]). split; [apply ok_physical_ex; vm_compute; reflexivity|]. split; [apply ok_physical_ex; vm_compute; reflexivity|]. split; apply ok_physical_ex; vm_compute; reflexivity.
Qed.
Print Assumptions C124_order.
Print Assumptions C125_energies_general.
Print Assumptions C125_energies.
Print Assumptions C125_interactions.
Print Assumptions C124_physical.
Print Assumptions C126_scale.
Print Assumptions C126_split.
Print Assumptions C126_update.
Print Assumptions C126_remove.
