(** * PropsBranch: C127 deleting a binary variable sets it to 0, C128 solving by cases, C129 solving after a conversion of the type. *)
From Verif Require Import PyBase PyLemmas Numbers Constraint LogicalModel Spec LogicalProofs EnergyProofs ConvertProofs PhysicalProofs ToPhysicalProofs ConstraintProofs Samples Physical BqmProofs History PropsHistory
  PropsInteractions PropsVariables PropsPhysical PropsBqm PropsAlike PropsConvert Solver SolverSpec PropsSolver Services PropsSolvers PropsPenalty ReachProofs PropsReach PropsTsp PropsDetermined PropsFixing PropsRejected PropsEntered PropsOrder.
Local Open Scope string_scope.
Local Open Scope list_scope.

(** ** Deleting *)

(** The variables of a constraint have different labels. *)
Definition labels_distinct (c : constr) : Prop :=
  match c with NHot vs _ _ _ | ZeroOrOne vs _ _ => NoDup (map v_label vs) | Equality v1 v2 _ _ => NoDup (map v_label v1) /\ NoDup (map v_label v2) end.

Lemma deleted_constraints v m m' : NoDup (dkeys (m_constrs m)) -> delete_variable (TVar v) m = (m', Ok tt) ->
  (forall l c, In (l, c) (m_constrs m) -> PropsVariables.mentions v c) /\ m_constrs m' = map (fun kc => (fst kc, without v (snd kc))) (m_constrs m).
Proof.
  intros ND E. destruct (first_refusal v (m_constrs m)) as [H|(pre & l & c & post & EC & HP & HM)].
  - split; auto. unfold delete_variable in E. cbv [guard t_truthy] in E. unfold bind at 1 in E. cbn [ret] in E. unfold bind at 1, modify in E. unfold bind at 1, get in E.
    set (m1 := with_deleted _ m) in E. change (m_constrs m1) with (m_constrs m) in E. unfold bind at 1 in E.
    rewrite (constrs_remove_ok v (m_constrs m) [] m1 eq_refl ND) in E by (apply Forall_forall; intros [l c] HI; eapply H; eauto). cbn [app] in E.
    set (cs := map _ (m_constrs m)) in *. unfold bind at 1 in E. destruct (select_by_variable (v_label v) (with_constrs cs m1)) as [m2 [sel|e]] eqn:ES; [|discriminate].
    assert (m2 = with_constrs cs m1) as ->.
    { unfold select_by_variable in ES. apply bind_ok in ES. destruct ES as (m4 & rows & E2 & E3). apply dataframe_ok in E2. destruct E2 as [-> ->]. unfold ret in E3. inversion E3. reflexivity. }
    assert (HK : forall l m2 m3, mfor l (fun n => remove_interaction TNone (NStr n)) m2 = (m3, Ok tt) -> m_constrs m3 = m_constrs m2).
    { clear. induction l as [|n l IH]; intros m2 m3 E; [inversion E; reflexivity|]. cbn [mfor] in E. unfold bind at 1 in E. destruct (remove_interaction TNone (NStr n) m2) as [mm [[]|e]] eqn:ER; [|discriminate].
      rewrite (IH _ _ E). destruct (C06_effect _ _ _ _ ER) as (nm & l1 & x & l2 & _ & _ & _ & _ & -> & _). reflexivity. }
    rewrite (HK _ _ _ E). reflexivity.
  - exfalso. rewrite (delete_stops v m pre l c post EC ND) in E; [discriminate| |exact HM]. apply Forall_forall. intros [k d] HI. apply (HP k d HI).
Qed.
Lemma hot_without x v vs : In v vs -> NoDup (map v_label vs) -> hot (assign x (v_label v) 0) vs = hot x (filter (fun w => negb (var_eqb w v)) vs).
Proof.
  unfold hot. induction vs as [|w vs IH]; intros HI ND; [destruct HI|]. cbn [map] in ND. inversion ND as [|? ? NI ND']; subst. cbn [map qsum filter].
  assert (HR : forall ws, ~ In (v_label v) (map v_label ws) -> qsum (map (fun w => assign x (v_label v) 0 (v_label w)) ws) = qsum (map (fun w => x (v_label w)) (filter (fun w => negb (var_eqb w v)) ws))).
  { clear. induction ws as [|w ws IH]; intros H; [reflexivity|]. cbn [map qsum filter]. rewrite IH by (intros C; apply H; right; exact C). unfold assign at 1.
    destruct (String.eqb_spec (v_label w) (v_label v)) as [E|NE]; [exfalso; apply H; left; exact E|].
    destruct (var_eqb w v) eqn:EV; [|reflexivity]. exfalso. apply NE. apply var_eqb_eq in EV. congruence. }
  destruct (var_eqb w v) eqn:EV.
  - apply var_eqb_eq in EV. subst w. cbn [negb]. rewrite HR by exact NI. unfold assign. rewrite String.eqb_refl. ring.
  - cbn [negb map qsum]. destruct HI as [->|HI]; [exfalso; rewrite (proj2 (var_eqb_eq v v) eq_refl) in EV; discriminate|]. rewrite IH by auto. f_equal. unfold assign.
    destruct (String.eqb_spec (v_label w) (v_label v)) as [E|NE]; [|reflexivity]. exfalso. apply NI. rewrite E. apply in_map, HI.
Qed.
Lemma penalty_without x v c : PropsVariables.mentions v c -> labels_distinct c -> penalty (assign x (v_label v) 0) c = penalty x (without v c).
Proof.
  destruct c as [vs n l s|vs l s|v1 v2 l s]; cbn [PropsVariables.mentions labels_distinct without penalty]; intros HM HD; [| |destruct HM]; rewrite (hot_without x v vs HM HD); reflexivity.
Qed.

(** Deleting a variable of a QUBO model is setting it to 0: in the interactions and in the constraints. *)
Theorem C127_objective : forall v m m' fd, names_unique m -> NoDup (dkeys (m_constrs m)) -> Forall labels_distinct (dvals (m_constrs m)) -> m_mtype m = Qubo ->
  delete_variable (TVar v) m = (m', Ok tt) ->
  m_mtype m' = Qubo /\ forall x, objective fd m' x = objective fd m (assign x (v_label v) 0).
Proof.
  intros v m m' fd HU ND HD HT E. destruct (C15_delete _ _ _ HU E) as (_ & _ & HE & T & _). destruct (deleted_constraints _ _ _ ND E) as (HM & HC).
  split; [congruence|]. intros x. unfold objective. rewrite T, HT. f_equal.
  - rewrite HE. clear HE. unfold energy. f_equal. f_equal. induction (m_rows m) as [|r rs IH]; [reflexivity|]. cbn [map qsum filter]. rewrite <- IH. clear IH. destruct (touches (v_label v) r) eqn:ET; cbn [negb].
    + assert (HZ : contribution fd (assign x (v_label v) 0) r = 0%Qc); [|rewrite HZ; ring]. unfold contribution. destruct (r_removed r); [reflexivity|].
      assert (HM0 : monomial (assign x (v_label v) 0) (r_key r) = 0%Qc).
      { unfold touches in ET. destruct (r_key r) as [a|a b]; cbn [monomial key_touches] in *; unfold assign.
        - rewrite ET. reflexivity.
        - destruct (String.eqb a (v_label v)); cbn [orb] in ET; [ring|rewrite ET; ring]. }
      rewrite HM0. ring.
    + cbn [map qsum]. rewrite (contribution_untouched fd x (v_label v) 0 r ET). reflexivity.
  - unfold penalties, dvals. rewrite HC. f_equal. rewrite !map_map. apply map_ext_in. intros [l c] HI. cbn [fst snd]. symmetry. apply penalty_without; [eapply HM; eauto|].
    rewrite Forall_forall in HD. apply HD. change c with (snd (l, c)). apply in_map, HI.
Qed.
(** Hence a best answer for the model after the deletion is a best one, with 0 for the variable, for the model before it. *)
Theorem C127_best : forall neal ev evs v m m1 m2 p fd rows s e a, aligned m -> names_unique m -> NoDup (dkeys (m_constrs m)) -> Forall labels_distinct (dvals (m_constrs m)) ->
  Forall constr_ok (dvals (m_constrs m)) -> m_mtype m = Qubo ->
  delete_variable (TVar v) m = (m1, Ok tt) -> to_physical ev evs fd m1 = (m2, Ok p) ->
  local_solve true neal (Some p) = Ok rows -> lowest s e rows ->
  binary a -> (forall l z, dget l s = Some z -> a l = qz z) ->
  forall b, binary b -> b (v_label v) = 0%Qc -> (objective fd m (assign a (v_label v) 0) <= objective fd m b)%Qc.
Proof.
  intros neal ev evs v m m1 m2 p fd rows s e a AL HU ND HD HK HT E EP ES LW LA HS b LB HB.
  assert (A1 := ak_delete _ _ _ _ E AL). destruct (C127_objective v m m1 fd HU ND HD HT E) as [T HO]. destruct (deleted_constraints _ _ _ ND E) as (_ & HC).
  rewrite <- HO, <- (objective_ext fd m _ _ (assign_eq b _ _ HB)), <- HO.
  apply (C75_ground_state neal ev evs fd m1 m2 p rows s e a); auto; [apply A1| |rewrite T; exact LA|rewrite T; exact LB].
  rewrite HC. unfold dvals. rewrite map_map. apply Forall_map, Forall_forall. intros [l c] HI. cbn [fst snd]. rewrite Forall_forall in HK. specialize (HK c (ltac:(change c with (snd (l, c)); apply in_map, HI))).
  destruct c as [vs n k st|vs k st|v1 v2 k st]; cbn [without constr_ok] in *; auto using NoDup_filter. destruct HK as [K1 K2]. split; [apply NoDup_filter, K1|].
  clear - K2. induction vs as [|w vs IH]; cbn [filter map]; [constructor|]. cbn [map] in K2. inversion K2 as [|? ? NI K2']; subst. specialize (IH K2'). destruct (negb (var_eqb w v)); [|exact IH]. cbn [map]. constructor; [|exact IH].
  intros C. apply NI. apply in_map_iff in C. destruct C as (y & EY & HY). apply filter_In in HY. rewrite <- EY. apply in_map, HY.
Qed.
(** Without constraints it is the same as fixing the variable to 0: the same interactions stay, with the same contents, and the physical models are equal. *)
Theorem C127_fix : forall ev ev' evs ev'' evs'' v m m1 m2 fd n1 n2 p q, reachable m -> aligned m -> well_formed m -> resolved fd m -> m_constrs m = [] ->
  (forall r, In r (m_rows m) -> touches (v_label v) r = true -> active r) -> NoDup (all_labels (m_vars m)) -> m_mtype m = Qubo ->
  delete_variable (TVar v) m = (m1, Ok tt) -> fix_variable ev (TVar v) 0%Qc m = (m2, Ok tt) ->
  (forall s, energy fd s m1 = energy fd s m2) /\
  (to_physical ev' evs fd m1 = (n1, Ok p) -> to_physical ev'' evs'' fd m2 = (n2, Ok q) -> physical_eqb q p = true).
Proof.
  intros ev ev' evs ev'' evs'' v m m1 m2 fd n1 n2 p q RE AL HW HR HC HA HN HT E1 E2.
  destruct (C127_objective v m m1 fd (proj1 HW) (ltac:(rewrite HC; constructor)) (ltac:(rewrite HC; constructor)) HT E1) as [T1 HO].
  destruct (deleted_constraints v m m1 (ltac:(rewrite HC; constructor)) E1) as [_ HC1]. rewrite HC in HC1. cbn [map] in HC1.
  destruct (C17_fix _ _ _ _ _ _ HW HR HA E2) as (EN & _ & T2 & V2 & D2 & C2 & _). destruct (C15_delete _ _ _ (proj1 HW) E1) as (_ & _ & _ & _ & V1 & _ & _ & _ & _ & _ & _ & D1).
  assert (HE : forall s, energy fd s m1 = energy fd s m2).
  { intros s. rewrite EN. specialize (HO s). unfold objective in HO. rewrite HC, HC1 in HO. cbn [dvals map penalties qsum] in HO. unfold penalties in HO. cbn [dvals map qsum] in HO. rewrite !Qcplus_0_r in HO. exact HO. }
  split; [exact HE|]. intros P1 P2.
  assert (A1 := ak_delete _ _ _ _ E1 AL). assert (A2 := ak_fix _ _ _ _ _ _ E2 AL).
  assert (R1 : reachable m1) by (assert (H := r_op ev (fun _ => ev) (ODelete (TVar v)) m RE); cbn [do_op] in H; rewrite E1 in H; exact H).
  assert (R2 : reachable m2) by (assert (H := r_op ev (fun _ => ev) (OFix (TVar v) 0%Qc) m RE); cbn [do_op] in H; rewrite E2 in H; exact H).
  assert (NO : ~ occurs q (v_label v)).
  { apply (C109_absent_partial ev ev'' evs'' v 0 m m2 n2 q fd); auto; rewrite HC; [constructor|intros c []]. }
  apply (C125_energies_general _ _ _ _ _ _ m2 m1 _ _ q p R2 (proj1 A2) P2 R1 (proj1 A1) P1).
  - congruence.
  - congruence.
  - intros l OC. rewrite D2, D1. assert (l <> v_label v) by (intros ->; contradiction). tauto.
  - rewrite V2. exact HN.
  - intros a LA. rewrite (C09_no_constraints _ _ _ _ _ _ (proj1 A2) (ltac:(congruence)) P2 a), (C09_no_constraints _ _ _ _ _ _ (proj1 A1) HC1 P1 a). symmetry. apply HE.
Qed.

(** ** Cases *)

(** The two values of a variable. *)
Definition two_values (t : mtype) (x y : Qc) : Prop :=
  match t with Ising => x = (- (1))%Qc /\ y = 1%Qc | Qubo => x = 0%Qc /\ y = 1%Qc end.
Lemma two_values_cover t x y a l : two_values t x y -> lawful t a -> a l = x \/ a l = y.
Proof. intros H LA. destruct t; cbn [two_values PropsSolvers.legal_assignment] in *; destruct H as [-> ->]; destruct (LA l); auto. Qed.
(** The energy of a physical model is the objective, up to a constant that depends on the constraints only. *)
Lemma physical_offset ev evs fd m m' p a : m_len m = length (m_rows m) -> Forall constr_ok (dvals (m_constrs m)) -> to_physical ev evs fd m = (m', Ok p) -> lawful (m_mtype m) a ->
  energy_physical a p = (objective fd m a + match m_mtype m with Ising => qsum (map ising_shift (dvals (m_constrs m))) | Qubo => 0 end)%Qc.
Proof.
  intros HL HC E LA. unfold objective. destruct (m_mtype m) eqn:ET; cbn [PropsSolvers.legal_assignment] in LA.
  - rewrite (C09_ising _ _ _ _ _ _ a HL ET HC E LA). ring.
  - rewrite (C09_qubo _ _ _ _ _ _ a HL ET HC E LA). ring.
Qed.
Lemma lowest_energy neal ev evs fd m m' p rows s e a : m_len m = length (m_rows m) -> Forall constr_ok (dvals (m_constrs m)) -> to_physical ev evs fd m = (m', Ok p) ->
  local_solve true neal (Some p) = Ok rows -> lowest s e rows -> lawful (m_mtype m) a -> (forall l z, dget l s = Some z -> a l = qz z) -> e = energy_physical a p.
Proof.
  intros HL HC E ES LW LA HA. destruct (C75_minimum _ _ _ _ _ ES LW) as [-> _]. apply energy_physical_ext. intros l OC.
  destruct LW as ((c & HI) & _). destruct (C75_exact _ _ _ ES) as (HR & _). destruct (HR _ _ _ HI) as (_ & _ & HK & _).
  apply HK in OC. apply dget_some_in in OC. destruct OC as [z OC]. unfold SolverSpec.value_of. rewrite OC. symmetry. apply HA, OC.
Qed.
(** The two models with a variable fixed, solved one by one: the answer with the lower reported energy, completed
    with the fixed value, is a best assignment of the model. *)
Theorem C128_cases : forall neal ev ev' evs neal2 ev2 ev2' evs2 v x y m mx my nx ny px py fd rx ry sx sy ex ey ax ay,
  aligned m -> well_formed m -> resolved fd m -> (forall r, In r (m_rows m) -> touches (v_label v) r = true -> active r) ->
  Forall constr_ok (dvals (m_constrs m)) -> (forall c, In c (dvals (m_constrs m)) -> ~ In (v_label v) (all_labels_of c)) -> two_values (m_mtype m) x y ->
  fix_variable ev (TVar v) x m = (mx, Ok tt) -> to_physical ev' evs fd mx = (nx, Ok px) -> local_solve true neal (Some px) = Ok rx -> lowest sx ex rx ->
  fix_variable ev2 (TVar v) y m = (my, Ok tt) -> to_physical ev2' evs2 fd my = (ny, Ok py) -> local_solve true neal2 (Some py) = Ok ry -> lowest sy ey ry ->
  lawful (m_mtype m) ax -> (forall l z, dget l sx = Some z -> ax l = qz z) -> lawful (m_mtype m) ay -> (forall l z, dget l sy = Some z -> ay l = qz z) ->
  forall b, lawful (m_mtype m) b ->
    ((ex <= ey)%Qc -> (objective fd m (assign ax (v_label v) x) <= objective fd m b)%Qc) /\
    ((ey <= ex)%Qc -> (objective fd m (assign ay (v_label v) y) <= objective fd m b)%Qc).
Proof.
  intros neal ev ev' evs neal2 ev2 ev2' evs2 v x y m mx my nx ny px py fd rx ry sx sy ex ey ax ay AL HW HR HA HK HC TV EX PX SX LX EY PY SY LY LAX HSX LAY HSY b LB.
  assert (AX := ak_fix _ _ _ _ _ _ EX AL). assert (AY := ak_fix _ _ _ _ _ _ EY AL).
  destruct (C17_fix _ _ _ _ _ _ HW HR HA EX) as (_ & _ & X1 & _ & _ & X4 & _). destruct (C17_fix _ _ _ _ _ _ HW HR HA EY) as (_ & _ & Y1 & _ & _ & Y4 & _).
  pose proof (fixed_objective fd _ _ _ _ _ HW HR HA HC EX) as FX. pose proof (fixed_objective fd _ _ _ _ _ HW HR HA HC EY) as FY.
  assert (HKX : Forall constr_ok (dvals (m_constrs mx))) by (rewrite X4; exact HK). assert (HKY : Forall constr_ok (dvals (m_constrs my))) by (rewrite Y4; exact HK).
  assert (LX' : lawful (m_mtype mx) ax) by (rewrite X1; exact LAX). assert (LY' : lawful (m_mtype my) ay) by (rewrite Y1; exact LAY).
  pose proof (lowest_energy _ _ _ _ _ _ _ _ _ _ _ (proj1 AX) HKX PX SX LX LX' HSX) as EEX. pose proof (lowest_energy _ _ _ _ _ _ _ _ _ _ _ (proj1 AY) HKY PY SY LY LY' HSY) as EEY.
  rewrite (physical_offset _ _ _ _ _ _ _ (proj1 AX) HKX PX LX'), FX, X1, X4 in EEX. rewrite (physical_offset _ _ _ _ _ _ _ (proj1 AY) HKY PY LY'), FY, Y1, Y4 in EEY.
  set (k := match m_mtype m with Ising => _ | Qubo => _ end) in *.
  assert (BX : b (v_label v) = x -> (objective fd m (assign ax (v_label v) x) <= objective fd m b)%Qc) by (intros HB; eapply (C109_best_partial neal ev ev' evs v x m mx nx px fd rx sx ex ax); eauto).
  assert (BY : b (v_label v) = y -> (objective fd m (assign ay (v_label v) y) <= objective fd m b)%Qc) by (intros HB; eapply (C109_best_partial neal2 ev2 ev2' evs2 v y m my ny py fd ry sy ey ay); eauto).
  assert (CMP : forall c d : Qc, (c + k <= d + k)%Qc -> (c <= d)%Qc).
  { intros c d H. apply (Qcplus_le_compat _ _ (- k)%Qc (- k)%Qc) in H; [|apply Qcle_refl]. replace (c + k + - k)%Qc with c in H by ring. replace (d + k + - k)%Qc with d in H by ring. exact H. }
  split; intros HLE; subst ex ey; apply CMP in HLE; destruct (two_values_cover _ _ _ b (v_label v) TV LB) as [HB|HB]; auto; eapply Qcle_trans; eauto.
Qed.

(** ** Conversion of the type *)

(** An exact solution of the converted model is one of the model, with the constraints taken into account. *)
Theorem C129_to_ising : forall neal ev ev' evs m m1 m2 p fd rows s e a, aligned m -> well_formed m -> unit_scales m -> resolves fd (m_offset m) -> Forall constr_ok (dvals (m_constrs m)) ->
  m_mtype m = Qubo -> to_ising ev m = (m1, Ok tt) -> to_physical ev' evs fd m1 = (m2, Ok p) -> local_solve true neal (Some p) = Ok rows -> lowest s e rows ->
  spin a -> (forall l z, dget l s = Some z -> a l = qz z) ->
  binary (to_binary a) /\ forall b, binary b -> (objective fd m (to_binary a) <= objective fd m b)%Qc.
Proof.
  intros neal ev ev' evs m m1 m2 p fd rows s e a AL HW HU HO HK HT E EP ES LW LA HS.
  destruct (C19_to_ising _ _ _ _ HW HU HO HT E) as (T1 & k & HE). assert (A1 : aligned m1) by (unfold to_ising in E; eapply convert_aligned; eauto).
  assert (C1 : m_constrs m1 = m_constrs m).
  { unfold to_ising in E. destruct (convert_ok _ _ _ _ _ _ _ _ _ _ E (ltac:(rewrite HT; reflexivity)) HW) as (ex & off & vs & _ & _ & HF & _). unfold frame in HF. congruence. }
  assert (HOB : forall c, objective fd m1 c = (objective fd m (to_binary c) + k)%Qc) by (intros c; unfold objective; rewrite T1, HT, HE, C1; ring).
  split; [apply to_binary_spin, LA|]. intros b LB.
  assert (H : (objective fd m1 a <= objective fd m1 (to_spin b))%Qc).
  { apply (C75_ground_state neal ev' evs fd m1 m2 p rows s e a); auto; [apply A1|rewrite C1; exact HK|rewrite T1; exact LA|rewrite T1; apply to_spin_binary, LB]. }
  rewrite !HOB in H. rewrite (objective_ext fd m (to_binary (to_spin b)) b) in H by (intros l; apply to_binary_to_spin).
  apply (Qcplus_le_compat _ _ (- k)%Qc (- k)%Qc) in H; [|apply Qcle_refl]. replace (objective fd m (to_binary a) + k + - k)%Qc with (objective fd m (to_binary a)) in H by ring. replace (objective fd m b + k + - k)%Qc with (objective fd m b) in H by ring. exact H.
Qed.
Theorem C129_to_qubo : forall neal ev ev' evs m m1 m2 p fd rows s e a, aligned m -> well_formed m -> unit_scales m -> resolves fd (m_offset m) -> Forall constr_ok (dvals (m_constrs m)) ->
  m_mtype m = Ising -> to_qubo ev m = (m1, Ok tt) -> to_physical ev' evs fd m1 = (m2, Ok p) -> local_solve true neal (Some p) = Ok rows -> lowest s e rows ->
  binary a -> (forall l z, dget l s = Some z -> a l = qz z) ->
  spin (to_spin a) /\ forall b, spin b -> (objective fd m (to_spin a) <= objective fd m b)%Qc.
Proof.
  intros neal ev ev' evs m m1 m2 p fd rows s e a AL HW HU HO HK HT E EP ES LW LA HS.
  destruct (C19_to_qubo _ _ _ _ HW HU HO HT E) as (T1 & k & HE). assert (A1 : aligned m1) by (unfold to_qubo in E; eapply convert_aligned; eauto).
  assert (C1 : m_constrs m1 = m_constrs m).
  { unfold to_qubo in E. destruct (convert_ok _ _ _ _ _ _ _ _ _ _ E (ltac:(rewrite HT; reflexivity)) HW) as (ex & off & vs & _ & _ & HF & _). unfold frame in HF. congruence. }
  assert (PE : forall x y, (forall l, x l = y l) -> penalties x (dvals (m_constrs m)) = penalties y (dvals (m_constrs m))) by (intros x y H; unfold penalties; f_equal; apply map_ext; intros c; apply penalty_ext, H).
  assert (HOB : forall c, objective fd m1 c = (objective fd m (to_spin c) + k)%Qc).
  { intros c. unfold objective. rewrite T1, HT, HE, C1. rewrite (PE (to_binary (to_spin c)) c) by (intros l; apply to_binary_to_spin). ring. }
  split; [apply to_spin_binary, LA|]. intros b LB.
  assert (H : (objective fd m1 a <= objective fd m1 (to_binary b))%Qc).
  { apply (C75_ground_state neal ev' evs fd m1 m2 p rows s e a); auto; [apply A1|rewrite C1; exact HK|rewrite T1; exact LA|rewrite T1; apply to_binary_spin, LB]. }
  rewrite !HOB in H. rewrite (objective_ext fd m (to_spin (to_binary b)) b) in H by (intros l; unfold to_spin, to_binary; field; discriminate).
  apply (Qcplus_le_compat _ _ (- k)%Qc (- k)%Qc) in H; [|apply Qcle_refl]. replace (objective fd m (to_spin a) + k + - k)%Qc with (objective fd m (to_spin a)) in H by ring. replace (objective fd m b + k + - k)%Qc with (objective fd m b) in H by ring. exact H.
Qed.

(** ** The hypotheses can be met *)
Definition solvableb (x : lmodel * res physical) : bool :=
  match snd x with Ok p => negb (Nat.eqb (length (p_linear p) + length (p_quad p)) 0) && forallb (fun k => negb (String.eqb (fst k) (snd k))) (dkeys (p_quad p)) | Err _ => false end.
Lemma solved ev evs fd m : m_len m = length (m_rows m) -> solvableb (to_physical ev evs fd m) = true ->
  exists n p rows s e a, to_physical ev evs fd m = (n, Ok p) /\ local_solve true (fun _ => Ok []) (Some p) = Ok rows /\ lowest s e rows /\ lawful (m_mtype m) a /\ (forall l z, dget l s = Some z -> a l = qz z).
Proof.
  intros HL H. unfold solvableb in H. destruct (to_physical ev evs fd m) as [n [p|e]] eqn:E; cbn [snd] in H; [|discriminate]. apply andb_prop in H. destruct H as [H1 H2].
  destruct (C75_succeeds (fun _ => Ok []) p) as [rows ER].
  { destruct (p_linear p); [right|left; discriminate]. destruct (p_quad p); [discriminate H1|discriminate]. }
  { intros l HI. rewrite forallb_forall in H2. apply H2 in HI. cbn [fst snd] in HI. rewrite String.eqb_refl in HI. discriminate. }
  destruct (C75_has_lowest _ _ _ ER) as (s & e & LW). exists n, p, rows, s, e, (fun l => match dget l s with Some z => qz z | None => 1%Qc end).
  split; auto. split; auto. split; auto. split; [|intros l z HG; rewrite HG; reflexivity].
  destruct LW as ((c & HI) & _). destruct (C75_exact _ _ _ ER) as (HR & _). destruct (HR _ _ _ HI) as (_ & _ & _ & HV).
  assert (HM : p_mtype p = m_mtype m) by (destruct (to_physical_ok _ _ _ _ _ _ HL E) as (cms' & _ & _ & ->); unfold phys, build_physical; destruct (index_labels _ _ _ _ _ _); reflexivity).
  rewrite HM in HV. rewrite Forall_forall in HV.
  assert (HG : forall l, dget l s = None \/ exists z, dget l s = Some z /\ legal (m_mtype m) z).
  { intros l. destruct (dget l s) as [z|] eqn:EG; [right|left; reflexivity]. exists z. split; auto. apply HV. apply dget_in in EG. change z with (snd (l, z)). apply in_map, EG. }
  destruct (m_mtype m); intros l; destruct (HG l) as [->|(z & -> & LZ)]; auto; cbn [legal] in LZ; destruct LZ as [-> | ->]; auto.
Qed.
Definition shop : lmodel := run_ops
  [OVariables (VName "q") (ShTuple [ShInt 4]); OAdd (TVar (bin "q" 0)) (NStr "") (num 5) (num 1) AtNone TsNone;
   OAdd (TTuple [EVar (bin "q" 0); EVar (bin "q" 3)]) (NStr "") (num (-3)) (num 1) AtNone TsNone; OAdd (TVar (bin "q" 2)) (NStr "") (num 2) (num 1) AtNone TsNone;
   OAdd (TVar (bin "q" 3)) (NStr "") (num (-1)) (num 1) AtNone TsNone;
   OAddConstraint (Some (NHot [bin "q" 0; bin "q" 1; bin "q" 2] 1 "one" (qz 4)))] (new_model Qubo).
Definition shop_spin : lmodel := fst (to_ising env0 shop).
Definition bare : lmodel := run_ops
  [OVariables (VName "q") (ShTuple [ShInt 4]); OAdd (TVar (bin "q" 0)) (NStr "") (num 5) (num 1) AtNone TsNone;
   OAdd (TTuple [EVar (bin "q" 0); EVar (bin "q" 3)]) (NStr "") (num (-3)) (num 1) AtNone TsNone; OAdd (TVar (bin "q" 2)) (NStr "") (num 2) (num 1) AtNone TsNone] (new_model Qubo).
Lemma shop_constr : Forall constr_ok (dvals (m_constrs shop)) /\ Forall labels_distinct (dvals (m_constrs shop)).
Proof. split; (constructor; [|constructor]); apply nodupb_ok; vm_compute; reflexivity. Qed.
Example C127_hyps : (exists m1, aligned shop /\ names_unique shop /\ NoDup (dkeys (m_constrs shop)) /\ Forall labels_distinct (dvals (m_constrs shop)) /\ Forall constr_ok (dvals (m_constrs shop)) /\ m_mtype shop = Qubo /\
    delete_variable (TVar (bin "q" 0)) shop = (m1, Ok tt) /\
    exists n p rows s e a, to_physical env0 evs0 [] m1 = (n, Ok p) /\ local_solve true (fun _ => Ok []) (Some p) = Ok rows /\ lowest s e rows /\ lawful (m_mtype m1) a /\ (forall l z, dget l s = Some z -> a l = qz z)) /\
  (exists m1 m2, reachable bare /\ aligned bare /\ well_formed bare /\ resolved [] bare /\ m_constrs bare = [] /\ Forall active (m_rows bare) /\ NoDup (all_labels (m_vars bare)) /\
    delete_variable (TVar (bin "q" 0)) bare = (m1, Ok tt) /\ fix_variable env0 (TVar (bin "q" 0)) 0%Qc bare = (m2, Ok tt) /\
    (exists n p, to_physical env0 evs0 [] m1 = (n, Ok p)) /\ exists n p, to_physical env0 evs0 [] m2 = (n, Ok p)).
Proof.
  split.
  - exists (fst (delete_variable (TVar (bin "q" 0)) shop)). split; [apply alignedb_ok; vm_compute; reflexivity|]. split; [apply wfb_ok; vm_compute; reflexivity|]. split; [apply nodupb_ok; vm_compute; reflexivity|].
    split; [apply shop_constr|]. split; [apply shop_constr|]. split; [reflexivity|]. split; [apply (ok_unit (delete_variable (TVar (bin "q" 0)) shop)); vm_compute; reflexivity|].
    apply solved; vm_compute; reflexivity.
  - exists (fst (delete_variable (TVar (bin "q" 0)) bare)), (fst (fix_variable env0 (TVar (bin "q" 0)) 0%Qc bare)).
    split; [apply PropsReach.history_reachable, run_history; constructor|]. split; [apply alignedb_ok; vm_compute; reflexivity|]. split; [apply wfb_ok; vm_compute; reflexivity|]. split; [apply resolvedb_ok; vm_compute; reflexivity|].
    split; [reflexivity|]. split; [repeat constructor|]. split; [apply nodupb_ok; vm_compute; reflexivity|].
    split; [apply (ok_unit (delete_variable (TVar (bin "q" 0)) bare)); vm_compute; reflexivity|]. split; [apply (ok_unit (fix_variable env0 (TVar (bin "q" 0)) 0%Qc bare)); vm_compute; reflexivity|].
    split; apply ok_physical_ex; vm_compute; reflexivity.
Qed.
(** Variable [q[3]] is not in the constraint. *)
Example C128_hyps : aligned shop /\ well_formed shop /\ resolved [] shop /\ Forall active (m_rows shop) /\ Forall constr_ok (dvals (m_constrs shop)) /\
  (forall c, In c (dvals (m_constrs shop)) -> ~ In (v_label (bin "q" 3)) (all_labels_of c)) /\ two_values (m_mtype shop) 0 1 /\
  (exists mx, fix_variable env0 (TVar (bin "q" 3)) 0 shop = (mx, Ok tt) /\
    exists n p rows s e a, to_physical env0 evs0 [] mx = (n, Ok p) /\ local_solve true (fun _ => Ok []) (Some p) = Ok rows /\ lowest s e rows /\ lawful (m_mtype mx) a /\ (forall l z, dget l s = Some z -> a l = qz z)) /\
  (exists my, fix_variable env0 (TVar (bin "q" 3)) 1 shop = (my, Ok tt) /\
    exists n p rows s e a, to_physical env0 evs0 [] my = (n, Ok p) /\ local_solve true (fun _ => Ok []) (Some p) = Ok rows /\ lowest s e rows /\ lawful (m_mtype my) a /\ (forall l z, dget l s = Some z -> a l = qz z)).
Proof.
  split; [apply alignedb_ok; vm_compute; reflexivity|]. split; [apply wfb_ok; vm_compute; reflexivity|]. split; [apply resolvedb_ok; vm_compute; reflexivity|]. split; [repeat constructor|]. split; [apply shop_constr|].
  split; [intros c [<-|[]]; cbn; intuition discriminate|]. split; [split; reflexivity|]. split.
  - exists (fst (fix_variable env0 (TVar (bin "q" 3)) 0 shop)). split; [apply (ok_unit (fix_variable env0 (TVar (bin "q" 3)) 0 shop)); vm_compute; reflexivity|]. apply solved; vm_compute; reflexivity.
  - exists (fst (fix_variable env0 (TVar (bin "q" 3)) 1 shop)). split; [apply (ok_unit (fix_variable env0 (TVar (bin "q" 3)) 1 shop)); vm_compute; reflexivity|]. apply solved; vm_compute; reflexivity.
Qed.
Lemma ising_facts ev m m1 fd : well_formed m -> unit_scales m -> resolves fd (m_offset m) -> m_mtype m = Qubo -> to_ising ev m = (m1, Ok tt) ->
  m_mtype m1 = Ising /\ m_constrs m1 = m_constrs m /\ resolves fd (m_offset m1) /\ unit_scales m1.
Proof.
  intros W U O HT E. destruct (C19_to_ising _ _ _ fd W U O HT E) as [T _]. unfold to_ising in E.
  destruct (convert_ok _ _ _ _ _ _ _ _ _ _ E (ltac:(rewrite HT; reflexivity)) W) as (ex & off & vs & _ & OF & HF & _ & _ & _ & _ & HO). unfold frame in HF.
  assert (C : m_constrs m1 = m_constrs m) by congruence. destruct (HO fd O) as (O' & _). rewrite <- OF in O'. split; auto. split; auto. split; auto. eapply convert_unit; eauto.
Qed.
Example C129_hyps : aligned shop /\ well_formed shop /\ unit_scales shop /\ resolves [] (m_offset shop) /\ Forall constr_ok (dvals (m_constrs shop)) /\ m_mtype shop = Qubo /\ to_ising env0 shop = (shop_spin, Ok tt) /\
  (exists n p rows s e a, to_physical env0 evs0 [] shop_spin = (n, Ok p) /\ local_solve true (fun _ => Ok []) (Some p) = Ok rows /\ lowest s e rows /\ lawful (m_mtype shop_spin) a /\ (forall l z, dget l s = Some z -> a l = qz z)) /\
  aligned shop_spin /\ well_formed shop_spin /\ unit_scales shop_spin /\ resolves [] (m_offset shop_spin) /\ Forall constr_ok (dvals (m_constrs shop_spin)) /\ m_mtype shop_spin = Ising /\
  exists m1, to_qubo (evs0 1) shop_spin = (m1, Ok tt) /\ exists n p rows s e a, to_physical env0 evs0 [] m1 = (n, Ok p) /\ local_solve true (fun _ => Ok []) (Some p) = Ok rows /\ lowest s e rows /\ lawful (m_mtype m1) a /\ (forall l z, dget l s = Some z -> a l = qz z).
Proof.
  assert (A : aligned shop) by (apply alignedb_ok; vm_compute; reflexivity). assert (W : well_formed shop) by (apply wfb_ok; vm_compute; reflexivity).
  assert (U : unit_scales shop) by (intros r HI _; repeat (destruct HI as [<-|HI]; [reflexivity|]); destruct HI). assert (O : resolves [] (m_offset shop)) by (intros H; discriminate H).
  assert (E : to_ising env0 shop = (shop_spin, Ok tt)) by (apply (ok_unit (to_ising env0 shop)); vm_compute; reflexivity).
  destruct (ising_facts env0 shop shop_spin [] W U O eq_refl E) as (T & C & O' & U'). destruct shop_constr as [SC _].
  do 4 (split; [assumption|]). split; [exact SC|]. split; [reflexivity|]. split; [exact E|]. split; [apply solved; vm_compute; reflexivity|].
  split; [apply alignedb_ok; vm_compute; reflexivity|]. split; [apply wfb_ok; vm_compute; reflexivity|].
  split; [exact U'|]. split; [exact O'|]. split; [rewrite C; exact SC|]. split; [exact T|].
  exists (fst (to_qubo (evs0 1) shop_spin)). split; [apply (ok_unit (to_qubo (evs0 1) shop_spin)); vm_compute; reflexivity|]. apply solved; vm_compute; reflexivity.
Qed.
Print Assumptions C127_objective.
Print Assumptions C127_best.
Print Assumptions C127_fix.
Print Assumptions C128_cases.
Print Assumptions C129_to_ising.
Print Assumptions C129_to_qubo.
