(** * PropsRebuild: C142, a model that has been edited is as good as one built from scratch. *)
From Verif Require Import TspProofs MergeProofs PyBase PyLemmas Numbers Constraint LogicalModel Spec LogicalProofs PhysicalProofs ToPhysicalProofs EnergyProofs Samples Physical BqmProofs InteractionProofs History PropsHistory
  PropsInteractions PropsPhysical PropsBqm EqualitySpec ProperProofs ConstrFrame PropsDeclare PropsClass PropsAlike Solver SolverSpec PropsSolver Services PropsSolvers PropsPenalty ReachProofs PropsReach PropsTsp PropsDetermined
  PropsEntered PropsOrder PropsEntry PropsUnits PropsLandscape.
Local Open Scope string_scope.
Local Open Scope list_scope.

(** ** Specification *)

(** The call that enters an interaction again, as it is now. *)
Definition enter_again (r : row) : op :=
  OAdd (match r_inter r with I1 v => TVar v | I2 v w => TTuple [EVar v; EVar w] end) (NStr (r_name r)) (AC (r_coef r)) (AC (r_scale r)) AtNone
    (match r_ts r with Some t => TsNum t | None => TsNone end).
(** The calls that write down a model from scratch: declare the variables by name and shape, delete the deleted ones, add the
    interactions that are in force, set the offset, add the constraints. *)
Definition from_scratch (m : lmodel) : list op :=
  map (fun na => OVariables (VName (fst na)) (ShTuple (map ShInt (a_shape (snd na))))) (m_vars m) ++
  map (fun l => ODelete (TVar (mkVar l (kind_of (m_mtype m))))) (dkeys (m_deleted m)) ++
  map enter_again (filter (fun r => negb (r_removed r)) (m_rows m)) ++
  [OOffset (m_offset m)] ++ map (fun c => OAddConstraint (Some c)) (dvals (m_constrs m)).
(** The calls one after the other; None when one of them raises. *)
Definition all_return (ev : env) (evs : nat -> env) (l : list op) (m : lmodel) : option lmodel := PropsAlike.run (map (fun o => (ev, evs, o)) l) m.
(** An interaction without the marks of the bookkeeping. *)
Definition content (r : row) : string * ikey * inter * coef * coef := (r_name r, r_key r, r_inter r, r_coef r, r_scale r).
(** Every constraint is stored under its own label. *)
Definition own_labels (m : lmodel) : Prop := forall k c, In (k, c) (m_constrs m) -> c_label c = k.
(** Every interaction in force has a name other than the empty string. *)
Definition named (m : lmodel) : Prop := forall r, In r (m_rows m) -> active r -> r_name r <> "".

(** ** Proof *)
Lemma run_app l l' m : PropsAlike.run (l ++ l') m = match PropsAlike.run l m with Some n => PropsAlike.run l' n | None => None end.
Proof. revert m. induction l as [|[[ev evs] o] l IH]; intros m; cbn [app PropsAlike.run]; auto. destruct (do_op ev evs o m) as [m1 [u|e]]; auto. Qed.
Lemma run_reachable ev evs l : forall m n, reachable m -> all_return ev evs l m = Some n -> reachable n.
Proof.
  unfold all_return. induction l as [|o l IH]; intros m n HR E; cbn [map PropsAlike.run] in E; [injection E as <-; auto|].
  destruct (do_op ev evs o m) as [m1 [u|e]] eqn:EO; [|discriminate]. apply (IH m1); auto. assert (H := r_op ev evs o m HR). rewrite EO in H. exact H.
Qed.
Lemma declare_all ev evs l : forall m, NoDup (dkeys (m_vars m ++ l)) -> (forall n a, In (n, a) l -> exists sh, array_create n sh (vt_of (m_mtype m)) = Ok a) ->
  all_return ev evs (map (fun na => OVariables (VName (fst na)) (ShTuple (map ShInt (a_shape (snd na))))) l) m = Some (with_vars (m_vars m ++ l) m).
Proof.
  unfold all_return. induction l as [|[n a] l IH]; intros m ND HC; cbn [map PropsAlike.run do_op fst snd].
  - rewrite app_nil_r. destruct m; reflexivity.
  - destruct (HC n a (or_introl eq_refl)) as [sh EA]. pose proof (array_create_shape _ _ _ _ EA) as ES. destruct (array_create_bits _ _ _ _ EA) as (_ & HN & HP).
    cbn [variables]. assert (EC : check_shape false (ShTuple (map ShInt (a_shape a))) = Ok (a_shape a)).
    { cbn [check_shape]. rewrite (proj2 (sh_ints_plain _ _) eq_refl). rewrite ES. destruct sh; [|reflexivity]. exfalso. clear -EA. unfold array_create in EA. destruct (has_char _ _); discriminate. }
    rewrite EC, ES, EA.
    assert (HK : ~ In n (dkeys (m_vars m))).
    { unfold dkeys in *. rewrite map_app in ND. cbn [map fst] in ND. apply NoDup_remove_2 in ND. intros C. apply ND. apply in_or_app. auto. }
    rewrite dset_keys_new by auto. rewrite IH.
    + cbn [m_vars with_vars]. rewrite <- app_assoc. reflexivity.
    + cbn [m_vars with_vars]. rewrite <- app_assoc. exact ND.
    + intros n' a' HI. cbn [m_mtype with_vars]. apply HC. right. exact HI.
Qed.
Lemma delete_bare v m : m_rows m = [] -> m_constrs m = [] -> df_ok m = true -> delete_variable (TVar v) m = (with_deleted (dset (v_label v) true (m_deleted m)) m, Ok tt).
Proof.
  intros HR HC HD. unfold delete_variable, bind, guard, modify, get. cbn [t_truthy ret]. cbn [m_constrs with_deleted]. rewrite HC. cbn [dkeys map mfor ret].
  unfold select_by_variable, bind, dataframe. assert (E : df_ok (with_deleted (dset (v_label v) true (m_deleted m)) m) = true) by exact HD. rewrite E. cbn [m_rows with_deleted]. rewrite HR. reflexivity.
Qed.
Lemma delete_all ev evs vt l : forall m, m_rows m = [] -> m_constrs m = [] -> df_ok m = true ->
  exists d, all_return ev evs (map (fun l => ODelete (TVar (mkVar l vt))) l) m = Some (with_deleted d m) /\ forall x, In x (dkeys d) <-> In x (dkeys (m_deleted m)) \/ In x l.
Proof.
  unfold all_return. induction l as [|x l IH]; intros m HR HC HD; cbn [map PropsAlike.run do_op].
  - exists (m_deleted m). split; [destruct m; reflexivity|]. intros y. simpl. tauto.
  - rewrite delete_bare by auto. cbn [v_label]. destruct (IH (with_deleted (dset x true (m_deleted m)) m)) as (d & E & HD'); auto.
    exists d. split; [rewrite E; reflexivity|]. intros y. rewrite HD'. cbn [m_deleted with_deleted]. rewrite dset_in_iff. simpl. intuition auto.
Qed.
Definition call_again (ev : env) (r : row) : PropsOrder.call :=
  mkCall ev (match r_inter r with I1 v => TVar v | I2 v w => TTuple [EVar v; EVar w] end) (NStr (r_name r)) (AC (r_coef r)) (AC (r_scale r)) AtNone
    (match r_ts r with Some t => TsNum t | None => TsNone end).
Definition row_again (ev : env) (r : row) : row :=
  mkRow (r_name r) (r_key r) (r_inter r) (r_coef r) (r_scale r) (Some (match r_ts r with Some t => t | None => e_now ev end)) true false.
Lemma enter_all ev evs l : forall m, all_return ev evs (map enter_again l) m = match makes (map (call_again ev) l) m with (n, Ok _) => Some n | _ => None end.
Proof.
  unfold all_return. induction l as [|r l IH]; intros m; cbn [map PropsAlike.run]; [reflexivity|].
  unfold makes. cbn [mfor]. fold (makes (map (call_again ev) l)). unfold bind. change (do_op ev evs (enter_again r) m) with (make (call_again ev r) m).
  destruct (make (call_again ev r) m) as [m1 [[]|e]]; auto.
Qed.
Lemma call_row_again ev r : key_ok r -> r_name r <> "" -> call_row (call_again ev r) = Some (row_again ev r).
Proof.
  intros [HK HO] HN. unfold call_row, call_again, row_again. cbn [ca_coef ca_scale ca_attrs ca_ts ca_target ca_name ca_env].
  assert (EN : forall d, add_name (NStr (r_name r)) d = Ok (r_name r)).
  { intros d. unfold add_name. cbn [n_truthy]. destruct (String.eqb_spec (r_name r) ""); [contradiction|]. reflexivity. }
  assert (EI : exists inf, interaction_info match r_inter r with I1 v => TVar v | I2 v w => TTuple [EVar v; EVar w] end = Ok inf /\ in_key inf = r_key r /\ in_inter inf = r_inter r).
  { rewrite HK in *. destruct (r_inter r) as [v|v w]; cbn [inter_key interaction_info] in *; [eauto|]. rewrite HO.
    destruct (String.eqb_spec (v_label v) (v_label w)) as [E|_]; [rewrite E, TspProofs.label_irrefl in HO; discriminate|]. eauto. }
  destruct EI as (inf & -> & -> & ->). rewrite EN. destruct (r_ts r); reflexivity.
Qed.
Lemma constrain_all ev evs l : forall m, NoDup (dkeys (m_constrs m ++ l)) -> (forall k c, In (k, c) l -> c_label c = k) ->
  all_return ev evs (map (fun c => OAddConstraint (Some c)) (dvals l)) m = Some (with_constrs (m_constrs m ++ l) m).
Proof.
  unfold all_return, dvals. induction l as [|[k c] l IH]; intros m ND HC; cbn [map PropsAlike.run do_op snd].
  - rewrite app_nil_r. destruct m; reflexivity.
  - cbn [add_constraint modify]. rewrite (HC k c (or_introl eq_refl)).
    assert (HK : ~ In k (dkeys (m_constrs m))).
    { unfold dkeys in *. rewrite map_app in ND. cbn [map fst] in ND. apply NoDup_remove_2 in ND. intros C. apply ND. apply in_or_app. auto. }
    rewrite dset_keys_new by auto. rewrite IH.
    + cbn [m_constrs with_constrs]. rewrite <- app_assoc. reflexivity.
    + cbn [m_constrs with_constrs]. rewrite <- app_assoc. exact ND.
    + intros n' a' HI. apply HC. right. exact HI.
Qed.

(** What the calls build. *)
Lemma scratch ev evs m : careful m -> names_unique m -> named m -> own_labels m ->
  exists n, all_return ev evs (from_scratch m) (new_model (m_mtype m)) = Some n /\ reachable n /\ aligned n /\
    m_mtype n = m_mtype m /\ m_vars n = m_vars m /\ m_offset n = m_offset m /\ m_constrs n = m_constrs m /\ (forall l, In l (dkeys (m_deleted n)) <-> In l (dkeys (m_deleted m))) /\
    m_rows n = map (row_again ev) (filter (fun r => negb (r_removed r)) (m_rows m)).
Proof.
  intros HC NU NM OL. pose proof (careful_tidy _ HC) as HT. assert (HR : reachable m) by (clear -HT; induction HT; constructor; auto).
  destruct (careful_cl _ HC) as [CR _]. pose proof (C01_keys _ HR) as KO. destruct (reachable_regular _ HR) as ((V1 & V2 & V3 & V4 & _) & _).
  set (rs := filter (fun r => negb (r_removed r)) (m_rows m)).
  assert (HRS : forall r, In r rs -> In r (m_rows m) /\ active r) by (intros r HI; apply filter_In in HI; destruct HI as [A B]; split; auto; unfold active; destruct (r_removed r); auto; discriminate).
  assert (E1 := declare_all ev evs (m_vars m) (new_model (m_mtype m)) V1 CR). cbn [m_vars new_model app] in E1. set (m1 := with_vars (m_vars m) (new_model (m_mtype m))) in E1.
  destruct (delete_all ev evs (kind_of (m_mtype m)) (dkeys (m_deleted m)) m1) as (d & E2 & HD); try reflexivity. set (m2 := with_deleted d m1) in E2.
  assert (A2 : aligned m2) by (unfold aligned; cbn; repeat constructor).
  assert (HP : Forall proper_call (map (call_again ev) rs)) by (rewrite Forall_forall; intros c HI; apply in_map_iff in HI; destruct HI as (r & <- & _); intros d0 C; discriminate C).
  assert (EC : map call_row (map (call_again ev) rs) = map Some (map (row_again ev) rs)).
  { rewrite !map_map. apply map_ext_in. intros r HI. apply call_row_again; [rewrite Forall_forall in KO; apply KO; apply HRS; auto|]. destruct (HRS r HI). apply NM; auto. }
  destruct (proj2 (makes_iff (map (call_again ev) rs) m2 A2 HP)) as [m3 E3].
  { exists (map (row_again ev) rs). split; auto. split; [|intros r _ []]. rewrite map_map. cbn [row_again r_name]. unfold rs. clear -NU. unfold names_unique, names in NU.
    induction (m_rows m) as [|r l IH]; cbn [filter map]; [constructor|]. cbn [map] in NU. inversion NU as [|? ? N1 N2]; subst. destruct (negb (r_removed r)); cbn [map]; auto. constructor; auto.
    intros C. apply N1. apply in_map_iff in C. destruct C as (x & EX & HX). apply filter_In in HX. rewrite <- EX. apply in_map. tauto. }
  destruct (makes_effect _ _ _ A2 HP E3) as (rs' & H1 & H2 & H3 & H4 & _). rewrite EC in H1. apply map_some_inj in H1. subst rs'.
  destruct H3 as (S1 & S2 & S3 & S4 & S5 & S6 & S7).
  pose (m4 := with_offset (m_offset m) m3).
  assert (E5 : all_return ev evs (map (fun c => OAddConstraint (Some c)) (dvals (m_constrs m))) m4 = Some (with_constrs (m_constrs m) m4)).
  { rewrite (constrain_all ev evs (m_constrs m) m4); [|cbn [m4 m_constrs with_offset]; rewrite S6; exact V4|exact OL]. cbn [m4 m_constrs with_offset]. rewrite S6. reflexivity. }
  assert (EA : all_return ev evs (from_scratch m) (new_model (m_mtype m)) = Some (with_constrs (m_constrs m) m4)).
  { unfold from_scratch. fold rs. unfold all_return in *. rewrite !map_app, !run_app, E1, run_app, E2, run_app.
    pose proof (enter_all ev evs rs m2) as EE. unfold all_return in EE. rewrite EE, E3, run_app. cbn [map PropsAlike.run do_op]. change (set_offset (m_offset m) m3) with (m4, Ok tt). cbv iota. exact E5. }
  exists (with_constrs (m_constrs m) m4). split; [exact EA|].
  split; [eapply run_reachable; [|exact EA]; constructor|]. split; [exact H4|].
  cbn [m_mtype m_vars m_offset m_constrs m_deleted m_rows with_constrs m4 with_offset]. rewrite S1, S2, S4, H2.
  split; [reflexivity|]. split; [reflexivity|]. split; [reflexivity|]. split; [reflexivity|]. split; [|reflexivity].
  intros x. cbn [m2 m_deleted with_deleted]. rewrite HD. cbn [m1 m_deleted with_vars new_model dkeys map]. simpl. tauto.
Qed.
Lemma again_energy ev fd s l : qsum (map (contribution fd s) (map (row_again ev) (filter (fun r => negb (r_removed r)) l))) = qsum (map (contribution fd s) l).
Proof.
  induction l as [|r l IH]; [reflexivity|]. cbn [filter map qsum]. assert (EC : contribution fd s (row_again ev r) = if r_removed r then contribution fd s (row_again ev r) else contribution fd s r).
  { unfold contribution. cbn [row_again r_removed r_coef r_scale r_key]. destruct (r_removed r); reflexivity. }
  destruct (r_removed r) eqn:ER; cbn [negb map qsum]; rewrite IH; [|rewrite EC; reflexivity]. unfold contribution at 2. rewrite ER. ring.
Qed.

(** ** C142 *)
(** Take a model after a history of edits (declarations, additions, updates, removals, deletions, fixings, constraints,
    conversions, merges, loads, to_physical calls). The calls that write down its present content on an empty model all return,
    and the result has the same variables, interactions in force, deleted variables, constraints, offset and energy. *)
Theorem C142_content : forall ev evs m, careful m -> names_unique m -> named m -> own_labels m ->
  exists n, all_return ev evs (from_scratch m) (new_model (m_mtype m)) = Some n /\
    m_mtype n = m_mtype m /\ m_vars n = m_vars m /\ m_offset n = m_offset m /\ m_constrs n = m_constrs m /\
    (forall l, In l (dkeys (m_deleted n)) <-> In l (dkeys (m_deleted m))) /\
    Forall active (m_rows n) /\ map content (m_rows n) = map content (filter (fun r => negb (r_removed r)) (m_rows m)) /\
    (forall fd s, energy fd s n = energy fd s m).
Proof.
  intros ev evs m HC NU NM OL. destruct (scratch ev evs m HC NU NM OL) as (n & E & _ & _ & H1 & H2 & H3 & H4 & H5 & H6). exists n. do 6 (split; auto). split; [|split].
  - rewrite H6. rewrite Forall_forall. intros r HI. apply in_map_iff in HI. destruct HI as (x & <- & _). reflexivity.
  - rewrite H6, map_map. reflexivity.
  - intros fd s. unfold energy. rewrite H6, again_energy, H3. reflexivity.
Qed.
(** Whenever the edited model has a physical model, so has the one written from scratch, and the two are equal. *)
Theorem C142_physical : forall ev evs m n ev' evs' fd m' p, careful m -> names_unique m -> named m -> own_labels m ->
  NoDup (all_labels (m_vars m)) -> Forall constr_ok (dvals (m_constrs m)) ->
  all_return ev evs (from_scratch m) (new_model (m_mtype m)) = Some n -> to_physical ev' evs' fd m = (m', Ok p) ->
  exists n' q, to_physical ev' evs' fd n = (n', Ok q) /\ physical_eqb p q = true.
Proof.
  intros ev evs m n ev' evs' fd m' p HC NU NM OL ND CO E EP. destruct (scratch ev evs m HC NU NM OL) as (n2 & E2 & RN & AN & H1 & H2 & H3 & H4 & H5 & H6). rewrite E in E2. injection E2 as <-.
  pose proof (careful_tidy _ HC) as HT. assert (HR : reachable m) by (clear -HT; induction HT; constructor; auto). pose proof (C63_aligned_partial _ HT) as AM.
  destruct (to_physical_ok _ _ _ _ _ _ (proj1 AM) EP) as (cms & EC & [R1 R2] & _).
  assert (HB : forall r, In r (m_rows n) -> exists x, In x (m_rows m) /\ active x /\ r = row_again ev x).
  { intros r HI. rewrite H6 in HI. apply in_map_iff in HI. destruct HI as (x & <- & HX). apply filter_In in HX. destruct HX as [HX HY]. exists x. split; auto. split; auto. unfold active. destruct (r_removed x); auto; discriminate. }
  destruct (C09_to_physical_succeeds ev' evs' fd n cms) as (n' & q & EQ); auto.
  - unfold names_unique, names. rewrite H6, map_map. cbn [row_again r_name]. unfold names_unique, names in NU. clear -NU. induction (m_rows m) as [|r l IH]; cbn [filter map]; [constructor|]. cbn [map] in NU. inversion NU as [|? ? N1 N2]; subst.
    destruct (negb (r_removed r)); cbn [map]; auto. constructor; auto. intros C. apply N1. apply in_map_iff in C. destruct C as (x & EX & HX). apply filter_In in HX. rewrite <- EX. apply in_map. tauto.
  - split; [|rewrite H3; exact R2]. intros r HI _. destruct (HB r HI) as (x & HX & AX & ->). exact (R1 x HX AX).
  - rewrite H1, H4. exact EC.
  - intros r cm HI RR. destruct (HB r HI) as (x & _ & _ & ->). discriminate.
  - exists n', q. split; auto. apply (C125_interactions ev' evs' ev' evs' fd m n m' n'); auto; [apply AM|apply AN| |].
    + split; auto. split; auto. intros l. symmetry. apply H5.
    + intros a _. unfold energy. rewrite H6, again_energy, H3. reflexivity.
Qed.
(** SawatabiSolver then gives the same answer on both: samples, energies, numbers of occurrences and histories. *)
Theorem C142_solver : forall ev evs m n ev' evs' fd m' p w o, careful m -> names_unique m -> named m -> own_labels m ->
  NoDup (all_labels (m_vars m)) -> Forall constr_ok (dvals (m_constrs m)) ->
  all_return ev evs (from_scratch m) (new_model (m_mtype m)) = Some n -> to_physical ev' evs' fd m = (m', Ok p) -> covered m p ->
  world_ok w -> legal_states p o ->
  exists n' q, to_physical ev' evs' fd n = (n', Ok q) /\ result w q o = result w p o.
Proof.
  intros ev evs m n ev' evs' fd m' p w o HC NU NM OL ND CO E EP CV WO LS. destruct (C142_physical ev evs m n ev' evs' fd m' p HC NU NM OL ND CO E EP) as (n' & q & EQ & PE).
  exists n', q. split; auto. destruct (scratch ev evs m HC NU NM OL) as (n2 & E2 & RN & AN & H1 & H2 & H3 & H4 & H5 & H6). rewrite E in E2. injection E2 as <-.
  pose proof (careful_tidy _ HC) as HT. assert (HR : reachable m) by (clear -HT; induction HT; constructor; auto). pose proof (C63_aligned_partial _ HT) as AM.
  assert (ND2 : NoDup (all_labels (m_vars n))) by (rewrite H2; exact ND).
  pose proof (C64_from_logical _ _ _ _ _ _ (proj1 AM) ND EP) as PP. pose proof (C64_from_logical _ _ _ _ _ _ (proj1 AN) ND2 EQ) as PQ.
  destruct (proj1 (C64_equal_iff p q PP PQ) PE) as (ET & SL & SQ & SO & _).
  assert (SC : same_coefficients p q) by (split; [exact SL|intros x y; apply SQ]). assert (SC' : same_coefficients q p) by (destruct SC; split; intros; symmetry; auto).
  destruct (phys_facts _ _ _ _ _ _ HR (proj1 AM) EP) as (_ & _ & _ & _ & _ & O). destruct (phys_facts _ _ _ _ _ _ RN (proj1 AN) EQ) as (_ & _ & _ & _ & _ & O').
  assert (NLo : forall r, ordered_pairs r -> no_loops r) by (intros r OR l HI; specialize (OR l l HI); rewrite TspProofs.label_irrefl in OR; discriminate).
  assert (CV2 : covered n q). { intros l OC. rewrite H2, H5. apply CV. eapply coefficients_occur; eauto. }
  destruct (C13_index_bijection _ _ _ _ _ _ (proj1 AM) ND EP) as (ls & P1 & (f & P2) & _ & P4 & P5 & P6 & P7).
  destruct (C13_index_bijection _ _ _ _ _ _ (proj1 AN) ND2 EQ) as (ls' & Q1 & (f' & Q2) & _ & Q4 & Q5 & Q6 & Q7).
  assert (I1 : forall l, In l ls <-> occurs p l) by (intros l; rewrite P7; split; [tauto|]; intros OC; destruct (CV l OC); auto).
  assert (I2 : forall l, In l ls' <-> occurs q l) by (intros l; rewrite Q7; split; [tauto|]; intros OC; destruct (CV2 l OC); auto).
  assert (EL : ls = ls').
  { rewrite P2, Q2, H2. apply same_filter. intros x. rewrite <- H2 at 2. rewrite <- P2, <- Q2, I1, I2. split; apply coefficients_occur; auto. }
  clear P2 Q2 P7 Q7. subst ls'.
  assert (WP : well_indexed p ls) by (split; auto; split; auto; split; [apply dvals_nth; auto|auto]).
  assert (WQ : well_indexed q ls) by (split; auto; split; auto; split; [apply dvals_nth; auto|auto]).
  apply (C119_equal w p q ls o); auto.
Qed.
(** After any history of calls of a model's own methods, every constraint is stored under its own label. *)
Lemma remove_label a c c' r : c_remove_variable a c = (c', r) -> c_label c' = c_label c.
Proof. unfold c_remove_variable. destruct c; try (intros E; injection E as <- _; reflexivity); destruct (check_variables_and_to_set a); try destruct (forallb _ _); intros E; injection E as <- _; reflexivity. Qed.
Lemma dset_in_pair {V} (k : string) (v : V) d x y : In (x, y) (dset k v d) -> (x = k /\ y = v) \/ In (x, y) d.
Proof.
  induction d as [|[a b] d IH]; cbn [dset]; [intros [E|[]]; injection E as <- <-; auto|]. destruct (eqb k a) eqn:E; intros [EQ|HI].
  - apply eqb_eq in E. injection EQ as <- <-. left. auto.
  - right. right. exact HI.
  - right. left. exact EQ.
  - destruct (IH HI); auto. right. right. auto.
Qed.
Lemma ddel_in_pair {V} k (d : dict string V) x y : In (x, y) (ddel k d) -> In (x, y) d.
Proof. induction d as [|[a b] d IH]; cbn [ddel]; [auto|]. destruct (eqb k a); intros HI; [right; exact HI|destruct HI; [left|right]; auto]. Qed.
Lemma delete_own t m : own_labels m -> own_labels (fst (delete_variable t m)).
Proof.
  intros OL. destruct t; try (rewrite bk_delete_other by discriminate; exact OL).
  unfold delete_variable. rewrite bb. cbn [t_truthy guard ret]. rewrite bb. cbn [modify]. rewrite bb. cbn [get]. rewrite bb.
  match goal with |- context [mfor (dkeys (m_constrs ?x)) _ ?x] => set (m0 := x) end. assert (O0 : own_labels m0) by exact OL.
  assert (HK : forall ks m1, own_labels m1 -> own_labels (fst (mfor ks (fun k => constr_remove k v) m1))).
  { induction ks as [|k ks IH]; intros m1 O1; cbn [mfor]; [exact O1|]. rewrite bb.
    assert (H1 : own_labels (fst (constr_remove k v m1))).
    { unfold constr_remove. destruct (dget k (m_constrs m1)) as [c|] eqn:EG; [|exact O1]. destruct (c_remove_variable (VA_one v) c) as [c' r'] eqn:ER. cbn [fst].
      intros x y HI. cbn [m_constrs with_constrs] in HI. apply dset_in_pair in HI. destruct HI as [[-> ->]|HI]; [|apply O1; auto]. rewrite (remove_label _ _ _ _ ER). apply O1. apply dget_in. exact EG. }
    destruct (constr_remove k v m1) as [m2 [u|e]]; cbn [fst] in H1; [|exact H1]. apply IH; auto. }
  specialize (HK (dkeys (m_constrs m0)) m0 O0).
  destruct (mfor (dkeys (m_constrs m0)) (fun k => constr_remove k v) m0) as [m2 [u|e]]; cbn [fst] in HK; [|exact HK].
  assert (HA : forall f : LM unit, frame_c (m_constrs m2) f -> own_labels (fst (f m2))).
  { intros f HF. destruct (f m2) as [m3 r3] eqn:E3. assert (EQ := HF _ _ _ E3 eq_refl). cbn [fst]. unfold own_labels. red in EQ. rewrite EQ. exact HK. }
  apply HA. apply fc_bind; [apply fc_select|]. intros sel. apply fc_mfor. intros; apply fc_remove.
Qed.
Theorem C142_own_labels : forall m, history m -> own_labels m.
Proof.
  intros m H. induction H as [t|ev evs o m H IH]; [intros k c []|]. destruct (ConstrFrame.plain o) eqn:EP; [unfold own_labels; rewrite fc_do by auto; exact IH|].
  destruct o; try discriminate; cbn [do_op].
  - apply delete_own; auto.
  - destruct c as [c|]; cbn [fst add_constraint modify raise]; [|exact IH]. intros x y HI. cbn [m_constrs with_constrs] in HI. apply dset_in_pair in HI. destruct HI as [[-> ->]|HI]; auto.
  - destruct l as [l|]; cbn [remove_constraint]; [|exact IH]. destruct (dmem l (m_constrs m)); [|exact IH]. intros x y HI. cbn [fst m_constrs with_constrs] in HI. apply ddel_in_pair in HI. auto.
Qed.

(** ** The hypotheses can be met *)
(** The careful history of C93 (a declared and a given array, pairs, an update, a removal, a constraint added and removed,
    to_physical, both conversions, a variable fixed), then a deletion and a constraint. *)
Definition edited : lmodel := run_ops [ODelete (TVar (bin "y" 0)); OAddConstraint (Some (ZeroOrOne [bin "x" 1; bin "y" 1] "one" (qz 10)))] (run_ops careful_ops (new_model Qubo)).
Definition phys_edited : physical := match to_physical env0 evs0 [] edited with (_, Ok p) => p | _ => mkPhysical Qubo [] [] 0 [] [] [] end.
Lemma namedb_ok m : forallb (fun r => r_removed r || negb (String.eqb (r_name r) "")) (m_rows m) = true -> named m.
Proof.
  intros HF r HI HA. rewrite forallb_forall in HF. specialize (HF r HI). rewrite HA in HF. cbn [orb] in HF. intros C. rewrite C in HF. cbn in HF. discriminate.
Qed.
Example C142_hyps : careful edited /\ history edited /\ names_unique edited /\ named edited /\ own_labels edited /\ NoDup (all_labels (m_vars edited)) /\ Forall constr_ok (dvals (m_constrs edited)) /\
  (exists m', to_physical env0 evs0 [] edited = (m', Ok phys_edited)) /\ covered edited phys_edited /\ world_ok step_world /\ legal_states phys_edited options0 /\
  length (from_scratch edited) = 8 /\ length (filter r_removed (m_rows edited)) = 3 /\ length (p_quad phys_edited) = 1.
Proof.
  split. { apply carefully_ok; [apply C93_hyps|]. cbn. auto. }
  split. { unfold edited. apply run_history. apply run_history. constructor. }
  split. { apply nodupb_ok. vm_compute. reflexivity. }
  split. { apply namedb_ok. vm_compute. reflexivity. }
  split. { apply C142_own_labels. apply run_history. apply run_history. constructor. }
  split. { apply nodupb_ok. vm_compute. reflexivity. }
  split. { assert (E : dvals (m_constrs edited) = [ZeroOrOne [bin "x" 1; bin "y" 1] "one" (qz 10)]) by (vm_compute; reflexivity). rewrite E. repeat constructor; simpl; intuition discriminate. }
  split. { unfold phys_edited. destruct (to_physical env0 evs0 [] edited) as [m' [p|e]] eqn:E; [eauto|]. exfalso. apply (f_equal (fun z => match snd z with Ok _ => true | _ => false end)) in E. vm_compute in E. discriminate. }
  split. { apply coveredb_ok. vm_compute. reflexivity. }
  split; [exact step_ok|]. split; [intros s l z []|]. split; [vm_compute; reflexivity|]. split; vm_compute; reflexivity.
Qed.
Print Assumptions C142_content.
Print Assumptions C142_physical.
Print Assumptions C142_solver.
Print Assumptions C142_own_labels.
