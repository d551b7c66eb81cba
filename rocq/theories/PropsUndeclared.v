(** * PropsUndeclared: C114 - models that one solver accepts and another does not. *)
From Verif Require Import PyBase PyLemmas Constraint LogicalModel Spec LogicalProofs EnergyProofs ConvertProofs ConstraintProofs
  MergeProofs PhysicalProofs ToPhysicalProofs InteractionProofs Samples PropsPhysical PropsInteractions PropsVariables PropsHistory History
  Physical BqmProofs PropsBqm Solver SolverSpec SolverProofs PropsSolver Services ServicesSpec PropsServices PropsSolvers PropsReach PropsPenalty PropsDetermined PropsFixing PropsRejected.
Open Scope string_scope.
Open Scope list_scope.

(** A variable the physical model needs but that has no index: it has a
    coefficient, and is not declared in the logical model, or is marked deleted. *)
Definition stray (m : lmodel) (p : physical) (l : string) : Prop :=
  occurs p l /\ (~ In l (all_labels (m_vars m)) \/ In l (dkeys (m_deleted m))).

Lemma stray_or_covered m p : covered m p \/ exists l, stray m p l.
Proof.
  set (ls := dkeys (p_linear p) ++ flat_map (fun ab => [fst ab; snd ab]) (dkeys (p_quad p))).
  assert (HO : forall l, occurs p l <-> In l ls).
  { intros l. unfold occurs, ls. rewrite in_app_iff, in_flat_map. split; (intros [H|H]; [auto|right]).
    - destruct H as (a & b & HI & HE). exists (a, b). split; auto. simpl. destruct HE as [-> | ->]; auto.
    - destruct H as ([a b] & HI & HE). exists a, b. split; auto. simpl in HE. destruct HE as [<- | [<- | []]]; auto. }
  destruct (existsb (fun l => negb (mem l (all_labels (m_vars m))) || dmem l (m_deleted m)) ls) eqn:E.
  - right. apply existsb_exists in E. destruct E as (l & HI & E). exists l. split; [apply HO; auto|].
    apply orb_true_iff in E. destruct E as [E|E]; [left; apply negb_true_iff, mem_nin in E; auto|right; apply dmem_in; auto].
  - left. intros l OC. apply HO in OC. destruct (mem l (all_labels (m_vars m))) eqn:E1; [destruct (dmem l (m_deleted m)) eqn:E2|].
    + exfalso. assert (X : existsb (fun l => negb (mem l (all_labels (m_vars m))) || dmem l (m_deleted m)) ls = true); [|congruence].
      apply existsb_exists. exists l. rewrite E2, orb_true_r. auto.
    + split; [apply mem_in; auto|]. intros HI. apply dmem_in in HI. congruence.
    + exfalso. assert (X : existsb (fun l => negb (mem l (all_labels (m_vars m))) || dmem l (m_deleted m)) ls = true); [|congruence].
      apply existsb_exists. exists l. rewrite E1. auto.
Qed.
Lemma stray_not_indexed ev evs fd m m' p l : m_len m = length (m_rows m) -> NoDup (all_labels (m_vars m)) ->
  to_physical ev evs fd m = (m', Ok p) -> stray m p l -> ~ indexed p l.
Proof.
  intros HL HN E [OC HS] [i HI]. destruct (C13_index_bijection _ _ _ _ _ _ HL HN E) as (ls & N & _ & _ & _ & G1 & _ & HX).
  apply G1 in HI. apply nth_error_In in HI. apply HX in HI. tauto.
Qed.

(** The loop over the linear biases stops at the first label without an index. *)
Lemma fill_linear_stops p : forall d arr, (forall l i, dget l (p_l2i p) = Some i -> i < length arr) ->
  (exists l, In l (dkeys d) /\ ~ indexed p l) -> fill_linear p d arr = Err KeyError.
Proof.
  induction d as [|[k c] d IH]; intros arr HB (l & HI & HN); [destruct HI|]. cbn [fill_linear]. unfold l2i.
  destruct (dget k (p_l2i p)) as [i|] eqn:EK; cbn [rbind]; [|reflexivity].
  destruct (set_nth i c arr) as [a1|] eqn:ES.
  - apply IH.
    + intros l' i' H'. rewrite (set_nth_length _ _ _ _ ES). eauto.
    + destruct HI as [HI|HI]; [simpl in HI; subst; exfalso; apply HN; exists i; auto|]. exists l; auto.
  - exfalso. specialize (HB _ _ EK). clear -ES HB. revert i ES HB. induction arr as [|x arr IH]; intros [|i] ES HB; simpl in *; try lia; try discriminate.
    destruct (set_nth i c arr) eqn:E; [discriminate|]. eapply IH; eauto. lia.
Qed.

(** ** C114 *)

(** Full statement: whenever the exact solver returns an answer for the
    physical model of a logical model, so do the other solvers.
    SawatabiSolver and OptiganSolver raise KeyError exactly when a variable with
    a coefficient is not declared or is marked deleted, whatever the arguments
    that pass the checks; nothing is sent to the service. *)
Theorem C114_sawatabi : forall ev evs fd m m' p w o,
  reachable m -> m_len m = length (m_rows m) -> NoDup (all_labels (m_vars m)) -> to_physical ev evs fd m = (m', Ok p) ->
  ~ bad_args p o -> (forall z, o_seed o = Some z -> (0 <= z)%Z) ->
  (exists l, stray m p l) -> result w p o = Err KeyError.
Proof.
  intros ev evs fd m m' p w o HR HL HN E NB HZ (l & HS).
  assert (HC : check_args p o = Ok tt).
  { unfold check_args. destruct (Nat.eqb (length (p_linear p)) 0 && Nat.eqb (length (p_quad p)) 0) eqn:E1.
    { exfalso. apply NB. left. apply andb_true_iff in E1. destruct E1 as [A B]. apply Nat.eqb_eq in A, B. destruct (p_linear p), (p_quad p); try discriminate; auto. }
    destruct (has_init o && negb (Z.eqb (Z.of_nat (length (init_list o))) (o_reads o))) eqn:E2.
    { exfalso. apply NB. right. left. apply andb_true_iff in E2. destruct E2 as [A B]. apply negb_true_iff, Z.eqb_neq in B. split; auto.
      unfold has_init in A. intros X. rewrite X in A. discriminate. }
    destruct (String.eqb (o_pickup o) "random" || String.eqb (o_pickup o) "sequential") eqn:E3; cbn [negb].
    - unfold check_reverse. destruct (o_reverse o) as [|d|[]] eqn:ER; auto.
      + destruct (rev_truthy (RDict d)) eqn:ET; auto.
        assert (HD : d <> []) by (intros ->; discriminate).
        destruct (dmem "reverse_period" d) eqn:D1; cbn [negb].
        * destruct (dmem "reverse_temperature" d) eqn:D2; cbn [negb]; auto. exfalso. apply NB. right. right. right. left. exists d. split; auto. split; auto.
          right. unfold dmem in D2. destruct (dget "reverse_temperature" d); [discriminate|auto].
        * exfalso. apply NB. right. right. right. left. exists d. split; auto. split; auto. left. unfold dmem in D1. destruct (dget "reverse_period" d); [discriminate|auto].
      + exfalso. apply NB. right. right. right. right. auto.
    - exfalso. apply NB. right. right. left. apply orb_false_iff in E3. destruct E3 as [A B]. apply String.eqb_neq in A, B. auto. }
  unfold result, solve. rewrite HC.
  assert (HG : exists g, pick_rng w (o_seed o) = Ok g).
  { unfold pick_rng. destruct (o_seed o) as [z|]; [|eauto]. specialize (HZ z eq_refl). destruct (Z.eqb z 0); [eauto|]. destruct (z <? 0)%Z eqn:EZ; [lia|eauto]. }
  destruct HG as [g ->]. destruct (C37_from_logical _ _ _ _ _ _ 1%Qc HR HL E) as [b EB]. rewrite EB. cbn [snd].
  destruct (to_bqm_spec _ _ _ EB) as (_ & WB & HV & _).
  rewrite fill_linear_stops; [reflexivity| |].
  - intros l' i HI. rewrite repeat_length.
    destruct (C13_index_bijection _ _ _ _ _ _ HL HN E) as (ls & N & _ & _ & _ & G1 & _ & HX).
    assert (HLE : length ls <= length (bqm_variables (bqm_to_spin b))).
    { apply NoDup_incl_length; auto. intros x HI'. rewrite to_spin_vars. apply HV. apply HX in HI'. tauto. }
    unfold bqm_variables, dkeys in HLE. rewrite map_length in HLE. apply G1 in HI. assert (i < length ls) by (apply nth_error_Some; congruence). lia.
  - exists l. split; [|eapply stray_not_indexed; eauto]. change (dkeys (b_linear (bqm_to_spin b))) with (bqm_variables (bqm_to_spin b)).
    rewrite to_spin_vars. apply HV. apply HS.
Qed.
Theorem C114_optigan : forall ev evs fd m m' p n g steps timeout dup,
  m_len m = length (m_rows m) -> NoDup (all_labels (m_vars m)) -> to_physical ev evs fd m = (m', Ok p) -> m_mtype m = Qubo ->
  (exists l, stray m p l) -> optigan_solve n g steps timeout dup (Some p) = ([], Err KeyError).
Proof.
  intros ev evs fd m m' p n g steps timeout dup HL HN E HT (l & HS).
  assert (PT : p_mtype p = Qubo).
  { destruct (to_physical_ok _ _ _ _ _ _ HL E) as (cms & _ & _ & ->). unfold phys, build_physical. cbv zeta. destruct (index_labels _ _ _ _ _ _); exact HT. }
  unfold optigan_solve. assert (HE : is_empty p = false).
  { unfold is_empty. destruct HS as [[OC|(a & b & OC & _)] _]; [destruct (p_linear p); [destruct OC|reflexivity]|].
    destruct (p_quad p); [destruct OC|]. cbn [length Nat.eqb]. apply andb_false_r. }
  rewrite HE, PT, (proj2 (C38_succeeds_iff p)); [reflexivity|]. exists l. split; [apply HS|]. eapply stray_not_indexed; eauto.
Qed.
(** The exact local solver does not mind. *)
Theorem C114_local : forall ev evs fd m m' p neal,
  reachable m -> m_len m = length (m_rows m) -> to_physical ev evs fd m = (m', Ok p) -> (exists l, occurs p l) ->
  exists rows, local_solve true neal (Some p) = Ok rows /\
    forall s e c, In (s, e, c) rows -> forall l, occurs p l -> exists z, dget l s = Some z.
Proof.
  intros ev evs fd m m' p neal HR HL E (l & OC).
  assert (NL : forall l, ~ In (l, l) (dkeys (p_quad p))) by (apply (proj1 (proj1 (C37_succeeds_iff (- (1))%Qc p))); eapply C37_from_logical; eauto).
  destruct (C75_succeeds neal p) as [rows ER]; auto.
  { destruct OC as [OC|(a & b & OC & _)]; [left|right]; intros X; rewrite X in OC; destruct OC. }
  exists rows. split; auto. intros s e c HI l' OC'. destruct (C75_exact _ _ _ ER) as (H & _). destruct (H _ _ _ HI) as (_ & _ & HS & _).
  apply dget_some_in. apply HS. auto.
Qed.
(** With declared, not deleted variables only, all of them accept the model. *)
Theorem C114_solvers_partial : forall ev evs fd m m' p w o n g steps timeout dup ek,
  reachable m -> m_len m = length (m_rows m) -> NoDup (all_labels (m_vars m)) -> to_physical ev evs fd m = (m', Ok p) ->
  (exists l, occurs p l) -> world_ok w -> boltz_ok w ->
  (0 <= o_sweeps o)%Z -> o_pickup o = "random" \/ o_pickup o = "sequential" ->
  (forall z, o_seed o = Some z -> (0 <= z)%Z) -> reverse_ok (o_reverse o) -> positive_schedule o -> o_init o = None ->
  credentials n g ek ->
  ((exists out, result w p o = Ok out) <-> forall l, ~ stray m p l) /\
  (m_mtype m = Qubo -> ((exists q, fst (optigan_solve n g steps timeout dup (Some p)) = [q]) <-> forall l, ~ stray m p l)).
Proof.
  intros ev evs fd m m' p w o n g steps timeout dup ek HR HL HN E OC WO BO HZ HP HS HV PS HI CR.
  destruct (stray_or_covered m p) as [HC|[l HX]].
  - assert (NS : forall l, ~ stray m p l) by (intros l [H1 H2]; destruct (HC l H1); tauto).
    split; [split; [auto|intros _; eapply C67_solvable; eauto]|]. intros HT. split; [auto|]. intros _.
    destruct (C67_indexed _ _ _ _ _ _ HL HN E HC) as [ls HW].
    assert (PT : p_mtype p = Qubo).
    { destruct (to_physical_ok _ _ _ _ _ _ HL E) as (cms & _ & _ & ->). unfold phys, build_physical. cbv zeta. destruct (index_labels _ _ _ _ _ _); exact HT. }
    destruct (C59_request n g steps timeout dup p ls ek) as (t & EQ & _); auto.
    { destruct OC as (l & [OC|(a & b & OC & _)]); [left|right]; intros X; rewrite X in OC; destruct OC. }
    eauto.
  - assert (NB : ~ bad_args p o).
    { intros [[H1 H2]|[[H1 H2]|[[H1 H2]|[(d & H1 & H2 & H3)|H1]]]].
      - destruct OC as (x & [OC|(a & b & OC & _)]); [rewrite H1 in OC|rewrite H2 in OC]; destruct OC.
      - unfold init_list in H1. rewrite HI in H1. congruence.
      - tauto.
      - rewrite H1 in HV. destruct HV as [[v1 V1] [v2 V2]]. destruct H3; congruence.
      - rewrite H1 in HV. destruct HV. }
    split.
    + rewrite (C114_sawatabi _ _ _ _ _ _ w o HR HL HN E NB HS (ex_intro _ l HX)). split; [intros [out H]; discriminate|intros H; exfalso; apply (H l HX)].
    + intros HT. rewrite (C114_optigan _ _ _ _ _ _ n g steps timeout dup HL HN E HT (ex_intro _ l HX)). cbn [fst].
      split; [intros [q H]; discriminate|intros H; exfalso; apply (H l HX)].
Qed.
(** A sufficient condition in terms of the program: every active interaction
    and every constraint is about declared variables that are not deleted. *)
Definition declared (m : lmodel) (l : string) : Prop := In l (all_labels (m_vars m)) /\ ~ In l (dkeys (m_deleted m)).

Lemma energy_local fd m a b : (forall r l, In r (m_rows m) -> active r -> touches l r = true -> a l = b l) -> energy fd a m = energy fd b m.
Proof.
  intros H. unfold energy. do 2 f_equal. f_equal. apply map_ext_in. intros r HI. unfold contribution. destruct (r_removed r) eqn:RR; auto.
  assert (HA : active r) by exact RR. unfold monomial. specialize (fun l => H r l HI HA). unfold touches, key_touches in H.
  destruct (r_key r) as [x|x y]; f_equal; [|f_equal]; apply H; rewrite ?String.eqb_refl, ?orb_true_r; reflexivity.
Qed.
Lemma penalty_local x y c : (forall l, In l (all_labels_of c) -> x l = y l) -> penalty x c = penalty y c.
Proof.
  intros H. assert (HH : forall vs, (forall v, In v vs -> In (v_label v) (all_labels_of c)) -> hot x vs = hot y vs).
  { intros vs HV. unfold hot. f_equal. apply map_ext_in. intros v HI. apply H. auto. }
  destruct c as [vs n l s|vs l s|a b l s]; cbn [penalty]; rewrite !HH; try reflexivity; cbn [all_labels_of]; intros v HI; apply in_map; auto; apply in_app_iff; auto.
Qed.
Lemma objective_local fd m a b : (forall r l, In r (m_rows m) -> active r -> touches l r = true -> a l = b l) ->
  (forall c l, In c (dvals (m_constrs m)) -> In l (all_labels_of c) -> a l = b l) -> objective fd m a = objective fd m b.
Proof.
  intros H1 H2. unfold objective. f_equal; [apply energy_local, H1|]. unfold penalties. f_equal. apply map_ext_in. intros c HI. apply penalty_local.
  intros l HL. specialize (H2 c l HI HL). destruct (m_mtype m); [unfold to_binary; rewrite H2; reflexivity|exact H2].
Qed.
Theorem C114_declared : forall ev evs fd m m' p,
  reachable m -> m_len m = length (m_rows m) -> Forall constr_ok (dvals (m_constrs m)) -> to_physical ev evs fd m = (m', Ok p) ->
  (forall r l, In r (m_rows m) -> active r -> touches l r = true -> declared m l) ->
  (forall c l, In c (dvals (m_constrs m)) -> In l (all_labels_of c) -> declared m l) ->
  forall l, ~ stray m p l.
Proof.
  intros ev evs fd m m' p HR HL HK E H1 H2 l [OC HS].
  apply (C105_variables _ _ _ _ _ _ _ HR HL E) in OC. destruct OC as (a & b & LA & LB & D & NE). apply NE.
  assert (HT : p_mtype p = m_mtype m) by (destruct (to_physical_ok _ _ _ _ _ _ HL E) as (cms & _ & _ & ->); unfold phys, build_physical; destruct (index_labels _ _ _ _ _ _); reflexivity).
  rewrite HT in LA, LB. pose proof (physical_objective _ _ _ _ _ _ a b HL HK E LA LB) as H.
  assert (ND : forall k, declared m k -> a k = b k).
  { intros k [X1 X2]. apply D. intros ->. tauto. }
  assert (EO : objective fd m a = objective fd m b) by (apply objective_local; eauto).
  unfold objective in EO. fold (as_binary (m_mtype m) a) (as_binary (m_mtype m) b) in EO. rewrite EO in H.
  apply (f_equal (fun z => (z + energy_physical b p)%Qc)) in H. ring_simplify in H. exact H.
Qed.

(** The converse way round: deleting a variable that some constraint refuses to
    give up leaves a model that no call to SawatabiSolver or OptiganSolver will
    accept as long as the variable still matters. *)
Theorem C114_failed_delete : forall ev evs fd v m m1 m2 p e w o,
  reachable m -> aligned m -> NoDup (all_labels (m_vars m)) -> NoDup (dkeys (m_constrs m)) ->
  (exists k c, In (k, c) (m_constrs m) /\ ~ PropsVariables.mentions v c) ->
  delete_variable (TVar v) m = (m1, Err e) -> to_physical ev evs fd m1 = (m2, Ok p) -> occurs p (v_label v) ->
  ~ bad_args p o -> (forall z, o_seed o = Some z -> (0 <= z)%Z) ->
  result w p o = Err KeyError /\
  (m_mtype m = Qubo -> forall n g steps timeout dup, optigan_solve n g steps timeout dup (Some p) = ([], Err KeyError)).
Proof.
  intros ev evs fd v m m1 m2 p e w o HR HA HN HC (k & c & HI & HM) ED E OC NB HZ.
  destruct (first_refusal v (m_constrs m)) as [H|(pre & l & c' & post & EC & P1 & P2)]; [exfalso; apply HM; eapply H; eauto|].
  destruct (C16_exact_effect v m pre l c' post EC HC P1 P2) as (m1' & E1 & _ & HD & R1 & _ & _ & R4 & _ & R6 & R7 & _).
  rewrite E1 in ED. injection ED as -> _.
  assert (HL1 : m_len m1 = length (m_rows m1)) by (rewrite R4, R1; apply HA).
  assert (HN1 : NoDup (all_labels (m_vars m1))) by (rewrite R7; exact HN).
  assert (HR1 : reachable m1).
  { replace m1 with (fst (do_op ev evs (ODelete (TVar v)) m)) by (cbn [do_op]; rewrite E1; reflexivity). constructor. exact HR. }
  assert (ST : exists x, stray m1 p x) by (exists (v_label v); split; [exact OC|right; apply HD; auto]).
  split; [eapply C114_sawatabi; eauto|]. intros HT n g steps timeout dup. eapply C114_optigan; eauto. rewrite R6. exact HT.
Qed.

(** A variable of another model: [add_interaction] does not ask whether the
    variable is declared here. *)
Definition borrowed : lmodel := run_ops
  [OVariables (VName "q") (ShTuple [ShInt 2]); OAdd (TVar (bin "q" 0)) (NStr "") (num 1) (num 1) AtNone TsNone;
   OAdd (TVar (bin "x" 0)) (NStr "") (num 2) (num 1) AtNone TsNone] (new_model Qubo).
(** A deletion stopped by a constraint. *)
Definition kept : lmodel := run_ops
  [OVariables (VName "q") (ShTuple [ShInt 4]); OAdd (TVar (bin "q" 3)) (NStr "") (num 1) (num 1) AtNone TsNone;
   OAddConstraint (Some (NHot [bin "q" 0; bin "q" 1; bin "q" 2] 1 "one" (qz 2)))] (new_model Qubo).
Lemma options0_fine p : (exists l, occurs p l) -> ~ bad_args p options0.
Proof.
  intros (x & OC) [[H1 H2]|[[H1 H2]|[[H1 H2]|[(d & H1 & H2 & H3)|H1]]]].
  - destruct OC as [OC|(a & b & OC & _)]; [rewrite H1 in OC|rewrite H2 in OC]; destruct OC.
  - apply H1. reflexivity.
  - apply H1. reflexivity.
  - discriminate.
  - discriminate.
Qed.
Definition linear_of (r : lmodel * res physical) : list string := match snd r with Ok p => dkeys (p_linear p) | Err _ => [] end.
Theorem C114_refuted : exists m m' p, history m /\ m_len m = length (m_rows m) /\ NoDup (all_labels (m_vars m)) /\ m_mtype m = Qubo /\
  to_physical env0 evs0 [] m = (m', Ok p) /\
  (exists rows, local_solve true (fun _ => Ok []) (Some p) = Ok rows) /\
  result world0 p options0 = Err KeyError /\
  optigan_solve network0 optigan0 10 10000 false (Some p) = ([], Err KeyError).
Proof.
  destruct (to_physical env0 evs0 [] borrowed) as [m' [p|e]] eqn:E; [|exfalso; assert (X := f_equal okb E); vm_compute in X; discriminate].
  assert (HP : dkeys (p_linear p) = ["q[0]"; "x[0]"]).
  { assert (X := f_equal linear_of E). unfold linear_of at 2 in X. cbn [snd] in X. rewrite <- X. vm_compute. reflexivity. }
  assert (HH : history borrowed) by (apply run_history; constructor).
  assert (HR := PropsReach.history_reachable _ HH).
  assert (HL : m_len borrowed = length (m_rows borrowed)) by reflexivity.
  assert (HN : NoDup (all_labels (m_vars borrowed))) by (apply nodupb_ok; reflexivity).
  assert (OC : exists l, occurs p l) by (exists "x[0]"; left; rewrite HP; right; left; reflexivity).
  assert (ST : exists l, stray borrowed p l).
  { exists "x[0]". split; [left; rewrite HP; right; left; reflexivity|]. left. intros H. vm_compute in H. intuition discriminate. }
  exists borrowed, m', p. split; [exact HH|]. split; [exact HL|]. split; [exact HN|]. split; [reflexivity|]. split; [exact E|].
  split; [destruct (C114_local _ _ _ _ _ _ (fun _ => Ok []) HR HL E OC) as (rows & H & _); exists rows; exact H|].
  split; [apply (C114_sawatabi _ _ _ _ _ _ world0 options0 HR HL HN E (options0_fine p OC)); [intros z H; discriminate|exact ST]|].
  apply (C114_optigan _ _ _ _ _ _ _ _ _ _ _ HL HN E eq_refl ST).
Qed.
Definition declaredb (m : lmodel) (l : string) : bool := mem l (all_labels (m_vars m)) && negb (dmem l (m_deleted m)).
Lemma declaredb_ok m l : declaredb m l = true -> declared m l.
Proof.
  intros H. apply andb_true_iff in H. destruct H as [A B]. split; [apply mem_in; exact A|]. intros HI. apply dmem_in in HI. rewrite HI in B. discriminate.
Qed.
Example C114_hyps :
  (exists m' p, reachable kept /\ m_len kept = length (m_rows kept) /\ Forall constr_ok (dvals (m_constrs kept)) /\
     m_constrs kept <> [] /\ to_physical env0 evs0 [] kept = (m', Ok p) /\ (exists l, occurs p l) /\
     (forall r l, In r (m_rows kept) -> active r -> touches l r = true -> declared kept l) /\
     (forall c l, In c (dvals (m_constrs kept)) -> In l (all_labels_of c) -> declared kept l)) /\
  (exists m1 m2 p e, reachable kept /\ aligned kept /\ NoDup (all_labels (m_vars kept)) /\ NoDup (dkeys (m_constrs kept)) /\
     (exists k c, In (k, c) (m_constrs kept) /\ ~ PropsVariables.mentions (bin "q" 3) c) /\
     delete_variable (TVar (bin "q" 3)) kept = (m1, Err e) /\ to_physical env0 evs0 [] m1 = (m2, Ok p) /\ occurs p "q[3]" /\ ~ bad_args p options0) /\
  world_ok world0 /\ boltz_ok world0 /\ positive_schedule options0 /\ o_init options0 = None /\ credentials network0 optigan0 ("https://e", "k").
Proof.
  assert (HR : reachable kept) by (apply PropsReach.history_reachable, run_history; constructor).
  split.
  { destruct (to_physical env0 evs0 [] kept) as [m' [p|e]] eqn:E; [|exfalso; assert (X := f_equal okb E); vm_compute in X; discriminate].
    exists m', p. split; [exact HR|]. split; [reflexivity|]. split; [repeat constructor; simpl; intuition discriminate|]. split; [discriminate|]. split; [reflexivity|]. split.
    - assert (X := f_equal linear_of E). unfold linear_of at 2 in X. cbn [snd] in X. exists "q[3]". left. rewrite <- X. vm_compute. auto.
    - split.
      + intros r l HI _ HT. apply declaredb_ok. vm_compute in HI. destruct HI as [<-|[]]. change (String.eqb "q[3]" l = true) in HT.
        apply String.eqb_eq in HT. subst. reflexivity.
      + intros c l HI HT. apply declaredb_ok. vm_compute in HI. destruct HI as [<-|[]]. cbn in HT. destruct HT as [<-|[<-|[<-|[]]]]; reflexivity. }
  split.
  { set (m1 := fst (delete_variable (TVar (bin "q" 3)) kept)).
    destruct (to_physical env0 evs0 [] m1) as [m2 [p|e]] eqn:E; [|exfalso; assert (X := f_equal okb E); vm_compute in X; discriminate].
    assert (OC : occurs p "q[3]").
    { assert (X := f_equal linear_of E). unfold linear_of at 2 in X. cbn [snd] in X. left. rewrite <- X. vm_compute. auto. }
    exists m1, m2, p, ValueError. split; [exact HR|]. split; [apply alignedb_ok; reflexivity|]. split; [apply nodupb_ok; reflexivity|]. split; [apply nodupb_ok; reflexivity|].
    split; [exists "one", (NHot [bin "q" 0; bin "q" 1; bin "q" 2] 1 "one" (qz 2)); split; [left; reflexivity|cbn; intuition discriminate]|].
    split; [reflexivity|]. split; [exact E|]. split; [exact OC|]. apply options0_fine. eauto. }
  split; [apply world0_ok|]. split; [apply boltz0_ok|]. split; [repeat split; reflexivity || (intros; discriminate)|]. split; [reflexivity|apply credentials0].
Qed.
Print Assumptions C114_sawatabi.
Print Assumptions C114_optigan.
Print Assumptions C114_local.
Print Assumptions C114_solvers_partial.
Print Assumptions C114_declared.
Print Assumptions C114_failed_delete.
Print Assumptions C114_refuted.
