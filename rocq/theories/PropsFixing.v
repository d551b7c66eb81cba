(** * PropsFixing: C108 and C109, fixing several variables, and models without the fixed variables. *)
From Verif Require Import PyBase PyLemmas Numbers Constraint LogicalModel Spec LogicalProofs EnergyProofs ConvertProofs PhysicalProofs ToPhysicalProofs ConstraintProofs Samples Physical History PropsHistory
  PropsInteractions PropsVariables PropsPhysical PropsAlike Solver SolverSpec PropsSolver Services PropsSolvers PropsPenalty PropsReach PropsTsp PropsDetermined.
Local Open Scope string_scope.
Local Open Scope list_scope.

(** ** Specification *)

(** The total weight of the interactions in force between [x] and [y]. *)
Definition between (x y : string) (k : ikey) : bool :=
  match k with K1 _ => false | K2 a b => (String.eqb a x && String.eqb b y) || (String.eqb a y && String.eqb b x) end.
Definition coupling fd (x y : string) (m : lmodel) : Qc :=
  qsum (map (fun r => if negb (r_removed r) && between x y (r_key r) then (value fd (r_coef r) * value fd (r_scale r))%Qc else 0%Qc) (m_rows m)).
(** All the given values put in. *)
Fixpoint assign_all (s : assignment) (l : list (var * Qc)) : assignment :=
  match l with [] => s | (v, q) :: r => assign (assign_all s r) (v_label v) q end.
(** Variables fixed one after the other, with a call of to_physical after each. *)
Inductive fixed_apart (fd : feed) : lmodel -> list (var * Qc) -> lmodel -> Prop :=
| fa_done m : fixed_apart fd m [] m
| fa_next ev ev' evs v q r m m1 m2 m' p :
    fix_variable ev (TVar v) q m = (m1, Ok tt) -> to_physical ev' evs fd m1 = (m2, Ok p) -> fixed_apart fd m2 r m' ->
    fixed_apart fd m ((v, q) :: r) m'.

(** ** C108 *)

Lemma fix_wf ev v q m m' : well_formed m -> fix_variable ev (TVar v) q m = (m', Ok tt) -> well_formed m'.
Proof.
  intros HW E. destruct (fix_ok _ _ _ _ _ _ E HW) as (ex & off & R1 & _ & _ & R4 & R5 & _). split; auto. rewrite R1. apply Forall_app. destruct HW as [_ HK]. split.
  - apply Forall_forall. intros r HI. apply in_map_iff in HI. destruct HI as (r0 & <- & HI). rewrite Forall_forall in HK. specialize (HK _ HI). unfold rm_if. destruct (touches _ _); auto.
  - eapply Forall_impl; [|exact R5]. cbv beta. intros r H. tauto.
Qed.
Lemma fix_resolved ev v q m m' fd : well_formed m -> resolved fd m ->
  (forall r, In r (m_rows m) -> touches (v_label v) r = true -> active r) -> fix_variable ev (TVar v) q m = (m', Ok tt) -> resolved fd m'.
Proof.
  intros HW [HR HO] HA E. destruct (fix_ok _ _ _ _ _ _ E HW) as (ex & off & R1 & R2 & _ & _ & R5 & R6).
  destruct (R6 fd) as (A & B & _); auto. split; [|congruence].
  intros r HI AC. rewrite R1 in HI. apply in_app_iff in HI. destruct HI as [HI|HI].
  - apply in_map_iff in HI. destruct HI as (r0 & <- & HI). unfold rm_if in *. destruct (touches (v_label v) r0) eqn:ET; [discriminate AC|]. apply HR; auto.
  - rewrite Forall_forall in B, R5. split; [apply B, HI|]. destruct (R5 _ HI) as (_ & _ & _ & ->). cbn. discriminate.
Qed.

Lemma resurrected_pair fd s x y b rows ex : x <> y -> Forall key_ok rows ->
  (forall r, In r rows -> touches x r = true \/ touches y r = true -> active r) -> Forall active ex ->
  qsum (map (fun r => if touches y r && r_removed r then (value fd (r_coef r) * value fd (r_scale r) * monomial (assign s y b) (r_key r))%Qc else 0%Qc) (map (rm_if (touches x)) rows ++ ex))
  = (b * s x * qsum (map (fun r => if negb (r_removed r) && between x y (r_key r) then (value fd (r_coef r) * value fd (r_scale r))%Qc else 0%Qc) rows))%Qc.
Proof.
  intros NE HK HA HX. rewrite map_app, qsum_app.
  assert (EX : qsum (map (fun r => if touches y r && r_removed r then (value fd (r_coef r) * value fd (r_scale r) * monomial (assign s y b) (r_key r))%Qc else 0%Qc) ex) = 0%Qc).
  { clear -HX. induction HX as [|r ex AR _ IH]; [reflexivity|]. cbn [map qsum]. rewrite IH. unfold active in AR. rewrite AR, andb_false_r. ring. }
  rewrite EX. clear EX HX ex. induction rows as [|r rows IH]; [cbn; ring|]. inversion HK as [|? ? [K1 K2] HK']; subst. cbn [map qsum].
  transitivity ((if touches y (rm_if (touches x) r) && r_removed (rm_if (touches x) r) then (value fd (r_coef (rm_if (touches x) r)) * value fd (r_scale (rm_if (touches x) r)) * monomial (assign s y b) (r_key (rm_if (touches x) r)))%Qc else 0) +
    (qsum (map (fun r => if touches y r && r_removed r then value fd (r_coef r) * value fd (r_scale r) * monomial (assign s y b) (r_key r) else 0) (map (rm_if (touches x)) rows)) + 0))%Qc; [ring|].
  rewrite IH by (auto; intros; apply HA; simpl; auto).
  assert (HH : (if touches y (rm_if (touches x) r) && r_removed (rm_if (touches x) r) then (value fd (r_coef (rm_if (touches x) r)) * value fd (r_scale (rm_if (touches x) r)) * monomial (assign s y b) (r_key (rm_if (touches x) r)))%Qc else 0%Qc)
    = (b * s x * (if negb (r_removed r) && between x y (r_key r) then value fd (r_coef r) * value fd (r_scale r) else 0))%Qc).
  { unfold rm_if. destruct (touches x r) eqn:TX.
    - assert (AR : r_removed r = false) by (apply (HA r); simpl; auto). rewrite AR. change (touches y (rm r)) with (touches y r). change (r_removed (rm r)) with true. change (r_key (rm r)) with (r_key r).
      change (r_coef (rm r)) with (r_coef r). change (r_scale (rm r)) with (r_scale r). rewrite andb_true_r. cbn [negb andb]. unfold touches in *.
      destruct (r_key r) as [c|c d]; cbn [key_touches between monomial] in *.
      + apply String.eqb_eq in TX. subst c. destruct (String.eqb_spec x y); [contradiction|]. ring.
      + unfold assign. destruct (String.eqb_spec c x) as [->|Nc]; cbn [orb andb] in *.
        * destruct (String.eqb_spec x y); [contradiction|]. cbn [orb andb]. destruct (String.eqb_spec d y) as [->|]; cbn [orb andb]; ring.
        * apply String.eqb_eq in TX. subst d. destruct (String.eqb_spec c y) as [->|]; cbn [orb andb]; destruct (String.eqb_spec x y); try contradiction; rewrite ?String.eqb_refl; cbn [orb andb]; ring.
    - destruct (touches y r) eqn:TY.
      + assert (AR : r_removed r = false) by (apply (HA r); simpl; auto). rewrite AR. cbn [negb andb]. unfold touches in TX. destruct (r_key r) as [c|c d]; cbn [key_touches between] in *; [ring|].
        apply orb_false_iff in TX. destruct TX as [-> ->]. rewrite andb_false_r. cbn. ring.
      + cbn [andb]. unfold touches in TX. destruct (r_key r) as [c|c d]; cbn [key_touches between] in *; [rewrite andb_false_r; ring|].
        apply orb_false_iff in TX. destruct TX as [-> ->]. rewrite !andb_false_r. cbn. ring. }
  rewrite HH. ring.
Qed.

(** What two calls of fix_variable do: they substitute both values, except that the
    interactions between the two variables come back as a term on the variable fixed
    first, which was to be out of the model. *)
Theorem C108_exact_effect : forall ev ev' x y a b m m1 m2 fd, v_label x <> v_label y -> well_formed m -> resolved fd m ->
  (forall r, In r (m_rows m) -> touches (v_label x) r = true \/ touches (v_label y) r = true -> active r) ->
  fix_variable ev (TVar x) a m = (m1, Ok tt) -> fix_variable ev' (TVar y) b m1 = (m2, Ok tt) ->
  forall s, energy fd s m2 = (energy fd (assign_all s [(x, a); (y, b)]) m - b * s (v_label x) * coupling fd (v_label x) (v_label y) m)%Qc.
Proof.
  intros ev ev' x y a b m m1 m2 fd NE HW HR HA E1 E2 s.
  assert (HA1 : forall r, In r (m_rows m) -> touches (v_label x) r = true -> active r) by (intros; apply HA; auto).
  assert (W1 := fix_wf _ _ _ _ _ HW E1). assert (R1 := fix_resolved _ _ _ _ _ _ HW HR HA1 E1).
  destruct (fix_ok _ _ _ _ _ _ E1 HW) as (ex & off & ER & _ & _ & _ & R5 & _).
  destruct (C17_fix _ _ _ _ _ _ HW HR HA1 E1) as (EN & _).
  rewrite (C18_exact_effect ev' y b m1 m2 fd W1 (proj2 R1)); auto.
  - rewrite EN. cbn [assign_all]. unfold resurrected, coupling. rewrite ER, (resurrected_pair fd s (v_label x) (v_label y) b); auto; [apply HW|].
    eapply Forall_impl; [|exact R5]. cbv beta. tauto.
  - intros r HI [AC|TY]; [apply (proj1 R1); auto|]. rewrite ER in HI. apply in_app_iff in HI. destruct HI as [HI|HI].
    + apply in_map_iff in HI. destruct HI as (r0 & <- & HI).
      assert (TY' : touches (v_label y) r0 = true) by (unfold rm_if in TY; destruct (touches (v_label x) r0); auto).
      destruct (proj1 HR r0 HI (HA _ HI (or_intror TY'))). unfold rm_if. destruct (touches (v_label x) r0); auto.
    + apply (proj1 R1); [rewrite ER; apply in_app_iff; auto|]. rewrite Forall_forall in R5. apply R5, HI.
Qed.
(** Both values are put in when the variables are not coupled, or the second value is 0. *)
Theorem C108_uncoupled_partial : forall ev ev' x y a b m m1 m2 fd, v_label x <> v_label y -> well_formed m -> resolved fd m ->
  (forall r, In r (m_rows m) -> touches (v_label x) r = true \/ touches (v_label y) r = true -> active r) ->
  coupling fd (v_label x) (v_label y) m = 0%Qc \/ b = 0%Qc ->
  fix_variable ev (TVar x) a m = (m1, Ok tt) -> fix_variable ev' (TVar y) b m1 = (m2, Ok tt) ->
  forall s, energy fd s m2 = energy fd (assign_all s [(x, a); (y, b)]) m.
Proof.
  intros ev ev' x y a b m m1 m2 fd NE HW HR HA HC E1 E2 s. rewrite (C108_exact_effect _ _ _ _ _ _ _ _ _ _ NE HW HR HA E1 E2).
  destruct HC as [-> | ->]; ring.
Qed.

Lemma energy_frame fd s m m' : m_rows m' = map (set_dirty false) (filter (fun r => negb (r_removed r)) (m_rows m)) -> m_offset m' = m_offset m -> energy fd s m' = energy fd s m.
Proof.
  intros HR HO. rewrite !energy_csum, HR, HO. f_equal. f_equal. clear. induction (m_rows m) as [|r l IH]; [reflexivity|]. cbn [filter].
  destruct (r_removed r) eqn:ER; cbn [negb map]; rewrite ?csum_cons, IH.
  - unfold contribution. rewrite ER. ring.
  - reflexivity.
Qed.
Lemma assign_all_ext s s' l k : (forall j, s j = s' j) -> assign_all s l k = assign_all s' l k.
Proof. intros H. revert k. induction l as [|[v q] l IH]; intros k; cbn [assign_all]; auto. unfold assign. destruct (String.eqb k (v_label v)); auto. Qed.

(** Any number of variables, fixed one after the other: all the values are put in when
    to_physical is called in between. *)
Theorem C108_apart_partial : forall fd l m m', aligned m -> well_formed m -> resolved fd m -> Forall active (m_rows m) -> m_constrs m = [] ->
  fixed_apart fd m l m' ->
  (forall s, energy fd s m' = energy fd (assign_all s l) m) /\
  m_mtype m' = m_mtype m /\ m_vars m' = m_vars m /\ m_constrs m' = [] /\ Forall active (m_rows m') /\ aligned m'.
Proof.
  intros fd l m m' HL HW HR HA HC H.
  induction H as [m|ev ev' evs v q l m m1 m2 m' p E1 E2 H IH].
  - auto 6.
  - assert (HA1 : forall r, In r (m_rows m) -> touches (v_label v) r = true -> active r) by (intros r HI _; rewrite Forall_forall in HA; auto).
    destruct (C17_fix _ _ _ _ _ _ HW HR HA1 E1) as (EN & HT & F1 & F2 & F3 & F4 & _).
    assert (W1 := fix_wf _ _ _ _ _ HW E1). assert (R1 := fix_resolved _ _ _ _ _ _ HW HR HA1 E1). assert (A1 := ak_fix _ _ _ _ _ _ E1 HL).
    destruct (C11_frame ev' evs fd m1 m2 p [] A1 (proj1 W1)) as (G1 & G2 & G3 & G4 & G5 & G6 & _ & _ & G8 & _ & G10 & G11); auto.
    { rewrite F4, HC. reflexivity. }
    assert (HIN : forall r, In r (m_rows m2) -> exists r', In r' (m_rows m1) /\ active r' /\ r = set_dirty false r').
    { intros r HI. rewrite G8 in HI. apply in_map_iff in HI. destruct HI as (r' & <- & HI). apply filter_In in HI. destruct HI as [HI HX]. exists r'. split; auto. split; auto. apply negb_true_iff in HX. exact HX. }
    destruct IH as (EN' & T' & V' & C' & A' & L'); auto.
    + split; auto. apply Forall_forall. intros r HI. destruct (HIN _ HI) as (r' & H1 & _ & ->). destruct W1 as [_ HK]. rewrite Forall_forall in HK. apply (HK _ H1).
    + destruct R1 as [R1 R2]. split; [|rewrite G3; auto]. intros r HI _. destruct (HIN _ HI) as (r' & H1 & H2 & ->). apply (R1 _ H1 H2).
    + apply Forall_forall. intros r HI. destruct (HIN _ HI) as (r' & _ & H2 & ->). exact H2.
    + congruence.
    + split; [|split; [congruence|split; [congruence|auto]]].
      intros s. cbn [assign_all]. rewrite EN', (energy_frame fd _ m1 m2 G8 G3), EN. reflexivity.
Qed.

(** The whole claim is false: two coupled spins are fixed, and the energy of the model
    still depends on the first. *)
Definition coupled : lmodel := run_ops
  [OVariables (VName "x") (ShTuple [ShInt 3]); OAdd (PropsInteractions.pair (spn "x" 0) (spn "x" 1)) (NStr "") (num 5) (num 1) AtNone TsNone;
   OAdd (PropsInteractions.pair (spn "x" 1) (spn "x" 2)) (NStr "") (num 2) (num 1) AtNone TsNone; OAdd (TVar (spn "x" 0)) (NStr "") (num 3) (num 2) AtNone TsNone] (new_model Ising).
Theorem C108_refuted : exists m m1 m2 x y, history m /\ aligned m /\ well_formed m /\ resolved [] m /\ Forall active (m_rows m) /\ m_constrs m = [] /\ v_label x <> v_label y /\
  fix_variable env0 (TVar x) 1 m = (m1, Ok tt) /\ fix_variable env0 (TVar y) 1 m1 = (m2, Ok tt) /\
  exists s, lawful Ising s /\ energy [] s m2 <> energy [] (assign_all s [(x, 1%Qc); (y, 1%Qc)]) m.
Proof.
  exists coupled. eexists. eexists. exists (spn "x" 0), (spn "x" 1). split; [apply run_history; constructor|]. split; [apply alignedb_ok; vm_compute; reflexivity|].
  split; [apply wfb_ok; vm_compute; reflexivity|]. split; [apply resolvedb_ok; vm_compute; reflexivity|].
  split; [repeat constructor|]. split; [reflexivity|]. split; [discriminate|].
  split; [apply okb_ok; vm_compute; reflexivity|]. split; [apply okb_ok; vm_compute; reflexivity|].
  exists (fun _ => 1%Qc). split; [intros l; auto|]. intros H. apply (f_equal this) in H. vm_compute in H. discriminate.
Qed.

(** ** C109 *)
Lemma penalty_assign x l z c : ~ In l (all_labels_of c) -> penalty (assign x l z) c = penalty x c.
Proof.
  assert (HH : forall vs, ~ In l (map v_label vs) -> hot (assign x l z) vs = hot x vs).
  { intros vs. unfold hot. induction vs as [|v vs IH]; intros H; [reflexivity|]. cbn [map qsum] in *. rewrite IH by (intros C; apply H; right; auto).
    unfold assign at 1. destruct (String.eqb_spec (v_label v) l) as [E|]; auto. exfalso. apply H. left. auto. }
  destruct c as [vs n k s|vs k s|v1 v2 k s]; cbn [all_labels_of penalty]; intros H; rewrite ?HH; auto.
  all: try (intros C; apply H; rewrite ?map_app, ?in_app_iff; auto).
Qed.
Lemma penalties_assign x l z cs : (forall c, In c cs -> ~ In l (all_labels_of c)) -> penalties (assign x l z) cs = penalties x cs.
Proof. intros H. unfold penalties. f_equal. apply map_ext_in. intros c HI. apply penalty_assign. auto. Qed.
Lemma penalty_ext x y c : (forall l, x l = y l) -> penalty x c = penalty y c.
Proof.
  intros H. assert (HH : forall vs, hot x vs = hot y vs) by (intros vs; unfold hot; f_equal; apply map_ext; intros; apply H).
  destruct c; cbn [penalty]; rewrite ?HH; reflexivity.
Qed.
Lemma objective_assign fd m l s z : (forall c, In c (dvals (m_constrs m)) -> ~ In l (all_labels_of c)) ->
  objective fd m (assign s l z) = (energy fd (assign s l z) m + penalties (as_binary (m_mtype m) s) (dvals (m_constrs m)))%Qc.
Proof.
  intros H. unfold objective. f_equal. fold (as_binary (m_mtype m) (assign s l z)). destruct (m_mtype m); cbn [as_binary]; [|apply penalties_assign, H].
  rewrite <- (penalties_assign (to_binary s) l ((z + 1) / qz 2)%Qc _ H). unfold penalties. f_equal. apply map_ext. intros c. apply penalty_ext.
  intros k. unfold to_binary, assign. destruct (String.eqb k l); reflexivity.
Qed.
(** A model with the variable fixed is the model with the value put in. *)
Lemma fixed_objective fd ev v q m m1 : well_formed m -> resolved fd m ->
  (forall r, In r (m_rows m) -> touches (v_label v) r = true -> active r) ->
  (forall c, In c (dvals (m_constrs m)) -> ~ In (v_label v) (all_labels_of c)) ->
  fix_variable ev (TVar v) q m = (m1, Ok tt) -> forall a, objective fd m1 a = objective fd m (assign a (v_label v) q).
Proof.
  intros HW HR HA HC E a. destruct (C17_fix _ _ _ _ _ _ HW HR HA E) as (EN & _ & F1 & _ & _ & F4 & _). rewrite objective_assign by auto. unfold objective.
  rewrite F1, F4, EN. reflexivity.
Qed.
Lemma assign_eq (s : assignment) l q : s l = q -> forall k, assign s l q k = s k.
Proof. intros H k. unfold assign. destruct (String.eqb_spec k l); congruence. Qed.
Lemma objective_ext fd m a b : (forall l, a l = b l) -> objective fd m a = objective fd m b.
Proof.
  intros H. unfold objective. f_equal; [apply energy_ext, H|]. unfold penalties. f_equal. apply map_ext. intros c. apply penalty_ext. intros l.
  destruct (m_mtype m); [unfold to_binary; rewrite H; reflexivity|apply H].
Qed.

(** After the call the physical model does not mention the variable. *)
Theorem C109_absent_partial : forall ev ev' evs v q m m1 m2 p fd, reachable m -> aligned m -> well_formed m -> resolved fd m ->
  (forall r, In r (m_rows m) -> touches (v_label v) r = true -> active r) ->
  Forall constr_ok (dvals (m_constrs m)) -> (forall c, In c (dvals (m_constrs m)) -> ~ In (v_label v) (all_labels_of c)) ->
  fix_variable ev (TVar v) q m = (m1, Ok tt) -> to_physical ev' evs fd m1 = (m2, Ok p) -> ~ occurs p (v_label v).
Proof.
  intros ev ev' evs v q m m1 m2 p fd RE AL HW HR HA HK HC E EP OC.
  assert (A1 := ak_fix _ _ _ _ _ _ E AL). assert (L1 := proj1 A1).
  assert (RE1 : reachable m1) by (replace m1 with (fst (do_op ev evs (OFix (TVar v) q) m)) by (cbn [do_op]; rewrite E; reflexivity); constructor; auto).
  destruct (C17_fix _ _ _ _ _ _ HW HR HA E) as (_ & _ & F1 & _ & _ & F4 & _).
  apply (C105_variables _ _ _ _ _ _ _ RE1 L1 EP) in OC. destruct OC as (a & b & LA & LB & D & NE). apply NE.
  assert (HT : p_mtype p = m_mtype m1) by (destruct (to_physical_ok _ _ _ _ _ _ L1 EP) as (cms & _ & _ & ->); unfold phys, build_physical; destruct (index_labels _ _ _ _ _ _); reflexivity).
  rewrite HT in LA, LB. assert (HK1 : Forall constr_ok (dvals (m_constrs m1))) by (rewrite F4; auto).
  pose proof (physical_objective _ _ _ _ _ _ a b L1 HK1 EP LA LB) as H.
  pose proof (fixed_objective fd _ _ _ _ _ HW HR HA HC E) as FO.
  assert (EO : objective fd m1 a = objective fd m1 b).
  { rewrite !FO. apply objective_ext. intros k. unfold assign. destruct (String.eqb_spec k (v_label v)); auto. }
  unfold objective in EO. fold (as_binary (m_mtype m1) a) (as_binary (m_mtype m1) b) in EO. rewrite EO in H.
  apply (f_equal (fun z => (z + energy_physical b p)%Qc)) in H. ring_simplify in H. exact H.
Qed.
(** The best answer for the model, with the value for the fixed variable added, is a best
    assignment of the model as it was, among those with this value. *)
Theorem C109_best_partial : forall neal ev ev' evs v q m m1 m2 p fd rows s e a, aligned m -> well_formed m -> resolved fd m ->
  (forall r, In r (m_rows m) -> touches (v_label v) r = true -> active r) ->
  Forall constr_ok (dvals (m_constrs m)) -> (forall c, In c (dvals (m_constrs m)) -> ~ In (v_label v) (all_labels_of c)) ->
  fix_variable ev (TVar v) q m = (m1, Ok tt) -> to_physical ev' evs fd m1 = (m2, Ok p) ->
  local_solve true neal (Some p) = Ok rows -> lowest s e rows ->
  lawful (m_mtype m) a -> (forall l z, dget l s = Some z -> a l = qz z) ->
  forall b, lawful (m_mtype m) b -> b (v_label v) = q -> (objective fd m (assign a (v_label v) q) <= objective fd m b)%Qc.
Proof.
  intros neal ev ev' evs v q m m1 m2 p fd rows s e a AL HW HR HA HK HC E EP ES LW LA HS b LB HB.
  assert (A1 := ak_fix _ _ _ _ _ _ E AL).
  destruct (C17_fix _ _ _ _ _ _ HW HR HA E) as (_ & _ & F1 & _ & _ & F4 & _).
  pose proof (fixed_objective fd _ _ _ _ _ HW HR HA HC E) as FO.
  rewrite <- FO, <- (objective_ext fd m _ _ (assign_eq b _ _ HB)), <- FO.
  apply (C75_ground_state neal ev' evs fd m1 m2 p rows s e a); auto; [apply A1|rewrite F4; auto|rewrite F1; auto|rewrite F1; auto].
Qed.
(** What is minimised after the call, in any model: the value is put into the interactions, while the penalties of the
    constraints go on looking at the variable. *)
Theorem C109_exact_effect : forall ev v q m m1 fd, well_formed m -> resolved fd m ->
  (forall r, In r (m_rows m) -> touches (v_label v) r = true -> active r) -> fix_variable ev (TVar v) q m = (m1, Ok tt) ->
  forall a, objective fd m1 a = (energy fd (assign a (v_label v) q) m + penalties (as_binary (m_mtype m) a) (dvals (m_constrs m)))%Qc.
Proof.
  intros ev v q m m1 fd HW HR HA E a. destruct (C17_fix _ _ _ _ _ _ HW HR HA E) as (EN & _ & F1 & _ & _ & F4 & _). unfold objective. rewrite F1, F4, EN. reflexivity.
Qed.
(** Exactly: the variable stays in the physical model if and only if the penalties of the constraints depend on it. *)
Theorem C109_exact : forall ev ev' evs v q m m1 m2 p fd, reachable m -> aligned m -> well_formed m -> resolved fd m ->
  (forall r, In r (m_rows m) -> touches (v_label v) r = true -> active r) -> Forall constr_ok (dvals (m_constrs m)) ->
  fix_variable ev (TVar v) q m = (m1, Ok tt) -> to_physical ev' evs fd m1 = (m2, Ok p) ->
  (occurs p (v_label v) <->
   exists a b, lawful (m_mtype m) a /\ lawful (m_mtype m) b /\ (forall l, l <> v_label v -> a l = b l) /\
     penalties (as_binary (m_mtype m) a) (dvals (m_constrs m)) <> penalties (as_binary (m_mtype m) b) (dvals (m_constrs m))).
Proof.
  intros ev ev' evs v q m m1 m2 p fd RE AL HW HR HA HK E EP.
  assert (A1 := ak_fix _ _ _ _ _ _ E AL). assert (L1 := proj1 A1).
  assert (RE1 : reachable m1) by (replace m1 with (fst (do_op ev evs (OFix (TVar v) q) m)) by (cbn [do_op]; rewrite E; reflexivity); constructor; auto).
  destruct (C17_fix _ _ _ _ _ _ HW HR HA E) as (_ & _ & F1 & _ & _ & F4 & _).
  assert (HT : p_mtype p = m_mtype m1) by (destruct (to_physical_ok _ _ _ _ _ _ L1 EP) as (cms & _ & _ & ->); unfold phys, build_physical; destruct (index_labels _ _ _ _ _ _); reflexivity).
  assert (HK1 : Forall constr_ok (dvals (m_constrs m1))) by (rewrite F4; auto).
  pose proof (C109_exact_effect _ _ _ _ _ _ HW HR HA E) as FO.
  assert (DIFF : forall a b, lawful (m_mtype m) a -> lawful (m_mtype m) b -> (forall l, l <> v_label v -> a l = b l) ->
    (energy_physical a p - energy_physical b p)%Qc = (penalties (as_binary (m_mtype m) a) (dvals (m_constrs m)) - penalties (as_binary (m_mtype m) b) (dvals (m_constrs m)))%Qc).
  { intros a b LA LB D. rewrite <- F1 in LA, LB. pose proof (physical_objective _ _ _ _ _ _ a b L1 HK1 EP LA LB) as H. rewrite F1 in LA, LB.
    change ((energy_physical a p - energy_physical b p)%Qc = (objective fd m1 a - objective fd m1 b)%Qc) in H. rewrite H, !FO.
    rewrite (energy_ext fd (assign a (v_label v) q) (assign b (v_label v) q)); [ring|]. intros k. unfold assign. destruct (String.eqb_spec k (v_label v)); auto. }
  rewrite (C105_variables _ _ _ _ _ _ _ RE1 L1 EP). unfold depends_on. rewrite HT, F1. split.
  - intros (a & b & LA & LB & D & NE). exists a, b. split; auto. split; auto. split; auto. intros C. apply NE.
    specialize (DIFF a b LA LB D). rewrite C in DIFF. apply (f_equal (fun z => (z + energy_physical b p)%Qc)) in DIFF. ring_simplify in DIFF. exact DIFF.
  - intros (a & b & LA & LB & D & NE). exists a, b. split; auto. split; auto. split; auto. intros C. apply NE.
    specialize (DIFF a b LA LB D). rewrite C in DIFF.
    apply (f_equal (fun z => (z + penalties (as_binary (m_mtype m) b) (dvals (m_constrs m)))%Qc)) in DIFF. ring_simplify in DIFF. symmetry. exact DIFF.
Qed.
(** The whole claim is false, because the constraints keep the variable: [x[0]] is fixed
    to 1, and all best assignments of the physical model give it the value 0. *)
Definition one_of_two : lmodel := run_ops
  [OVariables (VName "x") (ShTuple [ShInt 2]); OAdd (TVar (bin "x" 1)) (NStr "") (num 10) (num 1) AtNone TsNone;
   OAddConstraint (Some (NHot [bin "x" 0; bin "x" 1] 1 "one" 1%Qc))] (new_model Qubo).
Theorem C109_refuted : exists m m1 m2 p v, history m /\ aligned m /\ well_formed m /\ resolved [] m /\ Forall active (m_rows m) /\ Forall constr_ok (dvals (m_constrs m)) /\
  fix_variable env0 (TVar v) 1 m = (m1, Ok tt) /\ to_physical env0 evs0 [] m1 = (m2, Ok p) /\ occurs p (v_label v) /\
  exists a, lawful Qubo a /\ a (v_label v) = 0%Qc /\ forall b, lawful Qubo b -> b (v_label v) = 1%Qc -> (energy_physical a p < energy_physical b p)%Qc.
Proof.
  set (m1 := fst (fix_variable env0 (TVar (bin "x" 0)) 1 one_of_two)).
  destruct (to_physical env0 evs0 [] m1) as [m2 [p|e]] eqn:E; [|exfalso; assert (X := f_equal okb E); vm_compute in X; discriminate].
  assert (HP : (p_linear p, p_quad p, p_offset p) = ([("x[1]", qz 11); ("x[0]", qz 1)], [(("x[0]", "x[1]"), qz (-2))], 0%Qc)).
  { assert (X : match snd (m2, Ok p) with Ok p => (p_linear p, p_quad p, p_offset p) | Err _ => ([], [], 0%Qc) end = ([("x[1]", qz 11); ("x[0]", qz 1)], [(("x[0]", "x[1]"), qz (-2))], 0%Qc)); [|exact X].
    rewrite <- E. vm_compute. repeat f_equal; apply Qc_is_canon; reflexivity. }
  injection HP as P1 P2 P3.
  exists one_of_two, m1, m2, p, (bin "x" 0). split; [apply run_history; constructor|]. split; [apply alignedb_ok; vm_compute; reflexivity|].
  split; [apply wfb_ok; vm_compute; reflexivity|]. split; [apply resolvedb_ok; vm_compute; reflexivity|]. split; [repeat constructor|].
  split. { constructor; [|constructor]. apply nodupb_ok. vm_compute. reflexivity. }
  split; [apply okb_ok; vm_compute; reflexivity|]. split; [exact E|]. split; [left; rewrite P1; simpl; auto|].
  exists (fun l => if String.eqb l "x[0]" then 0%Qc else 1%Qc). split; [intros l; destruct (String.eqb l "x[0]"); auto|]. split; [reflexivity|].
  intros b LB HB. change (v_label (bin "x" 0)) with "x[0]" in HB. unfold energy_physical. rewrite P1, P2, P3. cbn [map qsum fst snd]. rewrite HB.
  destruct (LB "x[1]") as [->| ->]; reflexivity.
Qed.

(** ** Examples *)
Lemma ok_parts {S A} (x : S * res A) : okb x = true -> exists a, x = (fst x, Ok a).
Proof. destruct x as [s [a|e]]; [eauto|discriminate]. Qed.
Lemma ok_unit {S} (x : S * res unit) : okb x = true -> x = (fst x, Ok tt).
Proof. destruct x as [s [[]|e]]; [auto|discriminate]. Qed.
Definition coupled1 : lmodel := fst (fix_variable env0 (TVar (spn "x" 0)) 1 coupled).
Definition coupled2 : lmodel := fst (to_physical env0 evs0 [] coupled1).
Definition coupled3 : lmodel := fst (fix_variable env0 (TVar (spn "x" 1)) (- (1)) coupled2).
Definition coupled4 : lmodel := fst (to_physical env0 evs0 [] coupled3).
Example C108_hyps : exists m2, aligned coupled /\ well_formed coupled /\ resolved [] coupled /\ Forall active (m_rows coupled) /\ m_constrs coupled = [] /\
  coupling [] "x[0]" "x[2]" coupled = 0%Qc /\ coupling [] "x[0]" "x[1]" coupled = qz 5 /\
  fix_variable env0 (TVar (spn "x" 0)) 1 coupled = (coupled1, Ok tt) /\ fix_variable env0 (TVar (spn "x" 2)) (- (1)) coupled1 = (m2, Ok tt) /\
  fixed_apart [] coupled [(spn "x" 0, 1%Qc); (spn "x" 1, (- (1))%Qc)] coupled4 /\ length (m_rows coupled4) = 1.
Proof.
  eexists. split; [apply alignedb_ok; vm_compute; reflexivity|]. split; [apply wfb_ok; vm_compute; reflexivity|].
  split; [apply resolvedb_ok; vm_compute; reflexivity|]. split; [repeat constructor|]. split; [reflexivity|]. split; [apply Qc_is_canon; reflexivity|]. split; [apply Qc_is_canon; reflexivity|].
  split; [apply (ok_unit (fix_variable env0 (TVar (spn "x" 0)) 1 coupled)); vm_compute; reflexivity|]. split; [apply okb_ok; vm_compute; reflexivity|]. split; [|vm_compute; reflexivity].
  destruct (ok_parts (to_physical env0 evs0 [] coupled1)) as [p1 E1]; [vm_compute; reflexivity|].
  destruct (ok_parts (to_physical env0 evs0 [] coupled3)) as [p2 E2]; [vm_compute; reflexivity|].
  apply (fa_next [] env0 env0 evs0 (spn "x" 0) 1%Qc _ coupled coupled1 coupled2 coupled4 p1); [|exact E1|].
  { apply (ok_unit (fix_variable env0 (TVar (spn "x" 0)) 1 coupled)). vm_compute. reflexivity. }
  apply (fa_next [] env0 env0 evs0 (spn "x" 1) (- (1))%Qc _ coupled2 coupled3 coupled4 coupled4 p2); [|exact E2|].
  { apply (ok_unit (fix_variable env0 (TVar (spn "x" 1)) (- (1)) coupled2)). vm_compute. reflexivity. }
  apply fa_done.
Qed.
(** A model with a constraint on other variables, solved exactly. *)
Definition three : lmodel := run_ops
  [OVariables (VName "x") (ShTuple [ShInt 3]); OAdd (TVar (bin "x" 1)) (NStr "") (num 10) (num 1) AtNone TsNone;
   OAdd (PropsInteractions.pair (bin "x" 0) (bin "x" 2)) (NStr "") (num (-7)) (num 1) AtNone TsNone;
   OAddConstraint (Some (NHot [bin "x" 1; bin "x" 2] 1 "one" (qz 20)))] (new_model Qubo).
Definition three1 : lmodel := fst (fix_variable env0 (TVar (bin "x" 0)) 1 three).
Example C109_hyps : exists m2 p rows s e, reachable three /\ aligned three /\ well_formed three /\ resolved [] three /\ Forall active (m_rows three) /\
  Forall constr_ok (dvals (m_constrs three)) /\ (forall c, In c (dvals (m_constrs three)) -> ~ In "x[0]" (all_labels_of c)) /\
  fix_variable env0 (TVar (bin "x" 0)) 1 three = (three1, Ok tt) /\ to_physical env0 evs0 [] three1 = (m2, Ok p) /\
  local_solve true (fun _ => Err ValueError) (Some p) = Ok rows /\ lowest s e rows.
Proof.
  destruct (to_physical env0 evs0 [] three1) as [m2 [p|e]] eqn:E; [|exfalso; assert (X := f_equal okb E); vm_compute in X; discriminate].
  assert (HP : match snd (m2, Ok p) with Ok p => (length (p_linear p), dkeys (p_quad p)) | Err _ => (0, []) end = (2, [("x[1]", "x[2]")])) by (rewrite <- E; vm_compute; reflexivity).
  cbn [snd] in HP. injection HP as P1 P2.
  destruct (C75_succeeds (fun _ => Err ValueError) p) as [rows ER].
  { left. intros H. rewrite H in P1. discriminate. }
  { rewrite P2. intros l [H|[]]. inversion H. congruence. }
  destruct (C75_has_lowest _ _ _ ER) as (s & e & LW). exists m2, p, rows, s, e.
  split; [apply PropsReach.history_reachable, run_history; constructor|]. split; [apply alignedb_ok; vm_compute; reflexivity|].
  split; [apply wfb_ok; vm_compute; reflexivity|]. split; [apply resolvedb_ok; vm_compute; reflexivity|]. split; [repeat constructor|].
  split. { constructor; [|constructor]. apply nodupb_ok. vm_compute. reflexivity. }
  split. { intros c [<-|[]]. cbn. intuition discriminate. }
  split; [apply (ok_unit (fix_variable env0 (TVar (bin "x" 0)) 1 three)); vm_compute; reflexivity|]. auto.
Qed.
Print Assumptions C108_exact_effect.
Print Assumptions C108_uncoupled_partial.
Print Assumptions C108_apart_partial.
Print Assumptions C108_refuted.
Print Assumptions C109_absent_partial.
Print Assumptions C109_best_partial.
Print Assumptions C109_exact_effect.
Print Assumptions C109_exact.
Print Assumptions C109_refuted.
