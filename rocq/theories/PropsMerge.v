(** * PropsMerge: C22-C25 - merging two models. *)
From Verif Require Import PyBase PyLemmas Constraint LogicalModel Spec LogicalProofs EnergyProofs ConvertProofs
  ConstraintProofs MergeProofs PhysicalProofs ToPhysicalProofs InteractionProofs Samples PropsPhysical PropsInteractions PropsVariables PropsConvert.
Open Scope list_scope.

Lemma merge_inv ev evo k m o m' o' : merge ev evo k m o = (m', o', Ok tt) ->
  (m_mtype m = m_mtype o /\ o' = o \/ m_mtype m <> m_mtype o /\ convert_mtype evo o = (o', Ok tt)) /\
  merge_same ev k o' m = (m', Ok tt).
Proof.
  unfold merge. intros E. destruct (mtype_eqb (m_mtype m) (m_mtype o)) eqn:ET.
  - destruct (merge_same ev k o m) as [m1 r] eqn:EM. inversion E; subst. split; auto. left. split; auto. destruct (m_mtype m), (m_mtype o'); auto; discriminate.
  - destruct (convert_mtype evo o) as [o1 [[]|e]] eqn:EC; [|discriminate].
    destruct (merge_same ev k o1 m) as [m1 r] eqn:EM. inversion E; subst. split; auto. right. split; auto. destruct (m_mtype m), (m_mtype o); auto; discriminate.
Qed.
Lemma convert_mtype_resolves ev m m' fd : convert_mtype ev m = (m', Ok tt) -> well_formed m -> resolves fd (m_offset m) ->
  resolves fd (m_offset m') /\ m_mtype m' <> m_mtype m /\ well_formed m'.
Proof.
  unfold convert_mtype. unfold bind, get. intros E HW HO. destruct (m_mtype m) eqn:ET.
  - destruct (shifts_cancel_iq _ _ _ _ _ E ET HW HO) as (_ & H1 & ->). split; auto. split; [discriminate|]. eapply convert_wf; eauto.
  - destruct (shifts_cancel_qi _ _ _ _ _ E ET HW HO) as (_ & H1 & ->). split; auto. split; [discriminate|]. eapply convert_wf; eauto.
Qed.

(** ** C22 *)
Theorem C22_merge_energy : forall ev evo k m o m' o' fd, well_formed o -> resolves fd (m_offset m) -> resolves fd (m_offset o) ->
  merge ev evo k m o = (m', o', Ok tt) ->
  (m_mtype m = m_mtype o /\ o' = o \/ m_mtype m <> m_mtype o /\ convert_mtype evo o = (o', Ok tt)) /\
  m_mtype m' = m_mtype m /\ m_mtype o' = m_mtype m /\
  forall s, energy fd s m' = (energy fd s m + energy fd s o')%Qc.
Proof.
  intros ev evo k m o m' o' fd HW HO1 HO2 E. apply merge_inv in E. destruct E as [HC E]. split; auto.
  assert (HX : resolves fd (m_offset o') /\ m_mtype o' = m_mtype m).
  { destruct HC as [[HT ->]|[HT EC]]; [auto|]. destruct (convert_mtype_resolves _ _ _ _ EC HW HO2) as (A & B & _). split; auto.
    destruct (m_mtype m), (m_mtype o), (m_mtype o'); congruence. }
  destruct HX as [HO3 HT]. split; [|split; auto; intros s; eapply merge_same_energy; eauto].
  apply merge_same_ok in E. destruct E as (vs & cols & _ & _ & _ & _ & ->). reflexivity.
Qed.
(** For unit-scale models of different types: the sum with the other model at
    the corresponding assignment, up to a constant. *)
Corollary C22_merge_energy_other_type : forall ev evo k m o m' o' fd, well_formed o -> unit_scales o ->
  resolves fd (m_offset m) -> resolves fd (m_offset o) -> m_mtype m <> m_mtype o ->
  merge ev evo k m o = (m', o', Ok tt) ->
  exists c, forall s, energy fd s m' = (energy fd s m + energy fd (if mtype_eqb (m_mtype m) Ising then to_binary s else to_spin s) o + c)%Qc.
Proof.
  intros ev evo k m o m' o' fd HW HU HO1 HO2 HT E.
  destruct (C22_merge_energy _ _ _ _ _ _ _ _ HW HO1 HO2 E) as ([[X _]|[_ EC]] & _ & _ & HE); [contradiction|].
  unfold convert_mtype, bind, get in EC. destruct (m_mtype m) eqn:TM, (m_mtype o) eqn:TO; try contradiction.
  - destruct (C19_to_ising _ _ _ _ HW HU HO2 TO EC) as (_ & c & HC). exists c. intros s. rewrite HE, HC. simpl. ring.
  - destruct (C19_to_qubo _ _ _ _ HW HU HO2 TO EC) as (_ & c & HC). exists c. intros s. rewrite HE, HC. simpl. ring.
Qed.
(** What else is merged: the interactions in order (all fields but the name),
    their attributes, deleted and fixed labels, and the constraints. *)
Lemma dupdate_keys {A} (b : dict string A) : forall a x, In x (dkeys (dupdate a b)) <-> In x (dkeys a) \/ In x (dkeys b).
Proof.
  induction b as [|[k v] b IH]; intros a x; simpl; [tauto|]. unfold dupdate in *. simpl. rewrite IH, dset_in_iff. intuition.
Qed.
Lemma dupdate_get {A} (b : dict string A) : forall a x, NoDup (dkeys b) -> dget x (dupdate a b) = match dget x b with Some v => Some v | None => dget x a end.
Proof.
  induction b as [|[k v] b IH]; intros a x ND; simpl; auto. unfold dupdate in *. simpl in *. inversion ND as [|? ? N1 N2]; subst.
  rewrite IH by auto. destruct (String.eqb_spec x k) as [->|NE].
  - apply dget_none in N1. rewrite N1, dget_dset_same. reflexivity.
  - destruct (dget x b); auto. rewrite dget_dset_other; auto.
Qed.
Lemma Forall2_weaken {A B} (P Q : A -> B -> Prop) l l' : (forall a b, P a b -> Q a b) -> Forall2 P l l' -> Forall2 Q l l'.
Proof. intros H F. induction F; constructor; auto. Qed.
Theorem C22_contents : forall ev evo k m o m' o', merge ev evo k m o = (m', o', Ok tt) ->
  Forall2 (fun r' r => r_key r' = r_key r /\ r_inter r' = r_inter r /\ r_coef r' = r_coef r /\ r_scale r' = r_scale r /\
                       r_ts r' = r_ts r /\ r_dirty r' = r_dirty r /\ r_removed r' = r_removed r) (m_rows m') (m_rows m ++ m_rows o') /\
  (aligned m -> aligned o' -> forall i a, attr_val m' i a =
     if (i <? length (m_rows m))%nat then attr_val m i a else attr_val o' (i - length (m_rows m)) a) /\
  (forall l, In l (dkeys (m_deleted m')) <-> In l (dkeys (m_deleted m)) \/ In l (dkeys (m_deleted o'))) /\
  (forall l, In l (dkeys (m_fixed m')) <-> In l (dkeys (m_fixed m)) \/ In l (dkeys (m_fixed o'))) /\
  (NoDup (dkeys (m_constrs o')) -> forall l c, dget l (m_constrs m') = Some c <-> dget l (m_constrs m) = Some c \/ dget l (m_constrs o') = Some c).
Proof.
  intros ev evo k m o m' o' E. apply merge_inv in E. destruct E as [_ E].
  pose proof E as E0. apply merge_same_ok in E. destruct E as (vs & cols & _ & _ & _ & HC & EM).
  split; [|split; [|split; [|split]]].
  - rewrite EM. simpl. eapply Forall2_weaken; [|apply rename_eqx]. intros a b H. apply eqx_fields in H. exact H.
  - intros HA HB i a. rewrite <- (proj1 HA). eapply merge_same_attrs; eauto.
  - rewrite EM. simpl. intros l. apply dupdate_keys.
  - rewrite EM. simpl. intros l. apply dupdate_keys.
  - rewrite EM. simpl. intros ND l c. rewrite dupdate_get by auto. destruct (dget l (m_constrs o')) as [c'|] eqn:EG.
    + split; [auto|]. intros [H|H]; auto. exfalso.
      assert (HX : existsb (fun l => dmem l (m_constrs o')) (dkeys (m_constrs m)) = true); [|congruence].
      apply existsb_exists. exists l. split; [apply dget_some_in; eauto|]. apply dmem_in. apply dget_some_in; eauto.
    + split; [auto|]. intros [H|H]; [auto|discriminate].
Qed.

(** ** C23 *)
Lemma max_nth a : forall b i, length a = length b -> nth i (elementwise_max a b) 0%Z = Z.max (nth i a 0%Z) (nth i b 0%Z) /\ length (elementwise_max a b) = length a.
Proof.
  induction a as [|x a IH]; intros [|y b] i H; try discriminate; [destruct i; auto|]. injection H as H.
  unfold elementwise_max in *. simpl. destruct (IH b (pred i) H) as [A B]. split; [|simpl; auto]. destruct i; auto.
Qed.
Theorem C23_variables : forall ev evo k m o m' o', NoDup (dkeys (m_vars m)) -> NoDup (dkeys (m_vars o')) ->
  merge ev evo k m o = (m', o', Ok tt) ->
  forall n,
  match dget n (m_vars m), dget n (m_vars o') with
  | None, None => dget n (m_vars m') = None
  | Some a, None => dget n (m_vars m') = Some a
  | None, Some b => dget n (m_vars m') = Some b
  | Some a, Some b => exists c sh, dget n (m_vars m') = Some c /\ array_create n sh (kind_of (m_mtype m)) = Ok c /\ a_shape c = sh /\
      length (a_shape a) = length (a_shape b) /\ length sh = length (a_shape a) /\
      forall i, nth i sh 0%Z = Z.max (nth i (a_shape a) 0%Z) (nth i (a_shape b) 0%Z)
  end.
Proof.
  intros ev evo k m o m' o' N1 N2 E n. apply merge_inv in E. destruct E as [_ E].
  apply merge_same_ok in E. destruct E as (vs & cols & HD & HV & _ & _ & ->). simpl.
  apply dims_ok_spec in HD; auto. pose proof (merge_vars_spec _ _ _ _ N2 HD HV n) as HM. simpl in HM. unfold merged_var in HM.
  destruct (dget n (m_vars m)) as [a|] eqn:EA, (dget n (m_vars o')) as [b|] eqn:EB; auto.
  destruct HM as (c & EC & CR). exists c, (elementwise_max (a_shape b) (a_shape a)).
  assert (HL : length (a_shape a) = length (a_shape b)) by (eapply HD; eauto; apply dget_in; auto).
  split; auto. split; auto. split; [eapply array_create_shape; eauto|]. split; auto.
  split. { destruct (max_nth (a_shape b) (a_shape a) 0 (eq_sym HL)) as [_ ->]. auto. }
  intros i. destruct (max_nth (a_shape b) (a_shape a) i (eq_sym HL)) as [-> _]. apply Z.max_comm.
Qed.
(** Models of the same type can be merged exactly when shared variables have
    the same number of dimensions (given disjoint constraint labels); otherwise ValueError, nothing changed. *)
Theorem C23_succeeds_iff : forall ev evo k m o, m_mtype m = m_mtype o -> aligned m -> aligned o ->
  NoDup (dkeys (m_vars m)) -> NoDup (dkeys (m_vars o)) ->
  (forall n a, dget n (m_vars m) = Some a -> In n (dkeys (m_vars o)) -> regular n a) ->
  (forall l, In l (dkeys (m_constrs m)) -> ~ In l (dkeys (m_constrs o))) ->
  (same_dims (m_vars m) (m_vars o) /\ exists m', merge ev evo k m o = (m', o, Ok tt)) \/
  (~ same_dims (m_vars m) (m_vars o) /\ merge ev evo k m o = (m, o, Err ValueError)).
Proof.
  intros ev evo k m o HT HA HB N1 N2 HR HC. unfold merge.
  assert (HE : mtype_eqb (m_mtype m) (m_mtype o) = true) by (rewrite HT; destruct (m_mtype o); reflexivity). rewrite HE.
  destruct (dims_ok m o) eqn:HD.
  - apply dims_ok_spec in HD; auto. destruct (merge_same_succeeds ev k o m HA HB N1 N2 HD HR HC) as [m' E]. left. split; auto. exists m'. rewrite E. reflexivity.
  - right. split; [rewrite <- dims_ok_spec by auto; congruence|]. unfold merge_same, bind, get, guard. rewrite HD. reflexivity.
Qed.

(** ** C24 *)
(** Names stay unique when the two models have different ids and no name of
    either already is a renamed clash "n (id)". *)
Theorem C24_unique_partial : forall ev evo k m o m' o', aligned m -> names_unique m -> names_unique o' ->
  e_id_self ev <> e_id_other ev k -> has_char "("%char (e_id_self ev) = false -> has_char "("%char (e_id_other ev k) = false ->
  (forall n id, In n (names m) -> In n (names o') -> id = e_id_self ev \/ id = e_id_other ev k ->
     ~ In (n +++ " (" +++ id +++ ")")%string (names m ++ names o')) ->
  merge ev evo k m o = (m', o', Ok tt) -> names_unique m'.
Proof.
  intros ev evo k m o m' o' HA U1 U2 HI P1 P2 HF E. apply merge_inv in E. destruct E as [_ E].
  unfold names_unique. rewrite (merge_same_names _ _ _ _ _ _ E (proj1 HA)). apply ren_unique; auto.
  - intros n. apply in_dup_names.
  - intros n HD. apply in_dup_names in HD. destruct HD. split; apply HF; auto.
Qed.
Definition one_row (nm : string) : lmodel := fst ((variables (VName "x") (ShTuple [ShInt 2]) ;;;
  add_interaction env0 (TVar (spn "x" 0)) (NStr nm) (num 3) (num 1) AtNone TsNone)%py (new_model Ising)).
(** Merging a model with itself: id(self) = id(other). *)
Definition env_self : env := mkEnv (qz 100) (qz 7) (fun k => "t" +++ str_of_nat k) "11" (fun k => "11"%string).
Theorem C24_refuted :
  (exists m', names_unique (one_row "a") /\ merge env_self env_self 0 (one_row "a") (one_row "a") = (m', one_row "a", Ok tt) /\ ~ names_unique m') /\
  (exists m1 m2 m3, names_unique (one_row "a") /\ e_id_self env0 <> e_id_other env0 0 /\
     merge env0 env0 0 (one_row "a") (one_row "a") = (m1, one_row "a", Ok tt) /\
     merge env0 env0 0 m1 (one_row "a") = (m2, one_row "a", Ok tt) /\ names_unique m2 /\
     merge env0 env0 0 m2 (one_row "a") = (m3, one_row "a", Ok tt) /\ ~ names_unique m3).
Proof.
  split.
  - eexists. split; [apply nodupb_ok; reflexivity|]. split; [vm_compute; reflexivity|].
    intros H. unfold names_unique in H. vm_compute in H. inversion H as [|? ? H1 _]. apply H1. left; reflexivity.
  - eexists. eexists. eexists. split; [apply nodupb_ok; reflexivity|]. split; [discriminate|].
    split; [vm_compute; reflexivity|]. split; [vm_compute; reflexivity|]. split; [apply nodupb_ok; reflexivity|].
    split; [vm_compute; reflexivity|].
    intros H. unfold names_unique in H. vm_compute in H. inversion H as [|? ? H1 _]. apply H1. simpl; auto.
Qed.

(** ** C25 *)
Theorem C25_rejected_partial : forall ev evo k m o m' o' e, m_mtype m = m_mtype o -> aligned m -> aligned o ->
  NoDup (dkeys (m_vars m)) -> NoDup (dkeys (m_vars o)) ->
  (forall n a, dget n (m_vars m) = Some a -> In n (dkeys (m_vars o)) -> regular n a) ->
  (forall l, In l (dkeys (m_constrs m)) -> ~ In l (dkeys (m_constrs o))) ->
  merge ev evo k m o = (m', o', Err e) -> m' = m /\ o' = o /\ e = ValueError.
Proof.
  intros ev evo k m o m' o' e HT HA HB N1 N2 HR HC E.
  destruct (C23_succeeds_iff ev evo k m o HT HA HB N1 N2 HR HC) as [[_ [m1 E1]]|[_ E1]]; rewrite E1 in E; inversion E; auto.
Qed.
Definition with_con (n : nat) : lmodel := fst ((variables (VName "q") (ShTuple [ShInt 2]) ;;;
  add_interaction env0 (TVar (bin "q" n)) (NStr "") (num 3) (num 1) AtNone TsNone ;;;
  add_constraint (Some (NHot [bin "q" 0; bin "q" 1] 1 "one" (qz 2))))%py (new_model Qubo)).
Definition dims2 : lmodel := fst (variables (VName "q") (ShTuple [ShInt 2; ShInt 2]) (new_model Ising)).
(** (1) a shared constraint label: self already contains the interactions of
    other; (2) other has been converted before its dimensions are rejected. *)
Theorem C25_refuted :
  (exists m', merge env0 env0 0 (with_con 0) (with_con 1) = (m', with_con 1, Err ValueError) /\
     length (m_rows (with_con 0)) = 1 /\ length (m_rows m') = 2) /\
  (exists o', merge env0 env0 0 (with_con 0) dims2 = (with_con 0, o', Err ValueError) /\ m_mtype dims2 = Ising /\ m_mtype o' = Qubo).
Proof. split; eexists; (split; [vm_compute; reflexivity|]; split; reflexivity). Qed.

Definition ma : lmodel := fst ((variables (VName "x") (ShTuple [ShInt 2; ShInt 3]) ;;; variables (VName "y") (ShTuple [ShInt 2]) ;;;
  add_interaction env0 (TVar (spn "y" 0)) (NStr "a") (num 3) (num 1) (AtDict [("w"%string, ANum (qz 1))]) TsNone)%py (new_model Ising)).
Definition mb : lmodel := fst ((variables (VName "x") (ShTuple [ShInt 4; ShInt 1]) ;;; variables (VName "z") (ShTuple [ShInt 2]) ;;;
  add_interaction env0 (TVar (spn "z" 0)) (NStr "a") (num 3) (num 1) AtNone TsNone ;;;
  add_interaction env0 (TVar (spn "z" 1)) (NStr "b") (num 3) (num 1) (AtDict [("v"%string, ANum (qz 1))]) TsNone)%py (new_model Ising)).
Definition mc : lmodel := fst ((variables (VName "x") (ShTuple [ShInt 4; ShInt 1]) ;;; variables (VName "z") (ShTuple [ShInt 2]) ;;;
  add_interaction env0 (TVar (bin "z" 0)) (NStr "a") (num 3) (num 1) AtNone TsNone ;;;
  add_interaction env0 (pair (bin "z" 1) (bin "z" 0)) (NStr "b") (num 3) (num 1) AtNone TsNone)%py (new_model Qubo)).
Example C22_C25_hyps : exists m' m2 o2, aligned ma /\ aligned mb /\ well_formed ma /\ well_formed mb /\ well_formed mc /\ unit_scales mc /\
  resolves [] (m_offset ma) /\ resolves [] (m_offset mb) /\ resolves [] (m_offset mc) /\
  NoDup (dkeys (m_vars ma)) /\ NoDup (dkeys (m_vars mb)) /\
  (forall n a, dget n (m_vars ma) = Some a -> In n (dkeys (m_vars mb)) -> regular n a) /\
  e_id_self env0 <> e_id_other env0 0 /\ has_char "("%char (e_id_self env0) = false /\ has_char "("%char (e_id_other env0 0) = false /\
  (forall n id, In n (names ma) -> In n (names mb) -> id = e_id_self env0 \/ id = e_id_other env0 0 ->
     ~ In (n +++ " (" +++ id +++ ")")%string (names ma ++ names mb)) /\
  merge env0 (evs0 0) 0 ma mb = (m', mb, Ok tt) /\ names m' = ["a (11)"; "a (20)"; "b"]%string /\
  m_mtype ma <> m_mtype mc /\ merge env0 (evs0 0) 0 ma mc = (m2, o2, Ok tt).
Proof.
  eexists. eexists. eexists. do 2 (split; [apply alignedb_ok; reflexivity|]). do 3 (split; [apply wfb_ok; reflexivity|]).
  split. { intros r [<-|[<-|[]]] _; reflexivity. }
  do 3 (split; [intros H; discriminate H|]). do 2 (split; [apply nodupb_ok; reflexivity|]).
  split. { intros n a. simpl. destruct (String.eqb_spec n "x") as [->|N].
    - intros H _. inversion H; subst. split; [reflexivity|]. split; [discriminate|]. repeat constructor.
    - intros H1 [H|[H|[]]]; subst; [congruence|]. simpl in H1. discriminate H1. }
  split; [discriminate|]. do 2 (split; [reflexivity|]).
  split. { intros n id [<-|[]] _ [->| ->] HI; simpl in HI; destruct HI as [H|[H|[H|[]]]]; discriminate. }
  split; [vm_compute; reflexivity|]. split; [reflexivity|]. split; [discriminate|]. vm_compute; reflexivity.
Qed.

Print Assumptions C22_merge_energy.
Print Assumptions C22_merge_energy_other_type.
Print Assumptions C22_contents.
Print Assumptions C23_variables.
Print Assumptions C23_succeeds_iff.
Print Assumptions C24_unique_partial.
Print Assumptions C24_refuted.
Print Assumptions C25_rejected_partial.
Print Assumptions C25_refuted.
