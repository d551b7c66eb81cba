(** * PropsEquality: property C90, == of logical models and constraints. *)
From Verif Require Import PyBase PyLemmas Constraint LogicalModel Physical Spec LogicalProofs EnergyProofs ConvertProofs ConstraintProofs PhysicalProofs Samples
  History EqualitySpec ModelEq ProperProofs.
Open Scope list_scope.

Lemma decb_iff {P Q : Prop} (d : {P} + {Q}) : (Q -> ~ P) -> (decb d = true <-> P).
Proof. intros H. destruct d; simpl; split; auto; intros X; [discriminate|]. apply H in q. contradiction. Qed.
Lemma match_keys {K V} `{Eqb K} (R : V -> V -> Prop) (d d' : dict K V) : match_dict R d d' -> incl (dkeys d) (dkeys d').
Proof.
  intros HM k HK. destruct (proj2 (dget_some_in _ _) HK) as [v HV]. specialize (HM k). rewrite HV in HM.
  destruct (dget k d') eqn:E; [|contradiction]. apply dget_some_in. eauto.
Qed.
Lemma match_sym {K V} `{Eqb K} (R R' : V -> V -> Prop) (d d' : dict K V) : (forall a b, R a b -> R' b a) -> match_dict R d d' -> match_dict R' d' d.
Proof. intros HR HM k. specialize (HM k). destruct (dget k d), (dget k d'); auto. Qed.
Lemma match_trans {K V} `{Eqb K} (R : V -> V -> Prop) (d1 d2 d3 : dict K V) : (forall a b c, R a b -> R b c -> R a c) ->
  match_dict R d1 d2 -> match_dict R d2 d3 -> match_dict R d1 d3.
Proof.
  intros HR H1 H2 k. specialize (H1 k). specialize (H2 k). destruct (dget k d1), (dget k d2), (dget k d3); eauto; contradiction.
Qed.
Lemma match_refl {K V} `{Eqb K} (R : V -> V -> Prop) (d : dict K V) : (forall a, R a a) -> match_dict R d d.
Proof. intros HR k. destruct (dget k d); auto. Qed.
Lemma dict_eqb_by_iff {K V} `{Eqb K} (r : V -> V -> bool) (R : V -> V -> Prop) (d d' : dict K V) :
  NoDup (dkeys d) -> NoDup (dkeys d') ->
  (forall k v w, dget k d = Some v -> dget k d' = Some w -> (r v w = true <-> R v w)) ->
  (dict_eqb_by r d d' = true <-> match_dict R d d').
Proof.
  intros N N' HR. unfold dict_eqb_by. rewrite andb_true_iff, Nat.eqb_eq, forallb_forall. split.
  - intros [HL HF].
    assert (HI : incl (dkeys d) (dkeys d')).
    { intros k HK. apply in_map_iff in HK. destruct HK as ((k1 & v) & <- & HK). specialize (HF _ HK). cbn [fst snd] in *.
      destruct (dget k1 d') eqn:E; [|discriminate]. apply dget_some_in. eauto. }
    assert (HI' : incl (dkeys d') (dkeys d)) by (apply NoDup_length_incl; auto; unfold dkeys; rewrite !map_length; lia).
    intros k. destruct (dget k d) as [v|] eqn:E1, (dget k d') as [w|] eqn:E2; auto.
    + apply (HR k); auto. apply dget_in in E1. specialize (HF _ E1). cbn [fst snd] in HF. rewrite E2 in HF. auto.
    + apply dget_none in E2. apply E2, HI. apply dget_some_in. eauto.
    + apply dget_none in E1. apply E1, HI'. apply dget_some_in. eauto.
  - intros HM. split.
    + assert (L1 := NoDup_incl_length N (match_keys _ _ _ HM)).
      assert (L2 := NoDup_incl_length N' (match_keys (fun a b => R b a) _ _ (match_sym R (fun a b => R b a) _ _ (fun _ _ X => X) HM))).
      unfold dkeys in *. rewrite !map_length in *. lia.
    + intros [k v] HI. cbn [fst snd]. apply in_dget in HI; auto. specialize (HM k). rewrite HI in HM.
      destruct (dget k d') as [w|] eqn:E; [|contradiction]. apply (HR k); auto.
Qed.

(** ** Constraints *)
(** The variables of a constraint object are sets (no repetitions). *)
Definition real_sets (c : constr) : Prop :=
  match c with
  | NHot vs _ _ _ | ZeroOrOne vs _ _ => NoDup vs
  | Equality v1 v2 _ _ => NoDup v1 /\ NoDup v2
  end.
Lemma set_eqb_iff a b : NoDup a -> NoDup b -> (set_eqb a b = true <-> same_set a b).
Proof.
  intros N N'. unfold set_eqb, same_set. rewrite andb_true_iff, Nat.eqb_eq, forallb_forall. split.
  - intros [HL HF]. assert (HI : incl a b) by (intros v Hv; apply mem_in; auto).
    assert (HI' : incl b a) by (apply NoDup_length_incl; auto; lia). intros v; split; auto.
  - intros HS. split; [|intros v Hv; apply mem_in, HS; auto].
    assert (L1 := NoDup_incl_length N (fun v => proj1 (HS v))). assert (L2 := NoDup_incl_length N' (fun v => proj2 (HS v))). lia.
Qed.
Theorem C90_constraints : forall c c', real_sets c -> real_sets c' -> (constr_eqb c c' = true <-> same_constr c c').
Proof.
  intros c c' N N'. destruct c, c'; cbn [constr_eqb same_constr real_sets] in *; try (split; [discriminate|contradiction]);
    rewrite ?andb_true_iff, ?Z.eqb_eq, ?String.eqb_eq, ?Qc_eqb_eq, ?set_eqb_iff by (auto; tauto); tauto.
Qed.
(** The sets of every constraint object are sets. *)
Theorem C90_sets : 
  (forall vs n l s c, mk_nhot vs n l s = Ok c -> real_sets c) /\
  (forall vs l s c, mk_zero_or_one vs l s = Ok c -> real_sets c) /\
  (forall v1 v2 l s c, mk_equality v1 v2 l s = Ok c -> real_sets c) /\
  (forall a c c' r, c_add_variable a c = (c', r) -> real_sets c -> real_sets c') /\
  (forall a c c' r, c_remove_variable a c = (c', r) -> real_sets c -> real_sets c') /\
  (forall b a c c' r, c_eq_add b a c = (c', r) -> real_sets c -> real_sets c') /\
  (forall b a c c' r, c_eq_remove b a c = (c', r) -> real_sets c -> real_sets c').
Proof.
  assert (HT : forall acc l, NoDup acc -> NoDup (to_set acc l)) by (intros acc l N; apply (to_set_spec acc l N)).
  assert (HV : forall a s, check_variables_and_to_set a = Ok s -> NoDup s).
  { intros a s E. destruct a; simpl in E; try discriminate.
    - inversion E; subst. repeat constructor. intros [].
    - destruct l; [discriminate|]. destruct (all_some _); inversion E; subst. apply HT. constructor.
    - destruct l; [discriminate|]. destruct (all_some _); inversion E; subst. apply HT. constructor.
    - inversion E; subst. apply HT. constructor. }
  assert (HO : forall o s, match o with None => Ok [] | Some a => check_variables_and_to_set a end = Ok s -> NoDup s).
  { intros [a|] s E; [eauto|]. inversion E; constructor. }
  assert (HD : forall a b, NoDup a -> NoDup (set_diff a b)) by (intros a b N; apply NoDup_filter; auto).
  split; [|split; [|split; [|split; [|split; [|split]]]]].
  - intros vs n l s c E. unfold mk_nhot in E. destruct l as [l|]; [|discriminate]. destruct (String.eqb l ""); [discriminate|]. destruct s; [|discriminate].
    destruct (match vs with None => _ | _ => _ end) as [st|] eqn:EV; [|discriminate]. apply HO in EV. destruct n as [n|]; [|discriminate]. destruct (n <=? 0)%Z; inversion E; subst. exact EV.
  - intros vs l s c E. unfold mk_zero_or_one in E. destruct l as [l|]; [|discriminate]. destruct (String.eqb l ""); [discriminate|]. destruct s; [|discriminate].
    destruct (match vs with None => _ | _ => _ end) as [st|] eqn:EV; [|discriminate]. apply HO in EV. inversion E; subst. exact EV.
  - intros v1 v2 l s c E. unfold mk_equality in E. destruct l as [l|]; [|discriminate]. destruct (String.eqb l ""); [discriminate|]. destruct s; [|discriminate].
    destruct (match v1 with None => _ | _ => _ end) as [s1|] eqn:E1; [|discriminate]. destruct (match v2 with None => _ | _ => _ end) as [s2|] eqn:E2; [|discriminate].
    apply HO in E1, E2. inversion E; subst. split; auto.
  - intros a c c' r E N. destruct c; cbn [c_add_variable] in E; try (inversion E; subst; exact N);
      destruct (check_variables_and_to_set a); inversion E; subst; try exact N; apply HT; exact N.
  - intros a c c' r E N. destruct c; cbn [c_remove_variable] in E; try (inversion E; subst; exact N);
      (destruct (check_variables_and_to_set a); [destruct (forallb _ _)|]); inversion E; subst; try exact N; apply HD; exact N.
  - intros b a c c' r E N. destruct c; cbn [c_eq_add] in E; try (inversion E; subst; exact N).
    destruct (check_variables_and_to_set a); [|inversion E; subst; exact N]. destruct b; inversion E; subst; destruct N; split; auto; apply HT; auto.
  - intros b a c c' r E N. destruct c; cbn [c_eq_remove] in E; try (inversion E; subst; exact N).
    destruct (check_variables_and_to_set a); [|inversion E; subst; exact N]. destruct (forallb _ _); [|inversion E; subst; exact N].
    destruct b; inversion E; subst; destruct N; split; auto; apply HD; auto.
Qed.
Lemma same_set_hot x a b : NoDup a -> NoDup b -> same_set a b -> hot x a = hot x b.
Proof. intros N N' HS. apply hot_perm. apply NoDup_Permutation; auto. Qed.
(** Equal constraints penalise every assignment alike. *)
Theorem C90_penalty : forall c c' x, real_sets c -> real_sets c' -> constr_eqb c c' = true -> penalty x c = penalty x c'.
Proof.
  intros c c' x N N' E. apply C90_constraints in E; auto. destruct c, c'; cbn [same_constr real_sets penalty] in *; try contradiction.
  - destruct E as (E & -> & _ & ->). rewrite (same_set_hot x _ _ N N' E). reflexivity.
  - destruct E as (E & _ & ->). rewrite (same_set_hot x _ _ N N' E). reflexivity.
  - destruct E as (E1 & E2 & _ & ->), N as [N1 N2], N' as [N1' N2']. rewrite (same_set_hot x _ _ N1 N1' E1), (same_set_hot x _ _ N2 N2' E2). reflexivity.
Qed.

(** ** Logical models *)
Definition sets_in (m : lmodel) : Prop := forall l c, dget l (m_constrs m) = Some c -> real_sets c.
Theorem C90_models : forall m o, proper m -> proper o -> sets_in m -> sets_in o ->
  (model_eqb m (Some o) = true <-> same_content m o).
Proof.
  intros m o (N1 & N2 & N3 & N4 & N5 & N6) (O1 & O2 & O3 & O4 & O5 & O6) SM SO. unfold model_eqb.
  assert (HM : mtype_eqb (m_mtype m) (m_mtype o) = true <-> m_mtype m = m_mtype o) by (destruct (m_mtype m), (m_mtype o); simpl; split; congruence).
  rewrite !andb_true_iff, HM, Nat.eqb_eq.
  rewrite (dict_eqb_by_iff _ eq (m_vars m) (m_vars o)) by (auto; intros; apply decb_iff; auto).
  rewrite (dict_eqb_by_iff _ eq (m_cols m) (m_cols o)) by (auto; intros; apply decb_iff; auto).
  rewrite (dict_eqb_by_iff _ same_constr (m_constrs m) (m_constrs o)) by (auto; intros; apply C90_constraints; eauto).
  rewrite (dict_eqb_by_iff _ eq (m_deleted m) (m_deleted o)) by (auto; intros; apply Bool.eqb_true_iff).
  rewrite (dict_eqb_by_iff _ eq (m_fixed m) (m_fixed o)) by (auto; intros; apply Bool.eqb_true_iff).
  rewrite !decb_iff by auto. split.
  - intros HX. decompose [and] HX. constructor; auto.
  - intros [A B C D E F G H I J]. tauto.
Qed.
Theorem C90_other_object : forall m, model_eqb m None = false /\ model_neb m None = true.
Proof. intros m. split; reflexivity. Qed.
Theorem C90_not_equal : forall m o, model_neb m o = negb (model_eqb m o).
Proof. reflexivity. Qed.
(** The dictionaries of every model that can be built have distinct keys. *)
Theorem C90_reachable : forall m, reachable m -> proper m.
Proof. intros m H. apply reachable_regular in H. apply H. Qed.

Lemma same_set_refl a : same_set a a. Proof. intros v; tauto. Qed.
Lemma same_set_sym a b : same_set a b -> same_set b a. Proof. intros H v; rewrite (H v); tauto. Qed.
Lemma same_set_trans a b c : same_set a b -> same_set b c -> same_set a c. Proof. intros H1 H2 v; rewrite (H1 v); auto. Qed.
Lemma same_constr_refl c : same_constr c c.
Proof. destruct c; simpl; auto using same_set_refl. Qed.
Lemma same_constr_sym c c' : same_constr c c' -> same_constr c' c.
Proof. destruct c, c'; simpl; try tauto; intuition auto using same_set_sym. Qed.
Lemma same_constr_trans a b c : same_constr a b -> same_constr b c -> same_constr a c.
Proof. destruct a, b, c; simpl; try tauto; intuition (eauto using same_set_trans; congruence). Qed.
Lemma content_refl m : same_content m m.
Proof. constructor; auto; apply match_refl; auto using same_constr_refl. Qed.
Lemma content_sym m o : same_content m o -> same_content o m.
Proof. intros []. constructor; auto; (eapply match_sym; [|eassumption]); auto; intros; apply same_constr_sym; auto. Qed.
Lemma content_trans a b c : same_content a b -> same_content b c -> same_content a c.
Proof.
  intros [] []. constructor; try congruence; (eapply match_trans; [|eassumption|eassumption]); try congruence. intros ? ? ?; apply same_constr_trans.
Qed.
Theorem C90_equivalence : forall a b c, proper a -> proper b -> proper c -> sets_in a -> sets_in b -> sets_in c ->
  model_eqb a (Some a) = true /\
  (model_eqb a (Some b) = true -> model_eqb b (Some a) = true) /\
  (model_eqb a (Some b) = true -> model_eqb b (Some c) = true -> model_eqb a (Some c) = true).
Proof.
  intros a b c PA PB PC SA SB SC. rewrite !C90_models by auto. split; [apply content_refl|]. split; [apply content_sym|apply content_trans].
Qed.

(** The same model declared and filled in a different order is not the same
    state, but is equal; one more variable of a constraint makes it unequal. *)
Definition eq_ops (swap : bool) : LM unit :=
  (if swap then variables (VName "y") (ShTuple [ShInt 2]) ;;; variables (VName "x") (ShTuple [ShInt 3])
   else variables (VName "x") (ShTuple [ShInt 3]) ;;; variables (VName "y") (ShTuple [ShInt 2])) ;;;
  add_interaction env0 (TVar (bin "x" 0)) (NStr "h") (AC (CNum (qz 5))) (AC (CNum 1%Qc)) (AtDict [("k"%string, ANum (qz 3))]) TsNone ;;;
  add_interaction env0 (TTuple [EVar (bin "y" 1); EVar (bin "x" 2)]) (NStr "J") (AC (CNum (qz (-2)))) (AC (CNum 1%Qc)) AtNone TsNone ;;;
  (if swap then add_constraint (Some (Equality [bin "x" 1] [bin "y" 0] "same" (qz 4))) ;;;
                add_constraint (Some (NHot [bin "x" 2; bin "x" 0] 1 "one" (qz 10)))
   else add_constraint (Some (NHot [bin "x" 0; bin "x" 2] 1 "one" (qz 10))) ;;;
        add_constraint (Some (Equality [bin "x" 1] [bin "y" 0] "same" (qz 4)))).
Definition eq_a : lmodel := fst (eq_ops false (new_model Qubo)).
Definition eq_b : lmodel := fst (eq_ops true (new_model Qubo)).
Definition eq_c : lmodel := fst (add_constraint (Some (NHot [bin "x" 0; bin "x" 2; bin "y" 0] 1 "one" (qz 10))) eq_b).
Lemma sets_check m : forallb (fun c => match c with NHot vs _ _ _ | ZeroOrOne vs _ _ => nodupb vs | Equality a b _ _ => nodupb a && nodupb b end) (dvals (m_constrs m)) = true -> sets_in m.
Proof.
  intros H l c E. rewrite forallb_forall in H. apply dget_in in E. apply (in_map snd) in E. specialize (H _ E). cbn [snd] in H.
  destruct c; cbn [real_sets]; try (apply nodupb_ok; exact H). apply andb_true_iff in H. destruct H. split; apply nodupb_ok; auto.
Qed.
Example C90_hyps : snd (eq_ops false (new_model Qubo)) = Ok tt /\ snd (eq_ops true (new_model Qubo)) = Ok tt /\
  proper eq_a /\ proper eq_b /\ proper eq_c /\ sets_in eq_a /\ sets_in eq_b /\ sets_in eq_c /\
  model_eqb eq_a (Some eq_b) = true /\ model_eqb eq_a (Some eq_c) = false /\
  dkeys (m_vars eq_a) <> dkeys (m_vars eq_b) /\ length (m_rows eq_a) = 2 /\ length (m_constrs eq_a) = 2.
Proof.
  assert (HP : forall m, (nodupb (dkeys (m_vars m)) && nodupb (dkeys (m_deleted m)) && nodupb (dkeys (m_fixed m)) && nodupb (dkeys (m_constrs m)) && nodupb (dkeys (m_cols m)) && nodupb (m_attrs m))%bool = true -> proper m).
  { intros m H. rewrite !andb_true_iff in H. destruct H as (((((A & B) & C) & D) & E) & F).
    split; [|split; [|split; [|split; [|split]]]]; apply nodupb_ok; auto. }
  split; [vm_compute; reflexivity|]. split; [vm_compute; reflexivity|].
  split; [apply HP; vm_compute; reflexivity|]. split; [apply HP; vm_compute; reflexivity|]. split; [apply HP; vm_compute; reflexivity|].
  split; [apply sets_check; vm_compute; reflexivity|]. split; [apply sets_check; vm_compute; reflexivity|]. split; [apply sets_check; vm_compute; reflexivity|].
  split; [vm_compute; reflexivity|]. split; [vm_compute; reflexivity|]. split; [vm_compute; discriminate|]. split; vm_compute; reflexivity.
Qed.
Print Assumptions C90_constraints.
Print Assumptions C90_sets.
Print Assumptions C90_penalty.
Print Assumptions C90_models.
Print Assumptions C90_other_object.
Print Assumptions C90_not_equal.
Print Assumptions C90_reachable.
Print Assumptions C90_equivalence.
