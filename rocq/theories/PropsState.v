(** * PropsState: C30, C33-C36 - constraints table, variables, sizes, attributes. *)
From Verif Require Import PyBase PyLemmas Constraint LogicalModel Spec LogicalProofs EnergyProofs ConvertProofs
  ConstraintProofs MergeProofs PhysicalProofs ToPhysicalProofs InteractionProofs Samples PropsPhysical PropsInteractions.
Open Scope list_scope.

(** ** C30 *)

Theorem C30_add_constraint : forall c m, exists m',
  add_constraint (Some c) m = (m', Ok tt) /\
  (forall l, dget l (m_constrs m') = if String.eqb l (c_label c) then Some c else dget l (m_constrs m)) /\
  (m_mtype m', m_vars m', m_offset m', m_deleted m', m_fixed m', m_rows m', m_cols m', m_attrs m', m_len m', m_prev m') =
  (m_mtype m, m_vars m, m_offset m, m_deleted m, m_fixed m, m_rows m, m_cols m, m_attrs m, m_len m, m_prev m).
Proof.
  intros c m. eexists. split; [reflexivity|]. split; [|reflexivity]. intros l. simpl.
  destruct (String.eqb l (c_label c)) eqn:E.
  - apply String.eqb_eq in E; subst. apply dget_dset_same.
  - apply String.eqb_neq in E. apply dget_dset_other; auto.
Qed.
Theorem C30_remove_constraint : forall l m, NoDup (dkeys (m_constrs m)) -> In l (dkeys (m_constrs m)) -> exists m',
  remove_constraint (Some l) m = (m', Ok tt) /\
  (forall k, dget k (m_constrs m') = if String.eqb k l then None else dget k (m_constrs m)) /\
  (m_mtype m', m_vars m', m_offset m', m_deleted m', m_fixed m', m_rows m', m_cols m', m_attrs m', m_len m', m_prev m') =
  (m_mtype m, m_vars m, m_offset m, m_deleted m, m_fixed m, m_rows m, m_cols m, m_attrs m, m_len m, m_prev m).
Proof.
  intros l m ND HI. unfold remove_constraint. apply dmem_in in HI. rewrite HI.
  eexists. split; [reflexivity|]. split; [|reflexivity]. intros k. simpl. destruct (String.eqb k l) eqn:E.
  - apply String.eqb_eq in E; subst. apply ddel_get_same; auto.
  - apply String.eqb_neq in E. apply ddel_get_other; auto.
Qed.
Lemma ddel_app_new {K V} `{Eqb K} (k : K) (v : V) d : ~ In k (dkeys d) -> ddel k (d ++ [(k, v)]) = d.
Proof.
  induction d as [|[k' v'] d IH]; simpl; intros N.
  - rewrite eqb_refl. reflexivity.
  - destruct (eqb k k') eqn:E; [apply eqb_eq in E; subst; exfalso; auto|]. rewrite IH; auto.
Qed.
(** Adding under a new label and removing it again gives the model back. *)
Theorem C30_add_remove : forall c m, ~ In (c_label c) (dkeys (m_constrs m)) ->
  (add_constraint (Some c) ;;; remove_constraint (Some (c_label c))) m = (m, Ok tt).
Proof.
  intros c m N. cbv [bind add_constraint modify]. unfold remove_constraint. simpl.
  assert (HI : dmem (c_label c) (dset (c_label c) c (m_constrs m)) = true) by (apply dmem_in, dset_in_iff; auto).
  rewrite HI, dset_keys_new, ddel_app_new by auto. destruct m; reflexivity.
Qed.
Theorem C30_unknown : forall l m, ~ In l (dkeys (m_constrs m)) -> remove_constraint (Some l) m = (m, Err KeyError).
Proof. intros l m N. unfold remove_constraint. apply dmem_nin in N. rewrite N. reflexivity. Qed.
Theorem C30_bad_type : forall m, add_constraint None m = (m, Err TypeError) /\ remove_constraint None m = (m, Err TypeError).
Proof. intros m; split; reflexivity. Qed.
Example C30_hyps : NoDup (dkeys (m_constrs qubo_model)) /\ In "one"%string (dkeys (m_constrs qubo_model)) /\
  ~ In "other"%string (dkeys (m_constrs qubo_model)).
Proof.
  split; [apply nodupb_ok; reflexivity|]. split; [vm_compute; auto|]. vm_compute. intuition discriminate.
Qed.

(** ** C33 *)

Lemma flat_pos_indices sh : forall idx p, flat_pos sh idx = Some p -> nth_error (indices sh) p = Some idx.
Proof.
  assert (LI : forall sh, length (indices sh) = fold_right Nat.mul 1 sh).
  { clear sh. induction sh as [|n sh IH]; simpl; auto.
    assert (HX : forall a k, length (flat_map (fun i => map (cons i) (indices sh)) (seq a k)) = (k * fold_right Nat.mul 1 sh)%nat).
    { intros a k; revert a. induction k as [|k IHk]; intros a; simpl; auto.
      rewrite app_length, map_length, IHk, IH. reflexivity. }
    apply HX. }
  induction sh as [|n sh IH]; intros [|i idx] p; simpl; try discriminate.
  - intros E; inversion E; reflexivity.
  - destruct (i <? n)%nat eqn:L; [|discriminate]. apply Nat.ltb_lt in L.
    destruct (flat_pos sh idx) as [q|] eqn:E; [|discriminate]. intros E2; inversion E2; subst; clear E2.
    apply IH in E. assert (HQ : q < length (indices sh)) by (apply nth_error_Some; congruence).
    assert (HX : forall a k i, i < k -> nth_error (flat_map (fun i => map (cons i) (indices sh)) (seq a k)) (i * fold_right Nat.mul 1 sh + q) = Some ((a + i) :: idx)).
    { intros a k; revert a. induction k as [|k IHk]; intros a j Lj; [lia|]. simpl.
      destruct j as [|j].
      - rewrite Nat.add_0_r. simpl. rewrite nth_error_app1 by (rewrite map_length; auto). erewrite map_nth_error; eauto.
      - rewrite nth_error_app2 by (rewrite map_length, LI; simpl; lia). rewrite map_length, LI.
        replace (S j * fold_right Nat.mul 1 sh + q - fold_right Nat.mul 1 sh) with (j * fold_right Nat.mul 1 sh + q) by (simpl; lia).
        rewrite IHk by lia. f_equal. f_equal. lia. }
    apply (HX 0 n i L).
Qed.
Lemma flat_pos_some sh : forall idx, Forall2 (fun i n => i < n) idx sh -> exists p, flat_pos sh idx = Some p.
Proof.
  induction sh as [|n sh IH]; intros idx F; inversion F; subst; simpl; [eauto|].
  destruct (IH _ H3) as [p ->]. apply Nat.ltb_lt in H2. rewrite H2. eauto.
Qed.
Lemma in_indices_iff sh : forall idx, In idx (indices sh) <-> Forall2 (fun i n => i < n) idx sh.
Proof.
  induction sh as [|n sh IH]; intros idx; simpl.
  - split; [intros [<-|[]]; constructor|]. intros F; inversion F; auto.
  - rewrite in_flat_map. split.
    + intros (i & HI & HM). apply in_map_iff in HM. destruct HM as (r & <- & HR). apply in_seq in HI.
      constructor; [lia|]. apply IH; auto.
    + intros F; inversion F; subst. exists x. split; [apply in_seq; lia|]. apply in_map. apply IH; auto.
Qed.
(** A multi-index inside a shape, and the variable declared there. *)
Definition inside (idx : list nat) (sh : list Z) : Prop := Forall2 (fun i z => (Z.of_nat i < z)%Z) idx sh.
Definition element (n : string) (vt : vtype) (idx : list nat) : var := mkVar (n +++ brackets idx) vt.
Lemma inside_nat idx sh : inside idx sh <-> Forall2 (fun i n => i < n) idx (map Z.to_nat sh).
Proof.
  split; revert idx; induction sh as [|z sh IH]; intros idx F; inversion F; subst; simpl; constructor; auto; try lia; apply IH; auto.
Qed.
Lemma array_get_create n sh vt a idx : array_create n sh vt = Ok a -> inside idx sh -> array_get a idx = Ok (element n vt idx).
Proof.
  intros E HI. apply array_create_bits in E as E2. destruct E2 as [HB _]. pose proof (array_create_shape _ _ _ _ E) as HS.
  unfold array_get. rewrite HS. apply inside_nat in HI. destruct (flat_pos_some _ _ HI) as [p Ep]. rewrite Ep.
  apply flat_pos_indices in Ep. rewrite HB. erewrite map_nth_error; eauto. reflexivity.
Qed.
Lemma labels_create n sh vt a l : array_create n sh vt = Ok a ->
  (In l (map v_label (a_bits a)) <-> exists idx, inside idx sh /\ l = (n +++ brackets idx)%string).
Proof.
  intros E. apply array_create_bits in E. destruct E as [HB _]. rewrite HB, map_map. simpl. rewrite in_map_iff. split.
  - intros (idx & <- & HI). exists idx. split; auto. apply inside_nat. apply in_indices_iff; auto.
  - intros (idx & HI & ->). exists idx. split; auto. apply in_indices_iff, inside_nat; auto.
Qed.
Definition nonneg_of (d : list Z) : Prop := Forall (fun z => (0 <= z)%Z) d.
(** append with as many non-negative entries as the array has dimensions: the
    array has the summed shape, every old element is still there at its index,
    and nothing else changes. *)
Theorem C33_append : forall n d m a vt,
  dget n (m_vars m) = Some a -> array_create n (a_shape a) vt = Ok a ->
  length d = length (a_shape a) -> nonneg_of d ->
  exists a', append (VName n) (ShTuple (map ShInt d)) m = (with_vars (dset n a' (m_vars m)) m, Ok tt) /\
    a_shape a' = map (fun p => (fst p + snd p)%Z) (combine (a_shape a) d) /\
    (forall idx, inside idx (a_shape a) -> array_get a idx = Ok (element n vt idx) /\
                                           array_get a' idx = Ok (element n (kind_of (m_mtype m)) idx)) /\
    (forall l, In l (map v_label (a_bits a)) -> In l (map v_label (a_bits a'))) /\
    (forall k, k <> n -> dget k (dset n a' (m_vars m)) = dget k (m_vars m)).
Proof.
  intros n d m a vt HG HC HL HD.
  assert (HP : a_shape a <> [] /\ Forall (fun z => (0 < z)%Z) (a_shape a)) by (apply array_create_bits in HC; tauto).
  destruct HP as [HN HP].
  assert (HS : has_char "*"%char n = false).
  { unfold array_create in HC. destruct (has_char "*"%char n); [discriminate|auto]. }
  assert (HE : Forall (fun z => (0 < z)%Z) (elementwise_add (a_shape a) d) /\ elementwise_add (a_shape a) d <> []).
  { split.
    - clear - HP HD HL. revert d HL HD. induction HP; intros [|y d]; simpl; intros HL HD; try discriminate; constructor; inversion HD; subst; auto; lia.
    - unfold elementwise_add. destruct (a_shape a), d; simpl in *; congruence. }
  destruct HE as [HE1 HE2].
  destruct (array_create_ok n _ (vt_of (m_mtype m)) HS HE2 HE1) as [a' Ea].
  exists a'. split.
  { unfold append. assert (CS : check_shape true (ShTuple (map ShInt d)) = Ok d).
    { assert (HX : forall l, sh_ints true (map ShInt l) = Some l) by (induction l; simpl; [auto|rewrite IHl; auto]).
      unfold check_shape. rewrite HX. destruct d; simpl; auto. destruct (a_shape a); [congruence|discriminate]. }
    rewrite CS, HG, Ea. reflexivity. }
  pose proof (array_create_shape _ _ _ _ Ea) as HSh. split.
  { rewrite HSh. unfold elementwise_add. clear. revert d. induction (a_shape a) as [|x l IH]; intros [|y d]; cbn; auto. f_equal. apply IH. }
  assert (HIN : forall idx, inside idx (a_shape a) -> inside idx (elementwise_add (a_shape a) d)).
  { clear - HD HL. unfold inside, elementwise_add. revert d HD HL. induction (a_shape a) as [|z l IH]; intros [|y d] HD HL idx F; simpl in *; try discriminate; inversion F; subst; constructor.
    - inversion HD; subst; lia.
    - inversion HD; subst. apply IH; auto. }
  split; [intros idx HI; split; eapply array_get_create; eauto|].
  split; [|intros k Hk; apply dget_dset_other; auto].
  intros l HI. apply (labels_create _ _ _ _ _ HC) in HI. destruct HI as (idx & HI & ->).
  apply (labels_create _ _ _ _ _ Ea). exists idx. split; auto.
Qed.
(** append of an undeclared name declares it. *)
Theorem C33_append_new : forall n d m, dget n (m_vars m) = None -> d <> [] -> Forall (fun z => (0 < z)%Z) d -> has_char "*"%char n = false ->
  exists a, append (VName n) (ShTuple (map ShInt d)) m = (with_vars (dset n a (m_vars m)) m, Ok tt) /\
    array_create n d (kind_of (m_mtype m)) = Ok a /\ a_shape a = d.
Proof.
  intros n d m HG HN HP HS. destruct (array_create_ok n d (vt_of (m_mtype m)) HS HN HP) as [a Ea].
  exists a. split; [|split; [auto|eapply array_create_shape; eauto]].
  assert (HX : forall b l, sh_ints b (map ShInt l) = Some l) by (induction l; simpl; [auto|rewrite IHl; auto]).
  unfold append, check_shape. rewrite HX. destruct d as [|z d]; [congruence|]. rewrite HG. cbn [variables].
  unfold check_shape. rewrite HX. cbn [map]. cbn [map] in *. rewrite Ea. reflexivity.
Qed.
(** The guard on the number of dimensions is needed: a shorter tuple drops
    dimensions, and with them labels. *)
Theorem C33_shorter_tuple_drops : exists m a a', dget "x"%string (m_vars m) = Some a /\
  append (VName "x") (ShTuple [ShInt 1]) m = (with_vars (dset "x"%string a' (m_vars m)) m, Ok tt) /\
  In "x[0][0]"%string (map v_label (a_bits a)) /\ ~ In "x[0][0]"%string (map v_label (a_bits a')).
Proof.
  exists (fst (variables (VName "x") (ShTuple [ShInt 2; ShInt 2]) (new_model Ising))).
  do 2 eexists. split; [reflexivity|]. split; [reflexivity|]. split; [vm_compute; auto|]. vm_compute. intuition discriminate.
Qed.
Example C33_hyps : exists a, dget "q"%string (m_vars qubo_model) = Some a /\ array_create "q" (a_shape a) Binary = Ok a /\
  length [3%Z] = length (a_shape a) /\ nonneg_of [3%Z].
Proof. eexists. split; [reflexivity|]. split; [reflexivity|]. split; [reflexivity|]. repeat constructor. lia. Qed.

(** ** C34 *)

Lemma prod_shape sh : Forall (fun z => (0 < z)%Z) sh -> forall acc, (0 <= acc)%Z ->
  fold_left Z.mul sh acc = (acc * Z.of_nat (length (indices (map Z.to_nat sh))))%Z.
Proof.
  assert (LI : forall sh, length (indices sh) = fold_right Nat.mul 1 sh).
  { clear sh. induction sh as [|n sh IH]; simpl; auto.
    assert (HX : forall a k, length (flat_map (fun i => map (cons i) (indices sh)) (seq a k)) = (k * fold_right Nat.mul 1 sh)%nat).
    { intros a k; revert a. induction k as [|k IHk]; intros a; simpl; auto.
      rewrite app_length, map_length, IHk, IH. reflexivity. }
    apply HX. }
  intros F. rewrite LI. induction F as [|z sh Hz F IH]; intros acc HA; simpl; [lia|].
  rewrite IH by nia. rewrite Nat2Z.inj_mul, Z2Nat.id by lia. ring.
Qed.
Lemma all_size_labels m : declared_by_name (m_vars m) -> get_all_size m = Z.of_nat (length (all_labels (m_vars m))).
Proof.
  intros [_ HD]. unfold get_all_size, all_labels.
  assert (HX : forall l acc, (forall n a, In (n, a) l -> exists sh vt, array_create n sh vt = Ok a) ->
    fold_left (fun acc kv => (acc + fold_left Z.mul (a_shape (snd kv)) 1)%Z) l acc =
    (acc + Z.of_nat (length (flat_map (fun kv : string * array => map v_label (a_bits (snd kv))) l)))%Z).
  { induction l as [|[n a] l IH]; intros acc H; simpl; [lia|].
    rewrite IH by (intros n0 a0 HI; apply (H n0 a0); right; auto). rewrite app_length, map_length.
    destruct (H n a (or_introl eq_refl)) as (sh & vt & E). apply array_create_bits in E as E2. destruct E2 as (HB & _ & HP).
    rewrite (array_create_shape _ _ _ _ E), HB, map_length, prod_shape by (auto; lia). lia. }
  rewrite HX; [reflexivity|]. intros n a HI. destruct (HD n a HI) as [_ H]. exact H.
Qed.
(** The number of declared variables. *)
Theorem C34_all_size : forall m, declared_by_name (m_vars m) ->
  NoDup (all_labels (m_vars m)) /\ get_all_size m = Z.of_nat (length (all_labels (m_vars m))).
Proof. intros m H. split; [apply all_labels_nodup; auto|apply all_size_labels; auto]. Qed.
Lemma filter_out_length (l d : list string) : NoDup l -> NoDup d -> incl d l ->
  length (filter (fun x => negb (mem x d)) l) + length d = length l.
Proof.
  revert d. induction l as [|x l IH]; intros d N1 N2 HI.
  - destruct d as [|y d]; [reflexivity|]. destruct (HI y (or_introl eq_refl)).
  - inversion N1 as [|? ? HX N1']; subst. simpl. destruct (mem x d) eqn:E; simpl.
    + apply mem_in in E. apply in_split in E. destruct E as (d1 & d2 & ->).
      assert (NX : NoDup (d1 ++ d2) /\ ~ In x (d1 ++ d2)) by (apply NoDup_remove in N2; auto). destruct NX as [N3 N4].
      specialize (IH (d1 ++ d2) N1' N3). 
      assert (HI' : incl (d1 ++ d2) l).
      { intros y Hy. destruct (HI y) as [->|]; auto; [|contradiction]. apply in_app_iff in Hy. apply in_app_iff. simpl. tauto. }
      specialize (IH HI'). rewrite app_length in *. simpl.
      rewrite (filter_ext_in _ (fun y => negb (mem y (d1 ++ d2)))); [lia|].
      intros y Hy. f_equal. destruct (mem y (d1 ++ x :: d2)) eqn:E1, (mem y (d1 ++ d2)) eqn:E2; auto.
      * apply mem_in in E1. apply mem_nin in E2. apply in_app_iff in E1. simpl in E1. rewrite in_app_iff in E2.
        destruct E1 as [?|[->|?]]; try tauto. 
      * apply mem_nin in E1. apply mem_in in E2. exfalso. apply E1. apply in_app_iff in E2. apply in_app_iff. simpl. tauto.
    + apply mem_nin in E. rewrite <- (IH d); auto. intros y Hy. destruct (HI y Hy) as [->|]; auto. contradiction.
Qed.
(** The number of variables that are neither deleted nor fixed. *)
Theorem C34_size : forall m, declared_by_name (m_vars m) ->
  NoDup (dkeys (m_deleted m)) -> NoDup (dkeys (m_fixed m)) ->
  incl (dkeys (m_deleted m)) (all_labels (m_vars m)) -> incl (dkeys (m_fixed m)) (all_labels (m_vars m)) ->
  (forall l, In l (dkeys (m_deleted m)) -> ~ In l (dkeys (m_fixed m))) ->
  exists live, NoDup live /\
    (forall l, In l live <-> In l (all_labels (m_vars m)) /\ ~ In l (dkeys (m_deleted m)) /\ ~ In l (dkeys (m_fixed m))) /\
    get_size m = Z.of_nat (length live).
Proof.
  intros m HD N1 N2 I1 I2 DJ. destruct (C34_all_size m HD) as [NL ES].
  set (d := dkeys (m_deleted m) ++ dkeys (m_fixed m)).
  assert (ND : NoDup d) by (apply NoDup_app_iff; auto).
  assert (ID : incl d (all_labels (m_vars m))) by (apply incl_app; auto).
  exists (filter (fun x => negb (mem x d)) (all_labels (m_vars m))).
  split; [apply NoDup_filter; auto|]. split.
  - intros l. rewrite filter_In, negb_true_iff, mem_nin. unfold d. rewrite in_app_iff. tauto.
  - pose proof (filter_out_length _ _ NL ND ID) as HL. unfold get_size. rewrite ES. unfold get_deleted_size, get_fixed_size.
    unfold d at 2 in HL. rewrite app_length in HL. unfold dkeys in HL. rewrite !map_length in HL. lia.
Qed.
(** A variable that is both deleted and fixed is subtracted twice. *)
Theorem C34_deleted_and_fixed_counts_twice : exists m, 
  (delete_variable (TVar (spn "x" 0)) ;;; fix_variable env0 (TVar (spn "x" 0)) 1%Qc)%py ising_model = (m, Ok tt) /\
  length (filter (fun l => negb (dmem l (m_deleted m)) && negb (dmem l (m_fixed m))) (all_labels (m_vars m))) = 2 /\ get_size m = 1%Z.
Proof. eexists. split; [apply okb_ok; reflexivity|]. split; reflexivity. Qed.
Example C34_hyps : exists m, 
  (delete_variable (TVar (spn "x" 0)) ;;; fix_variable env0 (TVar (spn "x" 1)) 1%Qc)%py ising_model = (m, Ok tt) /\
  declared_by_name (m_vars m) /\ NoDup (dkeys (m_deleted m)) /\ NoDup (dkeys (m_fixed m)) /\
  incl (dkeys (m_deleted m)) (all_labels (m_vars m)) /\ incl (dkeys (m_fixed m)) (all_labels (m_vars m)) /\
  (forall l, In l (dkeys (m_deleted m)) -> ~ In l (dkeys (m_fixed m))) /\ get_size m = 1%Z.
Proof.
  eexists. split; [apply okb_ok; reflexivity|]. split.
  { assert (HV : forall m, m_vars m = m_vars ising_model -> declared_by_name (m_vars m)).
    { intros m ->. split; [apply nodupb_ok; reflexivity|]. intros n a HI. simpl in HI.
      destruct HI as [HI|[]]. inversion HI; subst. split; [reflexivity|]. exists [3%Z], Spin. reflexivity. }
    apply HV. vm_compute. reflexivity. }
  split; [apply nodupb_ok; reflexivity|]. split; [apply nodupb_ok; reflexivity|].
  do 2 (split; [intros l HI; vm_compute in HI; destruct HI as [<-|[]]; vm_compute; auto|]).
  split; [intros l HI; vm_compute in HI; destruct HI as [<-|[]]; vm_compute; intuition discriminate|]. reflexivity.
Qed.

(** ** C35 *)

(** What a user reads: get_attribute by name. *)
Definition reads (m : lmodel) (nm k : string) (v : aval) : Prop :=
  get_attribute TNone (NStr nm) (Some ("attributes." +++ k)%string) m = (m, Ok v).

Lemma reads_iff m nm k v : aligned m ->
  (reads m nm k v <-> nm <> ""%string /\ In nm (names m) /\ In (attr_key k) (m_attrs m) /\ attr_of m nm (attr_key k) = v).
Proof.
  intros HA. unfold reads, get_attribute. split.
  - intros E. apply bind_ok in E. destruct E as (m1 & d & E1 & E2).
    assert (HI : exists nm', internal_name TNone (NStr nm) m = (m, Ok nm')).
    { unfold get_attributes in E1. apply bind_ok in E1. destruct E1 as (m2 & nm' & E3 & _).
      pose proof (internal_name_state _ _ _ _ _ E3). subst. eauto. }
    destruct HI as [nm' HI]. pose proof HI as HI2. apply internal_name_spec in HI2. destruct HI2 as [HR HIn].
    destruct HR as [[_ [i HD]]|(_ & HE & HN)]; [inversion HD|]. inversion HE; subst nm'.
    destruct (has_name_split m nm) as (l1&x&l2&ER&EN&HNI); [apply mem_in; auto|].
    rewrite (get_attributes_eq _ _ _ _ _ _ _ HA HI ER EN HNI) in E1. inversion E1; subst; clear E1.
    rewrite dget_map_id in E2. fold (attr_key k) in E2. destruct (mem (attr_key k) (m_attrs m1)) eqn:EM; [|discriminate]. apply mem_in in EM.
    do 3 (split; [auto|]). unfold attr_of. unfold names. rewrite ER, map_app. simpl.
    rewrite index_of_mid, map_length by auto. inversion E2; reflexivity.
  - intros (HN & HI & HK & HV).
    assert (HE : internal_name TNone (NStr nm) m = (m, Ok nm)) by (apply internal_name_spec; split; [right; auto|auto]).
    destruct (has_name_split m nm) as (l1&x&l2&ER&EN&HNI); [apply mem_in; auto|].
    unfold bind. rewrite (get_attributes_eq _ _ _ _ _ _ _ HA HE ER EN HNI), dget_map_id. fold (attr_key k).
    apply mem_in in HK. rewrite HK. unfold ret. unfold attr_of, names in HV. subst nm. rewrite ER, map_app in HV. simpl in HV.
    rewrite index_of_mid, map_length in HV by auto. congruence.
Qed.

Lemma set_new_attr_keys kv m m' u : set_new_attr kv m = (m', Ok u) ->
  In (attr_key (fst kv)) (dkeys (m_cols m')) /\ incl (dkeys (m_cols m)) (dkeys (m_cols m')).
Proof.
  unfold set_new_attr. set (k := attr_key (fst kv)). destruct (dmem k (m_cols m)) eqn:E.
  - destruct (dget k (m_cols m)) as [c|]; [|discriminate]. destruct (set_last (snd kv) c); [|discriminate].
    intros H; inversion H; subst; simpl. split; [apply dset_in_iff; auto|]. intros x Hx; apply dset_in_iff; auto.
  - simpl. rewrite dget_dset_same. destruct (set_last _ _); [|discriminate].
    intros H; inversion H; subst; simpl. split; [apply dset_in_iff; auto|]. intros x Hx; apply dset_in_iff; right; apply dset_in_iff; auto.
Qed.
Lemma set_new_attrs_keys d : forall m m' u, mfor d set_new_attr m = (m', Ok u) ->
  (forall k, In k (dkeys d) -> In (attr_key k) (dkeys (m_cols m'))) /\ incl (dkeys (m_cols m)) (dkeys (m_cols m')).
Proof.
  induction d as [|kv d IH]; intros m m' u E; simpl in E.
  - unfold ret in E; inversion E; subst. split; [intros k []|apply incl_refl].
  - apply bind_ok in E. destruct E as (m1 & u1 & E1 & E2). apply set_new_attr_keys in E1. destruct E1 as [A B].
    apply IH in E2. destruct E2 as [C D]. split.
    + intros k [<-|Hk]; auto.
    + eapply incl_tran; eauto.
Qed.
Lemma add_registers ev t n co sc a ts m m' : aligned m -> attrs_wf a -> add_interaction ev t n co sc a ts m = (m', Ok tt) ->
  incl (m_attrs m) (m_attrs m') /\ (forall d k, a = AtDict d -> In k (dkeys d) -> In (attr_key k) (m_attrs m')).
Proof.
  intros HA HW E. destruct (C03_effect _ _ _ _ _ _ _ _ _ HA HW E) as (c&s&i&dn&nm&_&_&_&_&_&_&_&HA'&_).
  destruct (add_split ev t n co sc a ts m) as [(e' & E' & HX)|(c'&s'&q&inf&nm'&d&[A1 A2 A3 A4 A5 A6 A7 A8]&E')]; [congruence|].
  rewrite E' in E. unfold add_body in E.
  apply bind_ok in E. destruct E as (m1 & [] & E1 & E). unfold modify in E1. inversion E1; subst m1; clear E1.
  apply bind_ok in E. destruct E as (m2 & [] & E2 & E).
  apply bind_ok in E. destruct E as (m3 & [] & E3 & E). unfold modify in E. inversion E; subst m'; clear E.
  destruct HA as (HL & HK & ND & HF). 
  rewrite expand_attrs_aligned in E2 by auto. inversion E2; subst m2; clear E2.
  apply set_new_attrs_keys in E3. destruct E3 as [K1 K2].
  destruct HA' as (_ & HK' & _). simpl in HK'. simpl m_attrs. rewrite <- HK'.
  simpl in K2. assert (HE : dkeys (map expand1 (m_cols m)) = dkeys (m_cols m)).
  { unfold dkeys. rewrite map_map. apply map_ext. intros []; reflexivity. }
  rewrite HE, HK in K2. split; [exact K2|].
  intros d0 k -> Hk. simpl in A7. inversion A7; subst. apply K1; auto.
Qed.
Lemma attr_of_mid m l1 x l2 k : m_rows m = l1 ++ x :: l2 -> ~ In (r_name x) (map r_name l1) -> attr_of m (r_name x) k = attr_val m (length l1) k.
Proof. intros ER HN. unfold attr_of, names. rewrite ER, map_app. simpl. rewrite index_of_mid by auto. rewrite map_length. reflexivity. Qed.

(** An attribute passed to add_interaction is what is read; the new
    interaction's other attributes read NaN; other interactions read as before. *)
Theorem C35_add : forall ev t n co sc d ts m m', aligned m -> attrs_wf (AtDict d) ->
  add_interaction ev t n co sc (AtDict d) ts m = (m', Ok tt) ->
  exists i dn nm, denotes t i dn /\ stored_name n dn nm /\ (nm <> ""%string ->
    (forall k v, In (k, v) d -> reads m' nm k v) /\
    (forall nm2 k v, reads m nm2 k v -> ~ In k (dkeys d) -> reads m' nm k ANan)) /\
    (forall nm2 k v, reads m nm2 k v -> reads m' nm2 k v).
Proof.
  intros ev t n co sc d ts m m' HA HW E.
  destruct (add_registers _ _ _ _ _ _ _ _ _ HA HW E) as [RG1 RG2].
  destruct (C03_effect _ _ _ _ _ _ _ _ _ HA HW E) as (c&s&i&dn&nm&_&_&HD&HS&HF&ER&_&HA'&V1&V2).
  exists i, dn, nm. split; [auto|]. split; [auto|].
  assert (AN : forall k, attr_of m' nm k = match given (AtDict d) k with Some v => v | None => ANan end).
  { intros k. rewrite <- V2. set (r := mkRow nm (inter_key i) i c s (Some (ts_given ev ts)) true false) in *.
    change nm with (r_name r). apply (attr_of_mid m' (m_rows m) r []); auto. }
  assert (HIn : In nm (names m')) by (unfold names; rewrite ER, map_app, in_app_iff; simpl; auto).
  assert (ND : NoDup (dkeys d)) by (apply HW; auto).
  assert (GV : forall k v, In (k, v) d -> given (AtDict d) (attr_key k) = Some v).
  { intros k v HI. pose proof (given_attr (AtDict d) d (attr_key k) eq_refl ND) as HG.
    destruct (given (AtDict d) (attr_key k)) as [w|].
    - destruct HG as (k' & EK & HG). apply attr_key_inj in EK. subst k'. rewrite (in_dget _ _ _ ND HI) in HG. congruence.
    - exfalso. apply (HG k); auto. apply in_map_iff. exists (k, v); auto. }
  split.
  - intros HNE. split.
    + intros k v HI. apply reads_iff; auto. do 2 (split; [auto|]). split.
      * eapply RG2; eauto. apply in_map_iff. exists (k, v); auto.
      * rewrite AN, (GV k v); auto.
    + intros nm2 k v HR HNK. apply reads_iff in HR; auto. destruct HR as (_ & _ & HK & _).
      apply reads_iff; auto. do 2 (split; [auto|]). split; [auto|]. rewrite AN.
      pose proof (given_attr (AtDict d) d (attr_key k) eq_refl ND) as HG.
      destruct (given (AtDict d) (attr_key k)) as [w|]; auto. destruct HG as (k' & EK & HG). apply attr_key_inj in EK. subst k'.
      exfalso. apply HNK. apply dget_some_in. eauto.
  - intros nm2 k v HR. apply reads_iff in HR; auto. destruct HR as (HNE & HI2 & HK & HV).
    apply reads_iff; auto. split; [auto|]. split; [unfold names; rewrite ER, map_app, in_app_iff; auto|]. split; [auto|].
    rewrite <- HV. destruct (has_name_split m nm2) as (l1&x&l2&E1&E2&E3); [apply mem_in; auto|]. subst nm2.
    rewrite (attr_of_mid m l1 x l2) by auto. rewrite E1 in ER. rewrite <- app_assoc in ER. simpl in ER.
    rewrite (attr_of_mid m' l1 x _ _ ER) by auto. apply V1. rewrite E1, app_length. simpl. lia.
Qed.
(** A known attribute passed to update_interaction is what is read; everything
    else reads as before. *)
Theorem C35_update : forall ev t n co sc a ts m m' nm, aligned m -> attrs_wf a ->
  refers t n nm -> In nm (names m) -> nm <> ""%string ->
  (forall d k, a = AtDict d -> In k (dkeys d) -> In ("attributes." +++ k)%string (m_attrs m)) ->
  update_interaction ev t n co sc a ts m = (m', Ok tt) ->
  aligned m' /\
  (forall d k v, a = AtDict d -> In (k, v) d -> reads m' nm k v) /\
  (forall nm2 k v, reads m nm2 k v -> (nm2 <> nm \/ forall d, a = AtDict d -> ~ In k (dkeys d)) -> reads m' nm2 k v).
Proof.
  intros ev t n co sc a ts m m' nm HA HW HRef HIn HNE HKn E.
  destruct (C04_update _ _ _ _ _ _ _ _ _ _ HA HW HRef HIn E) as (l1&x&x'&l2&R1&R2&R3&R4&R5&R6&R7&R8&V1&V2).
  assert (HA' : aligned m').
  { pose proof (proj2 (internal_name_spec t n m nm) (conj HRef HIn)) as EIN.
    destruct (update_split ev t n co sc a ts m) as [(e' & E')|(c&s&d&q&U&[(nm'&l1'&y&l2'&EI&ER&HX&HN&HR&E')|(NT&(inf&EI&HH)&E')])].
    - congruence.
    - rewrite EIN in EI. inversion EI; subst nm'. pose proof U as [U1 U2 U3 U4].
      assert (NDD : forall d0, d = Some d0 -> NoDup (dkeys d0)).
      { intros d0 ->. destruct a; simpl in U3; inversion U3; subst. apply HW; auto. }
      destruct (update_at_rect m l1' y l2' c s d q (aligned_rect _ HA) ER) as (z & Ez & R & C & L & A & W1 & W2 & W3 & W4); [congruence|auto|].
      rewrite E', Ez in E. inversion E; subst z. destruct R as (RL & RN & RF). destruct HA as (HL & HK & ND & HF).
      assert (HKs : dkeys (m_cols m') = m_attrs m').
      { rewrite W4, A; auto. intros k Hk. rewrite HK. unfold attr_key.
        destruct a; simpl in U3; inversion U3; subst; try destruct Hk. eapply HKn; eauto. }
      split; [auto|]. split; [auto|]. split; [rewrite A; auto|auto].
    - exfalso. unfold has_name in HH. apply mem_nin in HH. apply HH.
      destruct HRef as [[_ [i HD]]|(-> & -> & _)]; [|simpl in EI; discriminate].
      apply denotes_info in HD. rewrite EI in HD. inversion HD; subst; auto. }
  split; [auto|].
  assert (HNm : r_name x' = r_name x) by (destruct R6; auto).
  assert (HNS : names m' = names m) by (unfold names; rewrite R1, R5, !map_app; simpl; congruence).
  assert (ANm : forall k, attr_of m' nm k = attr_val m' (length l1) k).
  { intros k. subst nm. rewrite <- HNm. apply (attr_of_mid m' l1 x' l2); auto. congruence. }
  assert (ANo : forall k, attr_of m nm k = attr_val m (length l1) k).
  { intros k. subst nm. apply (attr_of_mid m l1 x l2); auto. }
  split.
  - intros d k v -> HI. assert (ND : NoDup (dkeys d)) by (apply HW; auto). apply reads_iff; auto.
    split; [auto|]. split; [congruence|].
    assert (HKd : In k (dkeys d)) by (apply in_map_iff; exists (k, v); auto).
    split; [rewrite R8; eapply HKn; eauto|]. rewrite ANm, V2.
    pose proof (given_attr (AtDict d) d (attr_key k) eq_refl ND) as HG.
    destruct (given (AtDict d) (attr_key k)) as [w|].
    + destruct HG as (k' & EK & HG). apply attr_key_inj in EK. subst k'. rewrite (in_dget _ _ _ ND HI) in HG. congruence.
    + exfalso. apply (HG k); auto.
  - intros nm2 k v HR HC. apply reads_iff in HR; auto. destruct HR as (N2 & I2 & K2 & W2). apply reads_iff; auto.
    split; [auto|]. split; [congruence|]. split; [congruence|]. rewrite <- W2.
    destruct (String.eqb nm2 nm) eqn:EQ.
    + apply String.eqb_eq in EQ. subst nm2. rewrite ANm, ANo, V2. destruct HC as [HC|HC]; [congruence|].
      destruct a as [|d|]; simpl; auto. assert (ND : NoDup (dkeys d)) by (apply HW; auto).
      pose proof (given_attr (AtDict d) d (attr_key k) eq_refl ND) as HG. simpl in HG.
      destruct (find _ d) as [w|]; auto. destruct HG as (k' & EK & HG). apply attr_key_inj in EK. subst k'.
      exfalso. apply (HC d eq_refl). apply dget_some_in. eauto.
    + apply String.eqb_neq in EQ. unfold attr_of. rewrite HNS. destruct (index_of nm2 (names m)) as [j|] eqn:EJ; auto.
      apply V1. intros ->. apply index_of_some in EJ. unfold names in EJ. rewrite R1, map_app in EJ. simpl in EJ.
      rewrite nth_error_app2 in EJ by (rewrite map_length; auto). rewrite map_length, Nat.sub_diag in EJ. simpl in EJ. congruence.
Qed.
(** Reading an attribute is unaffected by removals. *)
Theorem C35_remove : forall t n m m' nm k v, aligned m -> remove_interaction t n m = (m', Ok tt) ->
  aligned m' /\ (reads m nm k v -> reads m' nm k v).
Proof.
  intros t n m m' nm k v HA E. apply C06_effect in E. destruct E as (nm0&l1&x&l2&_&ER&_&_&->&_).
  assert (HNS : names (with_rows (l1 ++ set_dirty true (set_removed true x) :: l2) m) = names m).
  { unfold names. simpl. rewrite ER, !map_app. reflexivity. }
  assert (HA' : aligned (with_rows (l1 ++ set_dirty true (set_removed true x) :: l2) m)).
  { destruct HA as (A & B & C & D). split; [simpl; rewrite A, ER, !app_length; reflexivity|]. auto. }
  split; [auto|]. rewrite !reads_iff by auto. unfold attr_of. rewrite HNS. auto.
Qed.
(** ... and of the surviving interactions, by to_physical. *)
Theorem C35_to_physical : forall ev evs fd m m' p cms nm k v,
  aligned m -> names_unique m ->
  cmodels evs 0 (m_mtype m) (dvals (m_constrs m)) = Ok cms ->
  (forall r cm, In r (m_rows m) -> r_removed r = true -> In cm cms -> ~ In (r_name r) (names cm)) ->
  to_physical ev evs fd m = (m', Ok p) ->
  (exists r, In r (m_rows m) /\ r_name r = nm /\ active r) ->
  (reads m nm k v -> reads m' nm k v).
Proof.
  intros ev evs fd m m' p cms nm k v HA HU EC HP E (r & HI & HN & HR).
  destruct (C11_frame _ _ _ _ _ _ _ HA HU EC HP E) as (_&_&_&_&_&_&HAt&_&ER&HV&AL&NU).
  rewrite !reads_iff by auto. intros (N1 & N2 & N3 & N4). split; [auto|]. split.
  { unfold names. rewrite ER, map_map. simpl. apply in_map_iff. exists r. split; auto. apply filter_In. split; auto. rewrite HR. reflexivity. }
  split; [congruence|]. rewrite <- N4, <- HN. apply HV; auto.
Qed.
Lemma get_attribute_state t n k m : fst (get_attribute t n k m) = m.
Proof.
  unfold get_attribute. destruct k; [|reflexivity]. unfold bind. destruct (get_attributes t n m) as [m1 r] eqn:E.
  assert (m1 = m).
  { unfold get_attributes, bind in E. destruct (internal_name t n m) as [m2 r2] eqn:E2. apply internal_name_state in E2. subst m2.
    destruct r2; [|inversion E; auto]. unfold get, lift in E. destruct (name_index m a); inversion E; auto. }
  subst. destruct r as [d|]; [|reflexivity]. destruct (dget s d); reflexivity.
Qed.
Lemma reads_snd m nm k v : snd (get_attribute TNone (NStr nm) (Some ("attributes." +++ k)%string) m) = Ok v -> reads m nm k v.
Proof.
  intros H. unfold reads. rewrite (surjective_pairing (get_attribute _ _ _ m)), get_attribute_state, H. reflexivity.
Qed.
Example C35_hyps : exists m' m2, let a := AtDict [("new", ANum (qz 1)); ("weight", AStr "w")]%string in
  aligned ising_model /\ attrs_wf a /\
  add_interaction env0 (TVar (spn "x" 2)) (NStr "") (num 1) (num 2) a TsNone ising_model = (m', Ok tt) /\
  reads m' "x[2]" "new" (ANum (qz 1)) /\ reads m' "x[2]" "weight" (AStr "w") /\ reads m' "x[1]*x[2]" "weight" (ANum (qz 9)) /\
  reads m' "x[0]" "weight" ANan /\
  update_interaction env0 (TVar (spn "x" 0)) (NStr "") None None (AtDict [("weight", ANum (qz 7))]%string) (update_default_ts env0) m' = (m2, Ok tt) /\
  reads m2 "x[0]" "weight" (ANum (qz 7)) /\ reads m2 "x[2]" "weight" (AStr "w").
Proof.
  do 2 eexists. intros a. split; [apply ising_al|]. split; [intros d E; inversion E; apply nodupb_ok; reflexivity|].
  split; [apply okb_ok; reflexivity|]. do 4 (split; [apply reads_snd; vm_compute; reflexivity|]).
  split; [apply okb_ok; vm_compute; reflexivity|]. split; apply reads_snd; vm_compute; reflexivity.
Qed.

(** ** C36 *)

(** Full statement: an attribute first introduced by update_interaction is
    returned by get_attributes, and adding, selecting and converting still work
    afterwards. The code does not register the new column, so it is not
    returned; after a further add the columns have different lengths and
    selecting by variable (delete_variable, fix_variable, to_qubo) and
    to_physical's purge raise; and another add with the attribute overwrites
    the value of another interaction. *)
Theorem C36_refuted : exists m1,
  update_interaction env0 TNone (NStr "x[0]") None None (AtDict [("fresh", ANum (qz 5))]%string) (update_default_ts env0) ising_model = (m1, Ok tt) /\
  snd (get_attribute TNone (NStr "x[0]") (Some "attributes.fresh"%string) m1) = Err KeyError /\
  (exists m2, add_interaction env0 (TVar (spn "x" 2)) (NStr "") (num 1) (num 2) AtNone TsNone m1 = (m2, Ok tt) /\
    snd (select_by_variable "x[0]" m2) = Err ValueError /\
    snd (delete_variable (TVar (spn "x" 0)) m2) = Err ValueError /\
    snd (to_qubo env0 m2) = Err ValueError) /\
  (exists m2 j, nth_error (names m1) j = Some "gone"%string /\ attr_val m1 j "attributes.fresh" = ANan /\
    add_interaction env0 (TVar (spn "x" 2)) (NStr "") (num 1) (num 2) (AtDict [("fresh", ANum (qz 6))]%string) TsNone m1 = (m2, Ok tt) /\
    nth_error (names m2) j = Some "gone"%string /\ attr_val m2 j "attributes.fresh" = ANum (qz 6)).
Proof.
  eexists. split; [apply okb_ok; vm_compute; reflexivity|]. split; [vm_compute; reflexivity|]. split.
  - eexists. split; [apply okb_ok; vm_compute; reflexivity|]. do 2 (split; [vm_compute; reflexivity|]). vm_compute; reflexivity.
  - eexists. exists 4. split; [vm_compute; reflexivity|]. split; [vm_compute; reflexivity|]. split; [apply okb_ok; vm_compute; reflexivity|].
    split; vm_compute; reflexivity.
Qed.
(** Known attributes: kept (C35_update), and the columns stay aligned. *)
Theorem C36_known_attributes_partial : forall ev t n co sc a ts m m' nm, aligned m -> attrs_wf a ->
  refers t n nm -> In nm (names m) -> nm <> ""%string ->
  (forall d k, a = AtDict d -> In k (dkeys d) -> In ("attributes." +++ k)%string (m_attrs m)) ->
  update_interaction ev t n co sc a ts m = (m', Ok tt) ->
  aligned m' /\ (forall d k v, a = AtDict d -> In (k, v) d -> reads m' nm k v).
Proof. intros ev t n co sc a ts m m' nm HA HW HR HI HN HK E. destruct (C35_update _ _ _ _ _ _ _ _ _ _ HA HW HR HI HN HK E) as (A & B & _). auto. Qed.

(** ** C81 *)

(** Full statement: the attributes passed to an update_interaction are read back
    also when the update creates the interaction. The code forwards everything
    but the attributes: here the model has the attribute, the update asks for 5,
    and what is read is NaN. *)
Theorem C81_refuted : exists m1,
  update_interaction env0 (TVar (spn "x" 1)) (NStr "") (Some (num 2)) None (AtDict [("weight", ANum (qz 5))]%string) TsNone ising_model = (m1, Ok tt) /\
  In "attributes.weight"%string (m_attrs ising_model) /\ ~ In "x[1]"%string (names ising_model) /\ In "x[1]"%string (names m1) /\
  reads m1 "x[1]" "weight" ANan.
Proof.
  eexists. split; [apply okb_ok; vm_compute; reflexivity|]. split; [vm_compute; auto|].
  split; [vm_compute; intuition discriminate|]. split; [vm_compute; auto 10|]. vm_compute. reflexivity.
Qed.
(** Exactly what happens: an update that creates the interaction ignores its
    attributes altogether, whatever they are. *)
Theorem C81_creating_update_ignores_partial : forall ev t n co sc d ts m i nm, n_truthy n = false -> denotes t i nm -> ~ In nm (names m) ->
  update_interaction ev t n co sc (AtDict d) ts m = update_interaction ev t n co sc AtNone ts m.
Proof.
  intros ev t n co sc d ts m i nm NT HD HN.
  assert (EH : has_name m nm = false).
  { destruct (has_name m nm) eqn:EH; auto. exfalso; apply HN; apply has_name_split in EH; destruct EH as (l1 & r & l2 & ER & <- & _);
    unfold names; rewrite ER; apply in_map; apply in_elt. }
  unfold update_interaction. apply denotes_info in HD.
  assert (EO : opt_info t = Ok (Some (mkInfo i (inter_key i) nm))) by (destruct t; unfold opt_info; try (rewrite HD; reflexivity); discriminate).
  unfold guard, bind, lift, get. rewrite NT, EO. destruct (t_truthy t) eqn:ET; simpl; [|reflexivity].
  destruct (check_opt_num co); simpl; [|reflexivity]. destruct (check_opt_num sc); simpl; [|reflexivity].
  destruct (check_opt_ts ts); simpl; [|reflexivity].
  rewrite EH. reflexivity.
Qed.
Example C81_hyps : n_truthy (NStr "") = false /\ (exists i, denotes (TVar (spn "x" 1)) i "x[1]") /\ ~ In "x[1]"%string (names ising_model).
Proof. split; [reflexivity|]. split; [exists (I1 (spn "x" 1)); apply denotes_info; reflexivity|]. vm_compute. intuition discriminate. Qed.

(** ** Trusted base *)
Print Assumptions C30_add_constraint.
Print Assumptions C30_remove_constraint.
Print Assumptions C30_add_remove.
Print Assumptions C30_unknown.
Print Assumptions C30_bad_type.
Print Assumptions C33_append.
Print Assumptions C33_append_new.
Print Assumptions C33_shorter_tuple_drops.
Print Assumptions C34_all_size.
Print Assumptions C34_size.
Print Assumptions C34_deleted_and_fixed_counts_twice.
Print Assumptions C35_add.
Print Assumptions C35_update.
Print Assumptions C35_remove.
Print Assumptions C35_to_physical.
Print Assumptions C36_refuted.
Print Assumptions C36_known_attributes_partial.
Print Assumptions C81_refuted.
Print Assumptions C81_creating_update_ignores_partial.
