(** * MergeProofs: merge of two logical models. *)
From Verif Require Import PyBase PyLemmas Constraint LogicalModel Spec LogicalProofs EnergyProofs ConvertProofs ConstraintProofs.
Open Scope list_scope.

(** ** Frames of the variable operations *)
Lemma variables_frame n sh m m' r : variables n sh m = (m', r) -> exists vs, m' = with_vars vs m.
Proof.
  unfold variables. assert (HS : m = with_vars (m_vars m) m) by (destruct m; reflexivity).
  destruct n as [s|a|].
  - destruct (check_shape false sh); [|intros E; inversion E; subst; eauto].
    destruct (array_create _ _ _); intros E; inversion E; subst; eauto.
  - destruct (a_bits a); [intros E; inversion E; subst; eauto|].
    destruct (negb _); [intros E; inversion E; subst; eauto|].
    destruct (before_char _ _); intros E; inversion E; subst; eauto.
  - intros E; inversion E; subst; eauto.
Qed.
Lemma append_frame n sh m m' r : append n sh m = (m', r) -> exists vs, m' = with_vars vs m.
Proof.
  unfold append. assert (HS : m = with_vars (m_vars m) m) by (destruct m; reflexivity).
  destruct n as [s|a|].
  - destruct (check_shape true sh); [|intros E; inversion E; subst; eauto].
    destruct (dget s (m_vars m)); [|apply variables_frame].
    destruct (array_create _ _ _); intros E; inversion E; subst; eauto.
  - intros E; inversion E; subst; eauto.
  - intros E; inversion E; subst; eauto.
Qed.
Lemma merge_var_frame kv m m' r : merge_var kv m = (m', r) -> exists vs, m' = with_vars vs m.
Proof.
  unfold merge_var. destruct (dget _ _); [apply append_frame|]. intros E; inversion E; eauto.
Qed.
Lemma merge_vars_frame l m m' r : mfor l merge_var m = (m', r) -> exists vs, m' = with_vars vs m.
Proof.
  apply (mfor_inv (fun x => exists vs, x = with_vars vs m)).
  - intros kv s s' r' _ [vs ->] E. apply merge_var_frame in E. destruct E as [vs' ->]. exists vs'; reflexivity.
  - exists (m_vars m); destruct m; reflexivity.
Qed.

(** ** Renaming *)
(** Two rows that differ at most in their name. *)
Definition eqx (a b : row) : Prop := set_name ""%string a = set_name ""%string b.
Lemma eqx_refl a : eqx a a. Proof. reflexivity. Qed.
Lemma eqx_fields a b : eqx a b -> r_key a = r_key b /\ r_inter a = r_inter b /\ r_coef a = r_coef b /\
  r_scale a = r_scale b /\ r_ts a = r_ts b /\ r_dirty a = r_dirty b /\ r_removed a = r_removed b.
Proof. unfold eqx, set_name. intros E; inversion E; auto 10. Qed.
Lemma Forall2_refl {A} (R : A -> A -> Prop) l : (forall a, R a a) -> Forall2 R l l.
Proof. intros HR; induction l; constructor; auto. Qed.
Lemma Forall2_trans {A} (R : A -> A -> Prop) : (forall a b c, R a b -> R b c -> R a c) ->
  forall l1 l2 l3, Forall2 R l1 l2 -> Forall2 R l2 l3 -> Forall2 R l1 l3.
Proof.
  intros HT l1 l2 l3 H1. revert l3. induction H1; intros l3 H2; inversion H2; subst; constructor; eauto.
Qed.
Lemma eqx_trans a b c : eqx a b -> eqx b c -> eqx a c.
Proof. unfold eqx; congruence. Qed.

Lemma rename_eqx dup a b len i l : Forall2 eqx (rename_rows dup a b len i l) l.
Proof.
  revert i; induction l as [|r l IH]; intros i; simpl; constructor; auto.
  destruct (mem (r_name r) dup); reflexivity.
Qed.
Lemma eqx_csum fd s l l' : Forall2 eqx l l' -> csum fd s l = csum fd s l'.
Proof.
  induction 1 as [|a b l l' HE HF IH]; auto. rewrite !csum_cons, IH. f_equal.
  apply eqx_fields in HE. destruct HE as (E1&_&E2&E3&_&_&E4). unfold contribution. rewrite E1, E2, E3, E4; auto.
Qed.
Lemma rename_length dup a b len i l : length (rename_rows dup a b len i l) = length l.
Proof. revert i; induction l; intros; simpl; auto. Qed.

Lemma merge_cols_vars vs m o l : merge_cols (with_vars vs m) o l = merge_cols m o l.
Proof. induction l as [|a l IH]; simpl; auto. rewrite IH. reflexivity. Qed.

(** ** A successful merge of models of the same type *)
Lemma merge_same_ok ev k o m m' u : merge_same ev k o m = (m', Ok u) ->
  exists vs cols,
    dims_ok m o = true /\ mfor (m_vars o) merge_var m = (with_vars vs m, Ok tt) /\
    merge_cols m o (merge_attrs_list m o) = Some cols /\
    existsb (fun l => dmem l (m_constrs o)) (dkeys (m_constrs m)) = false /\
    m' = mkModel (m_mtype m) vs (cadd (m_offset m) (m_offset o)) (dupdate (m_deleted m) (m_deleted o))
           (dupdate (m_fixed m) (m_fixed o)) (dupdate (m_constrs m) (m_constrs o))
           (rename_rows (dup_names m o) (e_id_self ev) (e_id_other ev k) (m_len m) 0 (m_rows m ++ m_rows o))
           cols (merge_attrs_list m o) (m_len m + m_len o) (m_prev m).
Proof.
  intros E. unfold merge_same in E.
  apply bind_ok in E. destruct E as (m1 & x & E1 & E). inversion E1; subst m1 x; clear E1.
  apply bind_ok in E. destruct E as (m1 & x0 & E1 & E). apply guard_ok in E1. destruct E1 as [HD ->].
  apply bind_ok in E. destruct E as (m1 & x & E1 & E).
  pose proof (merge_vars_frame _ _ _ _ E1) as [vs ->].
  apply bind_ok in E. destruct E as (m2 & y & E2 & E). inversion E2; subst m2 y; clear E2.
  rewrite merge_cols_vars in E.
  change (merge_attrs_list (with_vars vs m) o) with (merge_attrs_list m o) in E.
  destruct (merge_cols m o (merge_attrs_list m o)) as [cols|] eqn:EC; [|inversion E].
  apply bind_ok in E. destruct E as (m2 & y & E2 & E). inversion E2; subst m2 y; clear E2.
  apply bind_ok in E. destruct E as (m2 & y0 & E2 & E). apply guard_ok in E2. destruct E2 as [HG ->].
  apply negb_true_iff in HG. inversion E; subst m' u; clear E.
  exists vs, cols. destruct x. split; [auto|]. split; [auto|]. split; [auto|]. split; [exact HG|]. reflexivity.
Qed.

Lemma merge_same_energy ev k o m m' u fd s : merge_same ev k o m = (m', Ok u) ->
  resolves fd (m_offset m) -> resolves fd (m_offset o) ->
  energy fd s m' = (energy fd s m + energy fd s o)%Qc.
Proof.
  intros E R1 R2. apply merge_same_ok in E. destruct E as (vs & cols & _ & _ & _ & _ & ->).
  rewrite !energy_csum. simpl. rewrite (eqx_csum fd s _ _ (rename_eqx _ _ _ _ _ _)), csum_app, value_cadd by auto. ring.
Qed.

(** ** Names *)
Lemma paren_split (p a q b : string) : has_char "("%char a = false -> has_char "("%char b = false ->
  (p +++ String "("%char a = q +++ String "("%char b)%string -> p = q /\ a = b.
Proof.
  revert q; induction p as [|c p IH]; intros q HA HB E; destruct q as [|c' q]; simpl in E; inversion E; subst; auto.
  - exfalso. rewrite has_char_app in HA. simpl in HA. rewrite orb_true_r in HA. discriminate.
  - exfalso. rewrite has_char_app in HB. simpl in HB. rewrite orb_true_r in HB. discriminate.
  - destruct (IH q HA HB H1) as [-> ->]; auto.
Qed.
Definition renamed (n id : string) : string := (n +++ " (" +++ id +++ ")")%string.
Lemma renamed_inj n id n' id' : has_char "("%char id = false -> has_char "("%char id' = false ->
  renamed n id = renamed n' id' -> n = n' /\ id = id'.
Proof.
  unfold renamed. intros HA HB E.
  assert (E' : ((n +++ " ") +++ String "("%char (id +++ ")") = (n' +++ " ") +++ String "("%char (id' +++ ")"))%string).
  { rewrite !append_assoc_s. simpl. exact E. }
  apply paren_split in E'.
  - destruct E' as [E1 E2]. apply append_inj_r in E1. apply append_inj_r in E2. auto.
  - rewrite has_char_app, HA. reflexivity.
  - rewrite has_char_app, HB. reflexivity.
Qed.

Definition ren dup id n : string := if mem n dup then renamed n id else n.
Lemma rename_names dup a b len l1 l2 i : i + length l1 = len ->
  map r_name (rename_rows dup a b len i (l1 ++ l2)) =
  map (ren dup a) (map r_name l1) ++ map (ren dup b) (map r_name l2).
Proof.
  intros HL. revert i HL. induction l1 as [|r l1 IH]; intros i HL; simpl in *.
  - assert (HG : len <= i) by lia. clear HL. revert i HG. induction l2 as [|r l2 IH]; intros i HG; simpl; auto.
    rewrite IH by lia. f_equal. unfold ren. destruct (mem (r_name r) dup); auto.
    destruct (Nat.ltb_spec i len); [lia|]. reflexivity.
  - rewrite IH by lia. f_equal. unfold ren. destruct (mem (r_name r) dup); auto.
    destruct (Nat.ltb_spec i len); [|lia]. reflexivity.
Qed.

Lemma merge_same_names ev k o m m' u : merge_same ev k o m = (m', Ok u) -> m_len m = length (m_rows m) ->
  names m' = map (ren (dup_names m o) (e_id_self ev)) (names m) ++ map (ren (dup_names m o) (e_id_other ev k)) (names o).
Proof.
  intros E HL. apply merge_same_ok in E. destruct E as (vs & cols & _ & _ & _ & _ & ->).
  unfold names; simpl. apply rename_names. auto.
Qed.
Lemma in_dup_names m o n : In n (dup_names m o) <-> In n (names m) /\ In n (names o).
Proof. unfold dup_names. rewrite filter_In, mem_in. tauto. Qed.

Lemma ren_unique ida idb (na nb : list string) dup :
  (forall n, In n dup <-> In n na /\ In n nb) ->
  NoDup na -> NoDup nb -> ida <> idb -> has_char "("%char ida = false -> has_char "("%char idb = false ->
  (forall n, In n dup -> ~ In (renamed n ida) (na ++ nb) /\ ~ In (renamed n idb) (na ++ nb)) ->
  NoDup (map (ren dup ida) na ++ map (ren dup idb) nb).
Proof.
  intros HD NA NB NE HA HB HF.
  assert (INJ : forall id l, (id = ida \/ id = idb) -> (incl l (na ++ nb)) -> NoDup l -> NoDup (map (ren dup id) l)).
  { intros id l HI HC ND. apply NoDup_map_inj; auto. intros x y Hx Hy E. unfold ren in E.
    assert (HFx : forall z, In z dup -> ~ In (renamed z id) (na ++ nb)).
    { intros z Hz. destruct (HF z Hz). destruct HI; subst; auto. }
    destruct (mem x dup) eqn:Ex, (mem y dup) eqn:Ey.
    - unfold renamed in E. apply append_inj_r in E; auto.
    - exfalso. apply mem_in in Ex. apply (HFx x Ex). rewrite E. apply HC; auto.
    - exfalso. apply mem_in in Ey. apply (HFx y Ey). rewrite <- E. apply HC; auto.
    - auto. }
  apply NoDup_app_iff. split; [|split].
  - apply INJ; auto. intros x Hx; apply in_app_iff; auto.
  - apply INJ; auto. intros x Hx; apply in_app_iff; auto.
  - intros z Hz1 Hz2. apply in_map_iff in Hz1, Hz2. destruct Hz1 as (x & E1 & Hx), Hz2 as (y & E2 & Hy).
    unfold ren in *. destruct (mem x dup) eqn:Ex, (mem y dup) eqn:Ey.
    + subst z. symmetry in E2. apply renamed_inj in E2; auto. destruct E2; contradiction.
    + apply mem_in in Ex. destruct (HF x Ex) as [F _]. apply F. rewrite E1, <- E2. apply in_app_iff; auto.
    + apply mem_in in Ey. destruct (HF y Ey) as [_ F]. apply F. rewrite E2, <- E1. apply in_app_iff; auto.
    + subst. apply mem_nin in Ex. apply Ex. apply HD. auto.
Qed.

(** ** Attribute columns *)
Lemma merge_cols_keys m o l cols : merge_cols m o l = Some cols -> dkeys cols = l.
Proof.
  revert cols; induction l as [|a l IH]; simpl; intros cols E; [inversion E; auto|].
  destruct (merge_col m o a); [|discriminate]. destruct (merge_cols m o l) eqn:El; [|discriminate].
  inversion E; subst. simpl. f_equal. apply IH; auto.
Qed.
Lemma merge_cols_len m o l cols : aligned m -> aligned o -> merge_cols m o l = Some cols ->
  Forall (fun kc => length (snd kc) = (m_len m + m_len o)%nat) cols.
Proof.
  intros (_&_&_&HM) (_&_&_&HO). rewrite Forall_forall in HM, HO.
  assert (LM : forall a c, dget a (m_cols m) = Some c -> length c = m_len m).
  { intros a c E. apply dget_in in E. apply (HM (a, c) E). }
  assert (LO : forall a c, dget a (m_cols o) = Some c -> length c = m_len o).
  { intros a c E. apply dget_in in E. apply (HO (a, c) E). }
  revert cols; induction l as [|a l IH]; simpl; intros cols E; [inversion E; constructor|].
  destruct (merge_col m o a) eqn:Ea; [|discriminate]. destruct (merge_cols m o l) eqn:El; [|discriminate].
  inversion E; subst. constructor; auto. simpl.
  unfold merge_col in Ea. destruct (mem a (m_attrs m)).
  - destruct (dget a (m_cols m)) eqn:E1; [|discriminate].
    destruct (dget a (m_cols o)) eqn:E2; inversion Ea; subst; rewrite app_length, ?repeat_length, (LM _ _ E1); auto.
    rewrite (LO _ _ E2); auto.
  - destruct (dget a (m_cols o)) eqn:E2; inversion Ea; subst. rewrite app_length, repeat_length, (LO _ _ E2); auto.
Qed.
Lemma merge_attrs_nodup m o : NoDup (m_attrs m) -> NoDup (m_attrs o) -> NoDup (merge_attrs_list m o).
Proof.
  intros H1 H2. unfold merge_attrs_list. apply NoDup_app_iff. split; auto. split; [apply NoDup_filter; auto|].
  intros x Hx Hy. apply filter_In in Hy. destruct Hy as [_ Hy]. apply negb_true_iff, mem_nin in Hy. contradiction.
Qed.
Lemma merge_same_aligned ev k o m m' u : merge_same ev k o m = (m', Ok u) -> aligned m -> aligned o -> aligned m'.
Proof.
  intros E HM HO. apply merge_same_ok in E. destruct E as (vs & cols & _ & _ & EC & _ & ->).
  unfold aligned; simpl. rewrite rename_length, app_length. split; [destruct HM as [-> _], HO as [-> _]; auto|].
  split; [eapply merge_cols_keys; eauto|]. split; [apply merge_attrs_nodup; [apply HM|apply HO]|].
  eapply merge_cols_len; eauto.
Qed.
Lemma merge_cols_some m o l : aligned m -> aligned o -> (forall a, In a l -> In a (m_attrs m) \/ In a (m_attrs o)) ->
  exists cols, merge_cols m o l = Some cols.
Proof.
  intros HM HO. destruct HM as (_&KM&_), HO as (_&KO&_).
  induction l as [|a l IH]; simpl; intros HI; eauto.
  destruct IH as [cols Ec]; auto. rewrite Ec. unfold merge_col.
  destruct (mem a (m_attrs m)) eqn:Em.
  - apply mem_in in Em. rewrite <- KM in Em. apply dget_some_in in Em. destruct Em as [c ->].
    destruct (dget a (m_cols o)); eauto.
  - apply mem_nin in Em. destruct (HI a (or_introl eq_refl)); [contradiction|].
    rewrite <- KO in H. apply dget_some_in in H. destruct H as [c ->]. eauto.
Qed.
Lemma merge_attrs_in m o a : In a (merge_attrs_list m o) <-> In a (m_attrs m) \/ In a (m_attrs o).
Proof.
  unfold merge_attrs_list. rewrite in_app_iff, filter_In. split; [tauto|].
  intros [H|H]; auto. destruct (mem a (m_attrs m)) eqn:E; [left; apply mem_in; auto|].
  right. split; auto.
Qed.

(** Attribute values survive. *)
Lemma merge_same_attrs ev k o m m' u : merge_same ev k o m = (m', Ok u) -> aligned m -> aligned o ->
  forall i a, attr_val m' i a =
    if (i <? m_len m)%nat then attr_val m i a else attr_val o (i - m_len m) a.
Proof.
  intros E HM HO i a. apply merge_same_ok in E. destruct E as (vs & cols & _ & _ & EC & _ & ->).
  unfold attr_val; simpl.
  pose proof (merge_cols_keys _ _ _ _ EC) as HK.
  assert (HG : dget a cols = if mem a (merge_attrs_list m o) then merge_col m o a else None).
  { clear HM HO HK. revert EC. generalize (merge_attrs_list m o) as l. intros l. revert cols.
    induction l as [|b l IH]; simpl; intros cols E; [inversion E; auto|].
    destruct (merge_col m o b) eqn:Eb; [|discriminate]. destruct (merge_cols m o l) eqn:El; [|discriminate].
    inversion E; subst. simpl. unfold mem in *. simpl. destruct (String.eqb_spec a b); simpl; [subst; auto|].
    apply IH; auto. }
  rewrite HG. clear HG HK EC cols.
  destruct HM as (LM0&KM&_&HM), HO as (LO0&KO&_&HO). rewrite Forall_forall in HM, HO.
  assert (LM : forall a c, dget a (m_cols m) = Some c -> length c = m_len m).
  { intros b c E. apply dget_in in E. apply (HM (b, c) E). }
  assert (LO : forall a c, dget a (m_cols o) = Some c -> length c = m_len o).
  { intros b c E. apply dget_in in E. apply (HO (b, c) E). }
  assert (NM : forall b, ~ In b (m_attrs m) <-> dget b (m_cols m) = None).
  { intros b. rewrite dget_none, KM. tauto. }
  assert (NO : forall b, ~ In b (m_attrs o) <-> dget b (m_cols o) = None).
  { intros b. rewrite dget_none, KO. tauto. }
  destruct (mem a (merge_attrs_list m o)) eqn:Ea.
  - apply mem_in in Ea. unfold merge_col. destruct (mem a (m_attrs m)) eqn:Em.
    + destruct (dget a (m_cols m)) as [c|] eqn:E1.
      2:{ apply NM in E1. apply mem_in in Em. contradiction. }
      destruct (dget a (m_cols o)) as [c'|] eqn:E2.
      * destruct (Nat.ltb_spec i (m_len m)).
        -- rewrite app_nth1; auto. rewrite (LM _ _ E1); auto.
        -- rewrite app_nth2, (LM _ _ E1); auto. rewrite (LM _ _ E1); lia.
      * destruct (Nat.ltb_spec i (m_len m)).
        -- rewrite app_nth1; auto. rewrite (LM _ _ E1); auto.
        -- rewrite app_nth2, (LM _ _ E1); [apply nth_repeat|rewrite (LM _ _ E1); lia].
    + apply mem_nin in Em. apply NM in Em. rewrite Em.
      destruct (dget a (m_cols o)) as [c'|] eqn:E2.
      * destruct (Nat.ltb_spec i (m_len m)).
        -- rewrite app_nth1 by (rewrite repeat_length; auto). apply nth_repeat.
        -- rewrite app_nth2, repeat_length; auto. rewrite repeat_length; lia.
      * destruct (i <? m_len m)%nat; auto.
  - apply mem_nin in Ea. rewrite merge_attrs_in in Ea.
    assert (H1 : dget a (m_cols m) = None) by (apply NM; tauto).
    assert (H2 : dget a (m_cols o) = None) by (apply NO; tauto).
    rewrite H1, H2. destruct (i <? m_len m)%nat; auto.
Qed.

(** ** Variables of the merged model *)
Lemma add_sub_max (a b : list Z) : length a = length b ->
  elementwise_add b (elementwise_sub (elementwise_max a b) b) = elementwise_max a b.
Proof.
  unfold elementwise_add, elementwise_sub, elementwise_max.
  revert b; induction a as [|x a IH]; destruct b as [|y b]; simpl; intros L; try discriminate; auto.
  f_equal; [lia|]. apply IH; auto.
Qed.
Lemma sh_ints_map np l : sh_ints np (map ShInt l) = Some l.
Proof. induction l as [|z l IH]; simpl; auto. rewrite IH; auto. Qed.
Lemma check_shape_ints np l : check_shape np (ShTuple (map ShInt l)) = match l with [] => Err TypeError | _ => Ok l end.
Proof. destruct l; simpl; auto. rewrite sh_ints_map. reflexivity. Qed.
Lemma array_create_shape n sh vt a : array_create n sh vt = Ok a -> a_shape a = sh.
Proof.
  unfold array_create. destruct (has_char "*"%char n); [discriminate|].
  destruct sh; [discriminate|]. destruct (forallb _ _); [|discriminate]. intros E; inversion E; auto.
Qed.

(** One shared variable. *)
Lemma merge_var_shared n b a m : dget n (m_vars m) = Some a -> length (a_shape a) = length (a_shape b) ->
  a_shape a <> [] ->
  merge_var (n, b) m =
  match array_create n (elementwise_max (a_shape b) (a_shape a)) (vt_of (m_mtype m)) with
  | Err e => (m, Err e) | Ok a' => (with_vars (dset n a' (m_vars m)) m, Ok tt) end.
Proof.
  intros E L NE. unfold merge_var. cbn [fst snd]. rewrite E. unfold append.
  rewrite check_shape_ints.
  assert (NB : elementwise_sub (elementwise_max (a_shape b) (a_shape a)) (a_shape a) <> []).
  { destruct (a_shape a), (a_shape b); simpl in *; try discriminate; congruence. }
  destruct (elementwise_sub _ _) eqn:ES; [congruence|]. rewrite <- ES, E, add_sub_max by auto. reflexivity.
Qed.
Lemma merge_var_shared_empty n b a m : dget n (m_vars m) = Some a -> length (a_shape a) = length (a_shape b) ->
  a_shape a = [] -> merge_var (n, b) m = (m, Err TypeError).
Proof.
  intros E L NE. unfold merge_var. cbn [fst snd]. rewrite E, NE in *.
  destruct (a_shape b); [|discriminate]. reflexivity.
Qed.

Lemma dims_ok_spec m o : NoDup (dkeys (m_vars m)) -> NoDup (dkeys (m_vars o)) ->
  dims_ok m o = true <-> same_dims (m_vars m) (m_vars o).
Proof.
  intros N1 N2. unfold dims_ok. rewrite forallb_forall. split.
  - intros HF n a b Ha Hb. apply dget_in in Ha. specialize (HF _ Ha). cbn [fst snd] in HF.
    apply in_dget in Hb; auto. rewrite Hb in HF. apply Nat.eqb_eq in HF; auto.
  - intros HS [n a] HI. cbn [fst snd]. destruct (dget n (m_vars o)) eqn:E; auto.
    apply Nat.eqb_eq. apply (HS n); [apply in_dget; auto|apply dget_in; auto].
Qed.

(** What every name denotes after the loop over [l]. *)
Definition merged_var (t : mtype) (n : string) (x : option array) (y : option array) (z : option array) : Prop :=
  match x, y with
  | None, None => z = None
  | Some a, None => z = Some a
  | None, Some b => z = Some b
  | Some a, Some b => exists c, z = Some c /\
      array_create n (elementwise_max (a_shape b) (a_shape a)) (vt_of t) = Ok c
  end.

Lemma merge_vars_spec l : forall m m' u, NoDup (dkeys l) -> same_dims (m_vars m) l ->
  mfor l merge_var m = (m', Ok u) ->
  forall n, merged_var (m_mtype m) n (dget n (m_vars m)) (dget n l) (dget n (m_vars m')).
Proof.
  induction l as [|[k b] l IH]; intros m m' u ND HS E n.
  - simpl in E; minv. simpl. destruct (dget n (m_vars m')); simpl; auto.
  - cbn [mfor] in E. apply bind_ok in E. destruct E as (m1 & u1 & E1 & E).
    inversion ND as [|? ? NI ND']; subst.
    pose proof (merge_var_frame _ _ _ _ E1) as [vs ->].
    assert (HV : (forall n', n' <> k -> dget n' vs = dget n' (m_vars m)) /\
                 merged_var (m_mtype m) k (dget k (m_vars m)) (Some b) (dget k vs)).
    { destruct (dget k (m_vars m)) as [a|] eqn:Ek.
      - assert (L : length (a_shape a) = length (a_shape b)) by (apply (HS k a b); simpl; auto).
        destruct (list_eq_dec Z.eq_dec (a_shape a) []) as [e|ne].
        { rewrite (merge_var_shared_empty k b a) in E1 by auto. discriminate. }
        rewrite (merge_var_shared k b a) in E1 by auto.
        destruct (array_create _ _ _) as [c|] eqn:EC; [|discriminate].
        assert (EV : vs = dset k c (m_vars m)) by (apply (f_equal (fun z => m_vars (fst z))) in E1; simpl in E1; auto).
        subst vs. split.
        + intros n' NE. apply dget_dset_other; auto.
        + simpl. exists c. rewrite dget_dset_same. auto.
      - unfold merge_var in E1. cbn [fst snd] in E1. rewrite Ek in E1.
        assert (EV : vs = dset k b (m_vars m)) by (apply (f_equal (fun z => m_vars (fst z))) in E1; simpl in E1; auto).
        subst vs. split.
        + intros n' NE. apply dget_dset_other; auto.
        + simpl. rewrite dget_dset_same. auto. }
    destruct HV as [HO HM].
    assert (HS' : same_dims (m_vars (with_vars vs m)) l).
    { intros n' a' b' Ha' Hb'. cbn [m_vars with_vars] in Ha'.
      assert (n' <> k). { intros ->. apply NI. apply (in_map fst) in Hb'. auto. }
      rewrite HO in Ha' by auto. apply (HS n' a' b'); simpl; auto. }
    pose proof (IH _ _ _ ND' HS' E n) as HR. cbn [m_vars with_vars m_mtype] in HR.
    cbn [dget]. destruct (eqb n k) eqn:En.
    + apply eqb_eq in En; subst n. destruct (dget k l) eqn:El.
      { exfalso. apply NI. apply dget_some_in. eauto. }
      destruct (dget k (m_vars m)) as [a|] eqn:Ek.
      * destruct HM as (c & Hc & HE). rewrite Hc in HR. simpl in HR. simpl. exists c. auto.
      * simpl in HM. rewrite HM in HR. simpl in HR. auto.
    + apply eqb_neq in En. rewrite HO in HR by auto. exact HR.
Qed.

Lemma forallb_pos l : forallb (fun z => (0 <? z)%Z) l = true <-> Forall (fun z => (0 < z)%Z) l.
Proof. rewrite forallb_forall, Forall_forall. split; intros H z HI; specialize (H z HI); lia. Qed.
Lemma array_create_ok n sh vt : has_char "*"%char n = false -> sh <> [] -> Forall (fun z => (0 < z)%Z) sh ->
  exists a, array_create n sh vt = Ok a.
Proof.
  intros H1 H2 H3. unfold array_create. rewrite H1. destruct sh; [congruence|].
  rewrite (proj2 (forallb_pos _) H3). eauto.
Qed.
Lemma max_pos a b : Forall (fun z => (0 < z)%Z) b -> length a = length b -> Forall (fun z => (0 < z)%Z) (elementwise_max a b).
Proof.
  unfold elementwise_max. revert a; induction b as [|y b IH]; destruct a as [|x a]; simpl; intros HF HL; try discriminate; constructor.
  - inversion HF; subst. lia.
  - inversion HF; subst. apply IH; auto.
Qed.
Lemma merge_vars_succeeds l : forall m, NoDup (dkeys l) -> same_dims (m_vars m) l ->
  (forall n a, dget n (m_vars m) = Some a -> In n (dkeys l) -> regular n a) ->
  exists vs, mfor l merge_var m = (with_vars vs m, Ok tt).
Proof.
  induction l as [|[k b] l IH]; intros m ND HS HR.
  - exists (m_vars m). destruct m; reflexivity.
  - inversion ND as [|? ? NI ND']; subst. cbn [mfor]. unfold bind.
    assert (H1 : exists c, merge_var (k, b) m = (with_vars (dset k c (m_vars m)) m, Ok tt)).
    { destruct (dget k (m_vars m)) as [a|] eqn:Ek.
      - assert (L : length (a_shape a) = length (a_shape b)) by (apply (HS k a b); simpl; auto).
        destruct (HR k a Ek (or_introl eq_refl)) as (R1 & R2 & R3).
        rewrite (merge_var_shared k b a) by auto.
        destruct (array_create_ok k (elementwise_max (a_shape b) (a_shape a)) (vt_of (m_mtype m))) as [c ->]; eauto.
        + destruct (a_shape a), (a_shape b); simpl in *; try discriminate; congruence.
        + apply max_pos; auto.
      - exists b. unfold merge_var. cbn [fst snd]. rewrite Ek. reflexivity. }
    destruct H1 as [c E1]. rewrite E1.
    destruct (IH (with_vars (dset k c (m_vars m)) m) ND') as [vs Evs].
    + intros n' a' b' Ha' Hb'. cbn [m_vars with_vars] in Ha'.
      assert (n' <> k). { intros ->. apply NI. apply (in_map fst) in Hb'. auto. }
      rewrite dget_dset_other in Ha' by auto. apply (HS n' a' b'); simpl; auto.
    + intros n' a' Ha' Hn'. cbn [m_vars with_vars] in Ha'.
      assert (n' <> k) by (intros ->; contradiction).
      rewrite dget_dset_other in Ha' by auto. apply HR; auto. simpl; auto.
    + exists vs. rewrite Evs. reflexivity.
Qed.

Lemma merge_same_succeeds ev k o m : aligned m -> aligned o ->
  NoDup (dkeys (m_vars m)) -> NoDup (dkeys (m_vars o)) -> same_dims (m_vars m) (m_vars o) ->
  (forall n a, dget n (m_vars m) = Some a -> In n (dkeys (m_vars o)) -> regular n a) ->
  (forall l, In l (dkeys (m_constrs m)) -> ~ In l (dkeys (m_constrs o))) ->
  exists m', merge_same ev k o m = (m', Ok tt).
Proof.
  intros AM AO N1 N2 HS HR HC. unfold merge_same.
  cbv [bind get guard]. rewrite (proj2 (dims_ok_spec m o N1 N2) HS). cbv [ret].
  destruct (merge_vars_succeeds (m_vars o) m N2 HS HR) as [vs ->].
  rewrite merge_cols_vars.
  change (merge_attrs_list (with_vars vs m) o) with (merge_attrs_list m o).
  destruct (merge_cols_some m o (merge_attrs_list m o) AM AO) as [cols ->].
  { intros a Ha. apply merge_attrs_in; auto. }
  cbv [modify]. cbn [m_constrs with_vars].
  replace (existsb (fun l => dmem l (m_constrs o)) (dkeys (m_constrs m))) with false.
  - cbv [negb ret]. eauto.
  - symmetry. destruct (existsb _ _) eqn:E; auto. apply existsb_exists in E. destruct E as (l & Hl & E).
    apply dmem_in in E. exfalso. apply (HC l Hl E).
Qed.

(** A rejected merge of same-type models with regular shared arrays and
    disjoint constraint labels changes nothing. *)
Lemma merge_same_err ev k o m m' e : merge_same ev k o m = (m', Err e) ->
  aligned m -> aligned o -> NoDup (dkeys (m_vars m)) -> NoDup (dkeys (m_vars o)) ->
  (forall n a, dget n (m_vars m) = Some a -> In n (dkeys (m_vars o)) -> regular n a) ->
  (forall l, In l (dkeys (m_constrs m)) -> ~ In l (dkeys (m_constrs o))) ->
  m' = m /\ e = ValueError /\ ~ same_dims (m_vars m) (m_vars o).
Proof.
  intros E AM AO N1 N2 HR HC. destruct (dims_ok m o) eqn:ED.
  - destruct (merge_same_succeeds ev k o m) as [m2 E2]; auto.
    + apply dims_ok_spec; auto.
    + congruence.
  - unfold merge_same in E. cbv [bind get guard raise ret] in E. rewrite ED in E. inversion E; subst.
    repeat split; auto. intros HS. apply dims_ok_spec in HS; auto. congruence.
Qed.
