(** * AlikeProofs: operations on two models with the same content. *)
From Verif Require Import PyBase PyLemmas Constraint LogicalModel Spec LogicalProofs EnergyProofs ConvertProofs ConstraintProofs MergeProofs PhysicalProofs
  ToPhysicalProofs History PropsConvert PropsMerge EqualitySpec ModelEq ProperProofs PropsEquality.
Open Scope list_scope.

Definition sim (m m' : lmodel) : Prop := reg m /\ reg m' /\ same_content m m'.
Lemma sim_sym m m' : sim m m' -> sim m' m.
Proof. intros (A & B & C). split; [auto|]. split; auto. apply content_sym; auto. Qed.
(** When [f] returns on one of two models with the same content, [g] returns the
    same on the other, and they still have the same content. *)
Definition alike {A} (f g : LM A) : Prop :=
  forall m m' n a, sim m m' -> f m = (n, Ok a) -> exists n', g m' = (n', Ok a) /\ sim n n'.

Lemma al_ret {A} (a : A) : alike (ret a) (ret a).
Proof. intros m m' n b H E. inversion E; subst. exists m'. auto. Qed.
Lemma al_raise {A} e (g : LM A) : alike (raise e) g.
Proof. intros m m' n b H E. discriminate. Qed.
Lemma al_lift {A} (x : res A) : alike (lift x) (lift x).
Proof. intros m m' n b H E. inversion E; subst. exists m'. auto. Qed.
Lemma al_guard b e : alike (guard b e) (guard b e).
Proof. destruct b; [apply al_ret|apply al_raise]. Qed.
Lemma al_bind {A B} (f f' : LM A) (g g' : A -> LM B) : alike f f' -> (forall a, alike (g a) (g' a)) -> alike (bind f g) (bind f' g').
Proof.
  intros HF HG m m' n b H E. apply bind_ok in E. destruct E as (m1 & a & E1 & E). destruct (HF _ _ _ _ H E1) as (m1' & E1' & H1).
  destruct (HG a _ _ _ _ H1 E) as (n' & E' & H'). exists n'. split; auto. unfold bind. rewrite E1'. auto.
Qed.
Lemma al_get {B} (g g' : lmodel -> LM B) : (forall m m', sim m m' -> alike (g m) (g' m')) -> alike (bind get g) (bind get g').
Proof. intros HG m m' n b H E. apply (HG m m' H m m' n b H E). Qed.
Lemma al_mfor {A} (l : list A) f g : (forall a, alike (f a) (g a)) -> alike (mfor l f) (mfor l g).
Proof. intros H. induction l as [|a l IH]; simpl; [apply al_ret|]. apply al_bind; auto. Qed.
Lemma al_modify f g : (forall m m', sim m m' -> sim (f m) (g m')) -> alike (modify f) (modify g).
Proof. intros H m m' n b HS E. inversion E; subst. exists (g m'). split; auto. Qed.
Lemma al_opt {A} (o : option A) f g : (forall a, alike (f a) (g a)) -> alike (opt_do o f) (opt_do o g).
Proof. intros H. destruct o; [apply H|apply al_ret]. Qed.

(** Changing one field of both. *)
Lemma sim_rows l m m' : sim m m' -> sim (with_rows l m) (with_rows l m').
Proof. intros (A & B & []). split; [auto|]. split; [auto|]. constructor; auto. Qed.
Lemma sim_len l m m' : sim m m' -> sim (with_len l m) (with_len l m').
Proof. intros (A & B & []). split; [auto|]. split; [auto|]. constructor; auto. Qed.
Lemma sim_offset l m m' : sim m m' -> sim (with_offset l m) (with_offset l m').
Proof. intros (A & B & []). split; [auto|]. split; [auto|]. constructor; auto. Qed.
Lemma sim_mtype l m m' : sim m m' -> sim (with_mtype l m) (with_mtype l m').
Proof. intros (A & B & []). split; [auto|]. split; [auto|]. constructor; auto. Qed.
Lemma sim_vars d d' m m' : NoDup (dkeys d) -> NoDup (dkeys d') -> match_dict eq d d' -> sim m m' -> sim (with_vars d m) (with_vars d' m').
Proof. intros N N' HM (A & B & []). split; [apply reg_vars; auto|]. split; [apply reg_vars; auto|]. constructor; auto. Qed.
Lemma sim_deleted d d' m m' : NoDup (dkeys d) -> NoDup (dkeys d') -> match_dict eq d d' -> sim m m' -> sim (with_deleted d m) (with_deleted d' m').
Proof. intros N N' HM (A & B & []). split; [apply reg_deleted; auto|]. split; [apply reg_deleted; auto|]. constructor; auto. Qed.
Lemma sim_fixed d d' m m' : NoDup (dkeys d) -> NoDup (dkeys d') -> match_dict eq d d' -> sim m m' -> sim (with_fixed d m) (with_fixed d' m').
Proof. intros N N' HM (A & B & []). split; [apply reg_fixed; auto|]. split; [apply reg_fixed; auto|]. constructor; auto. Qed.
Lemma sim_constrs d d' m m' : NoDup (dkeys d) -> NoDup (dkeys d') -> match_dict same_constr d d' -> sim m m' -> sim (with_constrs d m) (with_constrs d' m').
Proof. intros N N' HM (A & B & []). split; [apply reg_constrs; auto|]. split; [apply reg_constrs; auto|]. constructor; auto. Qed.
Lemma match_set {V} (R : V -> V -> Prop) (k : string) v v' d d' : R v v' -> match_dict R d d' -> match_dict R (dset k v d) (dset k v' d').
Proof.
  intros HR HM k'. destruct (string_dec k' k) as [->|NE]; [rewrite !dget_dset_same; auto|rewrite !dget_dset_other by auto; apply HM].
Qed.
Lemma sim_col k c m m' : sim m m' -> sim (with_cols (dset k c (m_cols m)) m) (with_cols (dset k c (m_cols m')) m').
Proof. intros (A & B & []). split; [apply reg_col; auto|]. split; [apply reg_col; auto|]. constructor; auto. apply match_set; auto. Qed.
Lemma match_get {V} (d d' : dict string V) : match_dict eq d d' -> forall k, dget k d = dget k d'.
Proof. intros HM k. specialize (HM k). destruct (dget k d), (dget k d'); congruence || contradiction. Qed.
Lemma match_mem {V} (R : V -> V -> Prop) (d d' : dict string V) : match_dict R d d' -> forall k, dmem k d = dmem k d'.
Proof. intros HM k. specialize (HM k). unfold dmem. destruct (dget k d), (dget k d'); auto; contradiction. Qed.
Lemma match_in {V} (R : V -> V -> Prop) (d d' : dict string V) : match_dict R d d' -> forall k, In k (dkeys d) <-> In k (dkeys d').
Proof. intros HM k. rewrite <- !dmem_in, (match_mem R d d' HM). tauto. Qed.

Lemma sim_cols m m' k : sim m m' -> dget k (m_cols m) = dget k (m_cols m').
Proof. intros (_ & _ & []). apply match_get; auto. Qed.
Lemma sim_dmem m m' k : sim m m' -> dmem k (m_cols m) = dmem k (m_cols m').
Proof. intros (_ & _ & []). apply (match_mem eq); auto. Qed.
Lemma sim_hn m m' k : sim m m' -> has_name m k = has_name m' k.
Proof. intros (_ & _ & []). unfold has_name, names. rewrite sc_rows. auto. Qed.
Lemma sim_ni m m' k : sim m m' -> name_index m k = name_index m' k.
Proof. intros (_ & _ & []). unfold name_index, names. rewrite sc_rows. auto. Qed.
Lemma sim_rm m m' k : sim m m' -> is_removed m k = is_removed m' k.
Proof. intros H. unfold is_removed. rewrite (sim_ni _ _ _ H). destruct H as (_ & _ & []). rewrite sc_rows. auto. Qed.

Lemma al_expand : alike expand_attrs expand_attrs.
Proof.
  intros m m' n a HS E. unfold expand_attrs in *. assert (EA : m_attrs m = m_attrs m') by apply HS. rewrite <- EA. revert m m' n a HS E EA.
  assert (HA : forall l, alike (mfor l (fun a m => match dget a (m_cols m) with None => (m, Err KeyError) | Some col => (with_cols (dset a (col ++ [ANan]) (m_cols m)) m, Ok tt) end))
     (mfor l (fun a m => match dget a (m_cols m) with None => (m, Err KeyError) | Some col => (with_cols (dset a (col ++ [ANan]) (m_cols m)) m, Ok tt) end))).
  { intros l. apply al_mfor. intros a m m' n b HS E. rewrite (sim_cols _ _ a HS) in E. destruct (dget a (m_cols m')); inversion E; subst.
    eexists; split; [reflexivity|]. apply sim_col; auto. }
  intros m m' n a HS E _. eapply HA; eauto.
Qed.
Lemma al_new_attr kv : alike (set_new_attr kv) (set_new_attr kv).
Proof.
  intros m m' n a HS E. unfold set_new_attr in *. cbv zeta in *. set (k := attr_key (fst kv)) in *.
  set (m1 := if dmem k (m_cols m) then m else _) in E. set (m1' := if dmem k (m_cols m') then m' else _).
  assert (H1 : sim m1 m1').
  { unfold m1, m1'. rewrite <- (sim_dmem _ _ k HS). destruct (dmem k (m_cols m)) eqn:D; auto. assert (D' := D). rewrite (sim_dmem _ _ k HS) in D'.
    apply dmem_nin in D, D'. destruct HS as (RA & RB & []). rewrite <- sc_len.
    assert (HR : forall m, reg m -> ~ In k (dkeys (m_cols m)) -> forall c, reg (with_attrs (m_attrs m ++ [k]) (with_cols (dset k c (m_cols m)) m))).
    { intros m0 ((N1 & N2 & N3 & N4 & N5 & N6) & HI) D0 c. split; [|intros x Hx; simpl in Hx; apply in_app_or in Hx; simpl; apply dset_in_iff; destruct Hx as [Hx|[<-|[]]]; auto].
      split; [auto|]. split; [auto|]. split; [auto|]. split; [auto|]. split; [simpl; apply dset_nodup; auto|]. simpl. apply NoDup_snoc. split; auto. }
    split; [apply HR; auto|]. split; [apply HR; auto|]. constructor; simpl; auto; [apply match_set; auto|congruence]. }
  rewrite (sim_cols _ _ k H1) in E. destruct (dget k (m_cols m1')) as [c|]; [|discriminate]. destruct (set_last (snd kv) c); inversion E; subst.
  eexists; split; [reflexivity|]. apply sim_col; auto.
Qed.
Ltac alL := apply al_bind; [apply al_lift|]; intros ?.
Ltac alG := apply al_bind; [apply al_guard|]; intros _.
Lemma al_add ev t n co sc a ts : alike (add_interaction ev t n co sc a ts) (add_interaction ev t n co sc a ts).
Proof.
  unfold add_interaction. alG. cbv zeta. do 6 alL. apply al_get. intros m0 m0' HS. rewrite (sim_hn _ _ _ HS). alG.
  apply al_bind. { apply al_modify. intros m m' H. replace (m_rows m') with (m_rows m) by apply H. apply sim_rows; auto. }
  intros _. apply al_bind; [apply al_expand|]. intros _. apply al_bind; [apply al_mfor; apply al_new_attr|]. intros _.
  apply al_modify. intros m m' H. replace (m_len m') with (m_len m) by apply H. apply sim_len; auto.
Qed.
Lemma al_upd_row i f : alike (upd_row i f) (upd_row i f).
Proof. apply al_modify. intros m m' H. replace (m_rows m') with (m_rows m) by apply H. apply sim_rows; auto. Qed.
Lemma al_update_attr i kv : alike (update_attr i kv) (update_attr i kv).
Proof.
  intros m m' n a HS E. unfold update_attr in *. cbv zeta in *. set (k := attr_key (fst kv)) in *.
  set (m1 := if dmem k (m_cols m) then m else _) in E. set (m1' := if dmem k (m_cols m') then m' else _).
  assert (H1 : sim m1 m1').
  { unfold m1, m1'. rewrite <- (sim_dmem _ _ k HS). destruct (dmem k (m_cols m)); auto.
    replace (m_len m') with (m_len m) by apply HS. apply sim_col; auto. }
  rewrite (sim_cols _ _ k H1) in E. destruct (dget k (m_cols m1')) as [c|]; [|discriminate]. destruct (set_nth i (snd kv) c); inversion E; subst.
  eexists; split; [reflexivity|]. apply sim_col; auto.
Qed.
Lemma al_update_at nm c s a q : alike (update_at nm c s a q) (update_at nm c s a q).
Proof.
  unfold update_at. apply al_get. intros m m' HS. rewrite (sim_ni _ _ _ HS). alL.
  apply al_bind; [apply al_opt; intros; apply al_upd_row|]. intros _. apply al_bind; [apply al_opt; intros; apply al_upd_row|]. intros _.
  apply al_bind; [apply al_opt; intros; apply al_mfor, al_update_attr|]. intros _. apply al_bind; [apply al_upd_row|]. intros _. apply al_upd_row.
Qed.
Lemma al_update ev t n co sc a ts : alike (update_interaction ev t n co sc a ts) (update_interaction ev t n co sc a ts).
Proof.
  unfold update_interaction. do 2 alG. do 5 alL. apply al_get. intros m0 m0' HS. destruct (n_truthy n).
  - destruct n; try apply al_raise. rewrite (sim_hn _ _ _ HS), (sim_rm _ _ _ HS). alG. alL. alG. apply al_update_at.
  - destruct a4 as [inf|]; [|apply al_raise]. rewrite (sim_hn _ _ _ HS), (sim_rm _ _ _ HS). destruct (has_name m0' (in_name inf)); [|apply al_add].
    alL. alG. apply al_update_at.
Qed.
Lemma al_internal t n : alike (internal_name t n) (internal_name t n).
Proof.
  unfold internal_name. do 2 alG. alL. apply al_get. intros m0 m0' HS. destruct (n_truthy n).
  - destruct n; try apply al_raise. rewrite (sim_hn _ _ _ HS). alG. apply al_ret.
  - destruct a; [|apply al_raise]. rewrite (sim_hn _ _ _ HS). alG. apply al_ret.
Qed.
Lemma al_remove t n : alike (remove_interaction t n) (remove_interaction t n).
Proof.
  unfold remove_interaction. apply al_bind; [apply al_internal|]. intros nm. apply al_get. intros m0 m0' HS. rewrite (sim_ni _ _ _ HS).
  alL. apply al_bind; [apply al_upd_row|]. intros _. apply al_upd_row.
Qed.
Lemma df_iff m : NoDup (dkeys (m_cols m)) -> (df_ok m = true <-> forall k c, dget k (m_cols m) = Some c -> length c = length (m_rows m)).
Proof.
  intros N. unfold df_ok. rewrite forallb_forall. split.
  - intros H k c E. apply dget_in in E. apply H in E. apply Nat.eqb_eq in E. auto.
  - intros H [k c] HI. apply Nat.eqb_eq. apply (H k). apply in_dget; auto.
Qed.
Lemma sim_df m m' : sim m m' -> df_ok m = df_ok m'.
Proof.
  intros H. assert (HI : df_ok m = true <-> df_ok m' = true); [|destruct (df_ok m), (df_ok m'); tauto || (destruct HI; symmetry; auto)].
  destruct H as (A & B & []). rewrite !df_iff by (apply A || apply B). rewrite sc_rows.
  split; intros HH k c E; apply (HH k); [rewrite (match_get _ _ sc_cols)|rewrite <- (match_get _ _ sc_cols)]; auto.
Qed.
Lemma al_dataframe : alike dataframe dataframe.
Proof.
  intros m m' n a HS E. unfold dataframe in *. rewrite (sim_df _ _ HS) in E. destruct (df_ok m'); inversion E; subst.
  exists m'. split; auto. f_equal. f_equal. symmetry. apply HS.
Qed.
Lemma al_select l : alike (select_by_variable l) (select_by_variable l).
Proof. apply al_bind; [apply al_dataframe|]. intros; apply al_ret. Qed.

(** The loop of delete_variable over the constraints. *)
Definition removed_from (v : var) (c : constr) : constr := fst (c_remove_variable (VA_one v) c).
Definition removes (v : var) (c : constr) : Prop := snd (c_remove_variable (VA_one v) c) = Ok tt.
Lemma del_loop v ks : forall m, NoDup ks -> incl ks (dkeys (m_constrs m)) ->
  (forall n, mfor ks (fun k => constr_remove k v) m = (n, Ok tt) ->
     exists d, n = with_constrs d m /\ (NoDup (dkeys (m_constrs m)) -> NoDup (dkeys d)) /\
       (forall k, dget k d = if mem k ks then option_map (removed_from v) (dget k (m_constrs m)) else dget k (m_constrs m)) /\
       (forall k c, In k ks -> dget k (m_constrs m) = Some c -> removes v c)) /\
  ((forall k c, In k ks -> dget k (m_constrs m) = Some c -> removes v c) -> exists n, mfor ks (fun k => constr_remove k v) m = (n, Ok tt)).
Proof.
  induction ks as [|k ks IH]; intros m N HI.
  - split; [|intros _; exists m; reflexivity]. intros n E. inversion E; subst. exists (m_constrs n). split; [destruct n; reflexivity|].
    split; [auto|]. split; [reflexivity|]. intros k c [].
  - inversion N as [|? ? N1 N2]; subst. cbn [mfor]. unfold bind, constr_remove at 1 3.
    destruct (proj2 (dget_some_in k (m_constrs m)) (HI k (or_introl eq_refl))) as [c EC]. rewrite EC.
    destruct (c_remove_variable (VA_one v) c) as [c' r] eqn:ER. set (m1 := with_constrs (dset k c' (m_constrs m)) m).
    assert (HI1 : incl ks (dkeys (m_constrs m1))) by (intros x Hx; simpl; apply dset_in_iff; right; apply HI; simpl; auto).
    destruct (IH m1 N2 HI1) as [IH1 IH2].
    assert (HO : forall x, In x ks -> dget x (m_constrs m1) = dget x (m_constrs m)) by (intros x Hx; simpl; apply dget_dset_other; congruence).
    split.
    + intros n E. destruct r as [[]|e]; [|discriminate]. destruct (IH1 n E) as (d & -> & ND & HD & HR). exists d. split; [reflexivity|].
      split; [intros X; apply ND; simpl; apply dset_nodup; auto|]. split.
      * intros x. rewrite (HD x). destruct (string_dec x k) as [->|NE].
        -- replace (mem k ks) with false. replace (mem k (k :: ks)) with true by (symmetry; apply mem_in; simpl; auto). simpl. rewrite dget_dset_same, EC. cbn [option_map orb]. unfold removed_from. rewrite ER. reflexivity.
           symmetry. destruct (mem k ks) eqn:EM; auto. apply mem_in in EM. contradiction.
        -- replace (mem x (k :: ks)) with (mem x ks). simpl. rewrite dget_dset_other; auto. simpl. destruct (String.eqb x k) eqn:EX; auto. apply String.eqb_eq in EX. contradiction.
      * intros x cx [<-|Hx] Ex; [|apply (HR x); auto; rewrite HO; auto]. rewrite EC in Ex. inversion Ex; subst. unfold removes. rewrite ER. reflexivity.
    + intros HR. assert (H0 := HR k c (or_introl eq_refl) EC). unfold removes in H0. rewrite ER in H0. simpl in H0. subst r.
      apply IH2. intros x cx Hx Ex. apply (HR x); [simpl; auto|]. rewrite <- HO; auto.
Qed.
Lemma all_ext {A} (f g : A -> bool) l : (forall a, f a = g a) -> forallb f l = forallb g l.
Proof. intros H. induction l as [|a l IH]; simpl; auto. rewrite H, IH. auto. Qed.
Lemma mem_same a b v : same_set a b -> mem v a = mem v b.
Proof.
  intros H. destruct (mem v b) eqn:E; [apply mem_in, H, mem_in; auto|]. destruct (mem v a) eqn:E'; auto. apply mem_in, H, mem_in in E'. congruence.
Qed.
Lemma diff_same a b s : same_set a b -> same_set (set_diff a s) (set_diff b s).
Proof. intros H v. unfold set_diff. rewrite !filter_In, (H v). tauto. Qed.
Lemma removes_same v c c' : same_constr c c' -> (removes v c <-> removes v c') /\ same_constr (removed_from v c) (removed_from v c').
Proof.
  unfold removes, removed_from. destruct c as [vs0 n0 l0 s0|vs0 l0 s0|x0 y0 l0 s0], c' as [vs1 n1 l1 s1|vs1 l1 s1|x1 y1 l1 s1]; cbn [same_constr]; try contradiction; intros H; cbn [c_remove_variable].
  - destruct H as (HS & -> & -> & ->). destruct (check_variables_and_to_set (VA_one v)) as [s|e]; [|cbn [fst snd same_constr]; tauto].
    replace (forallb (fun w => mem w vs1) s) with (forallb (fun w => mem w vs0) s) by (apply all_ext; intros; apply mem_same; auto).
    destruct (forallb _ _); cbn [fst snd same_constr]; split; try tauto. split; auto. apply diff_same; auto.
  - destruct H as (HS & -> & ->). destruct (check_variables_and_to_set (VA_one v)) as [s|e]; [|cbn [fst snd same_constr]; tauto].
    replace (forallb (fun w => mem w vs1) s) with (forallb (fun w => mem w vs0) s) by (apply all_ext; intros; apply mem_same; auto).
    destruct (forallb _ _); cbn [fst snd same_constr]; split; try tauto. split; auto. apply diff_same; auto.
  - cbn [fst snd same_constr]. tauto.
Qed.
Lemma al_del_loop v m0 m0' : sim m0 m0' -> forall n a, mfor (dkeys (m_constrs m0)) (fun k => constr_remove k v) m0 = (n, Ok a) ->
  exists n', mfor (dkeys (m_constrs m0')) (fun k => constr_remove k v) m0' = (n', Ok a) /\ sim n n'.
Proof.
  intros HS n [] E. assert (N : NoDup (dkeys (m_constrs m0))) by apply HS. assert (N' : NoDup (dkeys (m_constrs m0'))) by apply HS.
  destruct (del_loop v _ m0 N (incl_refl _)) as [H1 _]. destruct (del_loop v _ m0' N' (incl_refl _)) as [H1' H2'].
  destruct (H1 n E) as (d & -> & ND & HD & HR). assert (HC : match_dict same_constr (m_constrs m0) (m_constrs m0')) by apply HS.
  destruct H2' as [n' E'].
  { intros k c HI EC. specialize (HC k). rewrite EC in HC. destruct (dget k (m_constrs m0)) as [c0|] eqn:E0; [|contradiction].
    apply (removes_same v) in HC. apply (proj1 HC). apply (HR k); auto. apply dget_some_in. eauto. }
  exists n'. split; auto. destruct (H1' n' E') as (d' & -> & ND' & HD' & _). apply sim_constrs; auto.
  intros k. rewrite HD, HD'. assert (HK := match_in _ _ _ HC k). specialize (HC k).
  destruct (mem k (dkeys (m_constrs m0))) eqn:EM, (mem k (dkeys (m_constrs m0'))) eqn:EM'; auto.
  - destruct (dget k (m_constrs m0)), (dget k (m_constrs m0')); simpl; auto; try contradiction. apply (removes_same v) in HC. apply HC.
  - apply mem_in, HK, mem_in in EM. congruence.
  - apply mem_in, HK, mem_in in EM'. congruence.
Qed.
Lemma al_delete t : alike (delete_variable t) (delete_variable t).
Proof.
  apply al_bind; [apply al_guard|]. intros _. destruct t; try apply al_raise.
  apply al_bind. { apply al_modify. intros m m' HS. apply sim_deleted; auto; try (apply dset_nodup; apply HS). apply match_set; auto. apply HS. }
  intros _ m m' n a HS E. unfold bind at 1, get in E. unfold bind at 1, get. apply bind_ok in E. destruct E as (m1 & u & E1 & E).
  destruct (al_del_loop v _ _ HS _ _ E1) as (m1' & E1' & HS1). unfold bind at 1. rewrite E1'.
  revert E. apply (al_bind (select_by_variable (v_label v)) (select_by_variable (v_label v))); [apply al_select| |auto].
  intros sel. apply al_mfor. intros; apply al_remove.
Qed.
Lemma al_fix ev t v : alike (fix_variable ev t v) (fix_variable ev t v).
Proof.
  apply al_bind; [apply al_guard|]. intros _. destruct t; try apply al_raise.
  apply al_get. intros m m' HS. replace (m_mtype m') with (m_mtype m) by apply HS. alG.
  apply al_bind. { apply al_modify. intros m0 m0' H. apply sim_fixed; auto; try (apply dset_nodup; apply H). apply match_set; auto. apply H. }
  intros _. apply al_bind; [apply al_select|]. intros sel. destruct (Qc_eqb v 0); apply al_mfor; intros n; [apply al_remove|].
  apply al_get. intros m1 m1' H1. rewrite (sim_ni _ _ _ H1). alL. replace (m_rows m1') with (m_rows m1) by apply H1.
  destruct (nth_error (m_rows m1) a) as [r|]; [|apply al_raise]. destruct (r_key r).
  - apply al_bind. { apply al_modify. intros m0 m0' H. replace (m_offset m0') with (m_offset m0) by apply H. apply sim_offset; auto. }
    intros; apply al_remove.
  - alL. apply al_bind; [apply al_add|]. intros; apply al_remove.
Qed.
Lemma sim_get m m' k : sim m m' -> dget k (m_vars m) = dget k (m_vars m').
Proof. intros H. apply match_get, H. Qed.
Lemma sim_var k a m m' : sim m m' -> sim (with_vars (dset k a (m_vars m)) m) (with_vars (dset k a (m_vars m')) m').
Proof. intros H. apply sim_vars; auto; try (apply dset_nodup; apply H). apply match_set; auto. apply H. Qed.
Lemma al_variables n sh : alike (variables n sh) (variables n sh).
Proof.
  intros m m' m1 a HS E. unfold variables in *. replace (m_mtype m') with (m_mtype m) by apply HS. destruct n as [nm|ar|].
  - destruct (check_shape false sh); [|discriminate]. destruct (array_create _ _ _); inversion E; subst. eexists; split; [reflexivity|]. apply sim_var; auto.
  - destruct (a_bits ar) as [|v]; [discriminate|]. destruct (negb _); [discriminate|]. destruct (before_char _ _); inversion E; subst.
    eexists; split; [reflexivity|]. apply sim_var; auto.
  - discriminate.
Qed.
Lemma al_append n sh : alike (append n sh) (append n sh).
Proof.
  intros m m' m1 a HS E. unfold append in *. destruct n as [nm|ar|]; try discriminate. destruct (check_shape true sh); [|discriminate].
  rewrite (sim_get _ _ nm HS) in E. replace (m_mtype m') with (m_mtype m) by apply HS. destruct (dget nm (m_vars m')); [|eapply al_variables; eauto].
  destruct (array_create _ _ _); inversion E; subst. eexists; split; [reflexivity|]. apply sim_var; auto.
Qed.
Lemma f2_get {V} (R : string -> V -> V -> Prop) (l l' : dict string V) :
  Forall2 (fun x y => fst y = fst x /\ R (fst x) (snd x) (snd y)) l l' ->
  forall k, match dget k l, dget k l' with Some v, Some w => R k v w | None, None => True | _, _ => False end.
Proof.
  induction 1 as [|[k v] [k' v'] l l' [H1 H2] HF IH]; intros x; simpl; auto. cbn [fst snd] in *. subst k'.
  destruct (String.eqb x k) eqn:E; [apply String.eqb_eq in E; subst; auto|apply IH].
Qed.
Lemma recreate_match vt d d' vs : NoDup (dkeys d') -> match_dict eq d d' -> recreate vt [] d = (vs, Ok tt) ->
  exists vs', recreate vt [] d' = (vs', Ok tt) /\ match_dict eq vs vs'.
Proof.
  intros N' HM E. apply recreate_spec in E. destruct E as (new & EV & F). cbn [app] in EV. subst new.
  pose proof (f2_get (fun n a a' => array_create n (a_shape a) vt = Ok a') _ _ F) as HG.
  destruct (recreate_succeeds vt d') with (done := @nil (string * array)) as [vs' E'].
  { intros n a HI. apply in_dget in HI; auto. specialize (HG n). rewrite (match_get _ _ HM), HI in HG. destruct (dget n vs); [eauto|contradiction]. }
  exists vs'. split; auto. apply recreate_spec in E'. destruct E' as (new & EV & F'). cbn [app] in EV. subst new.
  pose proof (f2_get (fun n a a' => array_create n (a_shape a) vt = Ok a') _ _ F') as HG'.
  intros k. specialize (HG k). specialize (HG' k). rewrite (match_get _ _ HM) in HG. destruct (dget k d'), (dget k vs), (dget k vs'); auto; try contradiction; congruence.
Qed.
Lemma al_retype : alike update_variables_type update_variables_type.
Proof.
  intros m m' n a HS E. unfold update_variables_type in *. replace (m_mtype m') with (m_mtype m) by apply HS.
  destruct (recreate _ [] (m_vars m)) as [vs [[]|e]] eqn:ER; [|discriminate].
  assert (N : NoDup (dkeys (m_vars m))) by apply HS. assert (N' : NoDup (dkeys (m_vars m'))) by apply HS.
  destruct (recreate_match (vt_of (m_mtype m)) (m_vars m) (m_vars m') vs N' (sc_vars _ _ (proj2 (proj2 HS))) ER) as (vs' & ER' & HM). rewrite ER'. cbv zeta in *.
  assert (H1 : sim (with_vars vs m) (with_vars vs' m')).
  { apply sim_vars; auto; [rewrite (recreate_keys _ _ _ _ _ ER)|rewrite (recreate_keys _ _ _ _ _ ER')]; auto. }
  rewrite <- (sim_df _ _ H1). destruct (df_ok (with_vars vs m)); inversion E; subst. eexists; split; [reflexivity|].
  cbn [m_rows m_mtype with_vars]. replace (m_mtype m') with (m_mtype m) by apply HS. replace (m_rows m') with (m_rows m) by apply HS. apply sim_rows; auto.
Qed.
Lemma al_offset f : alike (modify (fun m => with_offset (cadd (m_offset m) f) m)) (modify (fun m => with_offset (cadd (m_offset m) f) m)).
Proof. apply al_modify. intros m0 m0' H. replace (m_offset m0') with (m_offset m0) by apply H. apply sim_offset; auto. Qed.
Lemma al_convert ev t ha hb ja jb jc : alike (convert ev t ha hb ja jb jc) (convert ev t ha hb ja jb jc).
Proof.
  unfold convert. apply al_get. intros m m' HS. replace (m_mtype m') with (m_mtype m) by apply HS. destruct (mtype_eqb _ _); [apply al_ret|].
  apply al_bind; [apply al_modify; intros; apply sim_mtype; auto|]. intros _. apply al_bind; [apply al_retype|]. intros _. apply al_bind; [apply al_dataframe|]. intros h.
  apply al_bind. { apply al_mfor. intros r. unfold conv_h. apply al_bind; [apply al_update|]. intros _. apply al_offset. }
  intros _. apply al_bind; [apply al_dataframe|]. intros j. generalize 0. induction (filter body2_active j) as [|r l IH]; intros k; cbn [conv_Js]; [apply al_ret|].
  apply al_bind; [|intros _; apply IH]. unfold conv_J. apply al_bind; [apply al_update|]. intros _.
  destruct (r_inter r), (r_key r); try apply al_raise. do 2 (apply al_bind; [apply al_add|]; intros _). apply al_offset.
Qed.
Lemma al_convert_mtype ev : alike (convert_mtype ev) (convert_mtype ev).
Proof.
  unfold convert_mtype. apply al_get. intros m m' HS. replace (m_mtype m') with (m_mtype m) by apply HS.
  destruct (m_mtype m); unfold to_ising, to_qubo; apply al_convert.
Qed.
Lemma al_add_constraint c : alike (add_constraint c) (add_constraint c).
Proof.
  destruct c; [|apply al_raise]. apply al_modify. intros m m' HS. apply sim_constrs; auto; try (apply dset_nodup; apply HS).
  apply match_set; [apply same_constr_refl|apply HS].
Qed.
Lemma ddel_get {V} (k x : string) (d : dict string V) : NoDup (dkeys d) -> dget x (ddel k d) = if String.eqb x k then None else dget x d.
Proof.
  induction d as [|[a b] d IH]; intros N; simpl; [destruct (String.eqb x k); auto|]. inversion N as [|? ? N1 N2]; subst.
  destruct (String.eqb k a) eqn:E1.
  - apply String.eqb_eq in E1. subst a. destruct (String.eqb x k) eqn:E2; auto. apply String.eqb_eq in E2. subst x. apply dget_none. auto.
  - simpl. rewrite IH by auto. destruct (String.eqb x a) eqn:E2; auto. apply String.eqb_eq in E2. subst x. rewrite String.eqb_sym, E1. auto.
Qed.
Lemma al_remove_constraint l : alike (remove_constraint l) (remove_constraint l).
Proof.
  intros m m' n a HS E. unfold remove_constraint in *. destruct l as [l|]; [|discriminate]. assert (HC : match_dict same_constr (m_constrs m) (m_constrs m')) by apply HS.
  rewrite <- (match_mem _ _ _ HC). destruct (dmem l (m_constrs m)); inversion E; subst. eexists; split; [reflexivity|].
  assert (N : NoDup (dkeys (m_constrs m))) by apply HS. assert (N' : NoDup (dkeys (m_constrs m'))) by apply HS.
  apply sim_constrs; auto using ddel_nodup. intros k. rewrite !ddel_get by auto. destruct (String.eqb k l); auto. apply HC.
Qed.
Lemma sim_lookup m m' pq k : sim m m' -> pq_lookup m pq k = pq_lookup m' pq k.
Proof. intros H. unfold pq_lookup. destruct (dget k (pq_struct pq)) as [[nm idx]|]; auto. rewrite (sim_get _ _ nm H). auto. Qed.
Lemma al_pyqubo ev pq m m' n pq' u : sim m m' -> from_pyqubo ev m pq = (n, pq', Ok u) -> exists n', from_pyqubo ev m' pq = (n', pq', Ok u) /\ sim n n'.
Proof.
  assert (HL : forall l m m' n l1 u1, sim m m' -> pq_loop ev m pq l = (n, l1, Ok u1) -> exists n', pq_loop ev m' pq l = (n', l1, Ok u1) /\ sim n n').
  { clear. induction l as [|[[k0 k1] c] l IH]; intros m m' n l1 u1 HS E; cbn [pq_loop] in *; [inversion E; subst; eauto|].
    unfold pq_step in *. rewrite <- !(sim_lookup _ _ pq _ HS). destruct (pq_lookup m pq k0) as [t0|]; [|discriminate]. destruct (pq_lookup m pq k1) as [t1|]; [|discriminate].
    cbv zeta in *. match type of E with context [add_interaction ?e ?t ?n ?c ?s ?a ?q m] => destruct (add_interaction e t n c s a q m) as [m1 [u|e1]] eqn:EA; [|discriminate];
      destruct (al_add e t n c s a q _ _ _ _ HS EA) as (m1' & EA' & H1) end.
    rewrite EA'. destruct (pq_loop ev m1 pq l) as [[m2 l2] r2] eqn:E2. inversion E; subst. destruct (IH _ _ _ _ _ H1 E2) as (n' & -> & H2). eauto. }
  intros HS E. unfold from_pyqubo in *. destruct (pq_loop ev m pq (pq_terms pq)) as [[m1 l1] [u1|e]] eqn:E1; [|discriminate].
  destruct (HL _ _ _ _ _ _ HS E1) as (n' & -> & H1). inversion E; subst. eexists; split; [reflexivity|]. apply sim_offset; auto.
Qed.

(** The loop of merge over the other model's arrays. *)
Definition merge_step (t : mtype) (k : string) (cur : option array) (b : array) : res array :=
  match cur with
  | None => Ok b
  | Some a =>
      match check_shape true (ShTuple (map ShInt (elementwise_sub (elementwise_max (a_shape b) (a_shape a)) (a_shape a)))) with
      | Err e => Err e
      | Ok shape => array_create k (elementwise_add (a_shape a) shape) (vt_of t)
      end
  end.
Lemma merge_var_step k b m : merge_var (k, b) m =
  match merge_step (m_mtype m) k (dget k (m_vars m)) b with
  | Ok c => (with_vars (dset k c (m_vars m)) m, Ok tt)
  | Err e => (m, Err e)
  end.
Proof.
  unfold merge_var, merge_step. cbn [fst snd]. destruct (dget k (m_vars m)) as [a|] eqn:E; auto. cbv zeta. unfold append.
  destruct (check_shape true _); auto. rewrite E. destruct (array_create _ _ _); auto.
Qed.
Lemma merge_loop l : forall m, NoDup (dkeys l) ->
  (forall n, mfor l merge_var m = (n, Ok tt) ->
     exists d, n = with_vars d m /\ (NoDup (dkeys (m_vars m)) -> NoDup (dkeys d)) /\
       forall k, match dget k l with
                 | None => dget k d = dget k (m_vars m)
                 | Some b => exists c, merge_step (m_mtype m) k (dget k (m_vars m)) b = Ok c /\ dget k d = Some c
                 end) /\
  ((forall k b, dget k l = Some b -> exists c, merge_step (m_mtype m) k (dget k (m_vars m)) b = Ok c) -> exists n, mfor l merge_var m = (n, Ok tt)).
Proof.
  induction l as [|[k b] l IH]; intros m N.
  - split; [|intros _; exists m; reflexivity]. intros n E. inversion E; subst. exists (m_vars n). split; [destruct n; reflexivity|].
    split; auto. simpl. auto.
  - inversion N as [|? ? N1 N2]; subst. cbn [mfor]. unfold bind. rewrite merge_var_step.
    assert (HK : dget k l = None) by (apply dget_none; exact N1). split.
    + intros n E. destruct (merge_step _ k _ b) as [c|e] eqn:ES; [|discriminate].
      destruct (IH (with_vars (dset k c (m_vars m)) m) N2) as [IH1 _]. destruct (IH1 n E) as (d & -> & ND & HD). exists d. split; [reflexivity|].
      split; [intros X; apply ND; simpl; apply dset_nodup; auto|]. intros x. specialize (HD x). cbn [m_vars m_mtype with_vars] in HD.
      destruct (string_dec x k) as [->|NE].
      * rewrite HK, dget_dset_same in HD. simpl. rewrite String.eqb_refl. eauto.
      * rewrite dget_dset_other in HD by auto. simpl. destruct (String.eqb x k) eqn:EX; [apply String.eqb_eq in EX; contradiction|]. auto.
    + intros HR. destruct (HR k b) as [c EC]; [simpl; rewrite String.eqb_refl; auto|]. rewrite EC.
      apply (IH (with_vars (dset k c (m_vars m)) m) N2). intros x b' E. cbn [m_vars m_mtype with_vars].
      assert (NE : x <> k) by (intros ->; congruence). rewrite dget_dset_other by auto. apply HR. simpl.
      destruct (String.eqb x k) eqn:EX; [apply String.eqb_eq in EX; contradiction|]. auto.
Qed.
Lemma al_merge_loop l l' : NoDup (dkeys l) -> NoDup (dkeys l') -> match_dict eq l l' -> alike (mfor l merge_var) (mfor l' merge_var).
Proof.
  intros N N' HM m m' n [] HS E. destruct (merge_loop l m N) as [H1 _]. destruct (merge_loop l' m' N') as [H1' H2'].
  destruct (H1 n E) as (d & -> & ND & HD). assert (HT : m_mtype m' = m_mtype m) by (symmetry; apply HS). rewrite HT in *.
  destruct H2' as [n' E'].
  { intros k b EL. specialize (HD k). rewrite (match_get _ _ HM), EL in HD. destruct HD as (c & HC & _). rewrite (sim_get _ _ _ HS) in HC. eauto. }
  exists n'. split; auto. destruct (H1' n' E') as (d' & -> & ND' & HD'). assert (ND0 := ND). apply sim_vars; auto; [apply ND, HS|apply ND', HS|].
  intros k. specialize (HD k). specialize (HD' k). rewrite (match_get _ _ HM), (sim_get _ _ _ HS) in HD. destruct (dget k l') as [b|].
  - destruct HD as (c & HC & ->), HD' as (c' & HC' & ->). congruence.
  - rewrite HD, HD'. destruct (dget k (m_vars m')); auto.
Qed.
Lemma sim_dims m m' o o' : sim m m' -> sim o o' -> dims_ok m o = dims_ok m' o'.
Proof.
  intros HS HO.
  assert (HI : forall m m' o o', sim m m' -> sim o o' -> dims_ok m o = true -> dims_ok m' o' = true).
  { clear. intros m m' o o' HS HO H. assert (N : NoDup (dkeys (m_vars m))) by apply HS. assert (N' : NoDup (dkeys (m_vars m'))) by apply HS.
    assert (P : NoDup (dkeys (m_vars o))) by apply HO. assert (P' : NoDup (dkeys (m_vars o'))) by apply HO.
    apply dims_ok_spec in H; auto. apply dims_ok_spec; auto. intros n a b Ha Hb. apply (H n).
    - rewrite (sim_get _ _ _ HS). auto.
    - apply dget_in. rewrite (sim_get _ _ _ HO). apply in_dget; auto. }
  destruct (dims_ok m o) eqn:E1, (dims_ok m' o') eqn:E2; auto.
  - rewrite (HI _ _ _ _ HS HO E1) in E2. discriminate.
  - rewrite (HI _ _ _ _ (sim_sym _ _ HS) (sim_sym _ _ HO) E2) in E1. discriminate.
Qed.
Lemma sim_merge_col m m' o o' a : sim m m' -> sim o o' -> merge_col m o a = merge_col m' o' a.
Proof.
  intros HS HO. unfold merge_col. replace (m_attrs m') with (m_attrs m) by apply HS. rewrite (sim_cols _ _ a HS), (sim_cols _ _ a HO).
  replace (m_len m') with (m_len m) by apply HS. replace (m_len o') with (m_len o) by apply HO. reflexivity.
Qed.
Lemma sim_merge_cols m m' o o' l : sim m m' -> sim o o' -> merge_cols m o l = merge_cols m' o' l.
Proof. intros HS HO. induction l as [|a l IH]; simpl; auto. rewrite (sim_merge_col _ _ _ _ a HS HO), IH. auto. Qed.
Lemma sim_clash m m' o o' : sim m m' -> sim o o' ->
  existsb (fun l => dmem l (m_constrs o)) (dkeys (m_constrs m)) = existsb (fun l => dmem l (m_constrs o')) (dkeys (m_constrs m')).
Proof.
  intros HS HO. assert (HC := match_in _ _ _ (sc_constrs _ _ (proj2 (proj2 HS)))). assert (HD := match_mem _ _ _ (sc_constrs _ _ (proj2 (proj2 HO)))).
  destruct (existsb _ (dkeys (m_constrs m'))) eqn:E.
  - apply existsb_exists in E. destruct E as (l & H1 & H2). apply existsb_exists. exists l. split; [apply HC; auto|rewrite HD; auto].
  - destruct (existsb _ (dkeys (m_constrs m))) eqn:E'; auto. apply existsb_exists in E'. destruct E' as (l & H1 & H2).
    rewrite <- E. symmetry. apply existsb_exists. exists l. split; [apply HC; auto|rewrite <- HD; auto].
Qed.
Lemma match_update {V} (R : V -> V -> Prop) (a a' b b' : dict string V) : NoDup (dkeys b) -> NoDup (dkeys b') ->
  match_dict R a a' -> match_dict R b b' -> match_dict R (dupdate a b) (dupdate a' b').
Proof.
  intros N N' HA HB k. rewrite !dupdate_get by auto. specialize (HA k). specialize (HB k). destruct (dget k b), (dget k b'); auto; contradiction.
Qed.
Lemma sim_table cols l n rows m m' : NoDup l -> dkeys cols = l -> sim m m' ->
  sim (with_len n (with_attrs l (with_cols cols (with_rows rows m)))) (with_len n (with_attrs l (with_cols cols (with_rows rows m')))).
Proof.
  intros N HK (A & B & []). split; [apply reg_table; auto|]. split; [apply reg_table; auto|]. constructor; auto. simpl. apply match_refl. auto.
Qed.
Lemma al_merge_same ev k o o' : sim o o' -> alike (merge_same ev k o) (merge_same ev k o').
Proof.
  intros HO. unfold merge_same. apply al_get. intros m0 m0' H0. rewrite (sim_dims _ _ _ _ H0 HO). alG.
  apply al_bind; [apply al_merge_loop; apply HO|]. intros _. apply al_get. intros m m' HS.
  assert (EA : merge_attrs_list m' o' = merge_attrs_list m o).
  { unfold merge_attrs_list. replace (m_attrs m') with (m_attrs m) by apply HS. replace (m_attrs o') with (m_attrs o) by apply HO. reflexivity. }
  rewrite EA, <- (sim_merge_cols _ _ _ _ _ HS HO). destruct (merge_cols m o (merge_attrs_list m o)) as [cols|] eqn:EC; [|apply al_raise].
  assert (ED : dup_names m' o' = dup_names m o).
  { unfold dup_names, names. replace (m_rows m') with (m_rows m) by apply HS. replace (m_rows o') with (m_rows o) by apply HO. reflexivity. }
  rewrite ED. replace (m_rows m') with (m_rows m) by apply HS. replace (m_rows o') with (m_rows o) by apply HO.
  replace (m_len m') with (m_len m) by apply HS. replace (m_len o') with (m_len o) by apply HO.
  rewrite <- (sim_clash _ _ _ _ HS HO). apply al_bind.
  { apply al_modify. intros m1 m1' H1. apply sim_table; auto; [apply merge_attrs_nodup; [apply HS|apply HO]|eapply merge_cols_keys; eauto]. }
  intros _. alG. apply al_modify. intros m1 m1' H1. replace (m_offset m1') with (m_offset m1) by apply H1. replace (m_offset o') with (m_offset o) by apply HO.
  destruct HO as (OA & OB & []). assert (H1' := H1). destruct H1 as (MA & MB & []).
  apply (sim_fixed _ _ (with_deleted _ (with_offset _ (with_constrs _ m1)))); [apply dupdate_nodup, MA|apply dupdate_nodup, MB|apply match_update; auto; apply OA || apply OB|].
  apply (sim_deleted _ _ (with_offset _ (with_constrs _ m1))); [apply dupdate_nodup, MA|apply dupdate_nodup, MB|apply match_update; auto; apply OA || apply OB|].
  apply sim_offset. apply sim_constrs; [apply dupdate_nodup, MA|apply dupdate_nodup, MB|apply match_update; auto; apply OA || apply OB|auto].
Qed.
Lemma al_merge ev evo k m m' o o' n p u : sim m m' -> sim o o' -> merge ev evo k m o = (n, p, Ok u) ->
  exists n' p', merge ev evo k m' o' = (n', p', Ok u) /\ sim n n' /\ sim p p'.
Proof.
  intros HS HO E. unfold merge in *. replace (m_mtype m') with (m_mtype m) by apply HS. replace (m_mtype o') with (m_mtype o) by apply HO.
  destruct (mtype_eqb _ _).
  - destruct (merge_same ev k o m) as [m1 r1] eqn:E1. inversion E; subst.
    destruct (al_merge_same ev k p o' HO _ _ _ _ HS E1) as (n' & -> & H'). eauto.
  - destruct (convert_mtype evo o) as [o1 [u1|e]] eqn:EC; [|discriminate]. destruct (al_convert_mtype evo _ _ _ _ HO EC) as (o1' & -> & HO1).
    destruct (merge_same ev k o1 m) as [m1 r1] eqn:E1. inversion E; subst. destruct (al_merge_same ev k p o1' HO1 _ _ _ _ HS E1) as (n' & -> & H'). eauto.
Qed.
