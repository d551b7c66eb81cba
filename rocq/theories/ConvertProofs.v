(** * ConvertProofs: to_ising / to_qubo. *)
From Verif Require Import PyBase PyLemmas Constraint LogicalModel Spec LogicalProofs EnergyProofs.
Open Scope list_scope.

(** ** One update by name, position known *)
Lemma upd_mid ev c q m l1 x l2 m' u :
  m_rows m = l1 ++ x :: l2 -> ~ In (r_name x) (map r_name l1) ->
  update_interaction ev TNone (NStr (r_name x)) (Some (AC c)) None AtNone (TsNum q) m = (m', Ok u) ->
  r_removed x = false /\ r_name x <> ""%string /\ (exists z, c = CNum z) /\
  m' = with_rows (l1 ++ upd_fields (Some c) None (Some q) x :: l2) m.
Proof.
  intros ER HN E. unfold update_interaction in E.
  apply bind_ok in E. destruct E as (m1 & u1 & E1 & E). apply guard_ok in E1. destruct E1 as [HT ->].
  simpl in HT. apply negb_true_iff in HT.
  assert (NE : r_name x <> ""%string) by (apply String.eqb_neq; auto).
  destruct c as [z| | |]; [|cbn in E; discriminate..].
  cbv [guard bind lift ret get raise] in E.
  cbn [t_truthy andb negb check_opt_num check_num check_opt_attrs check_opt_ts opt_info t_is_none] in E.
  unfold n_truthy in E. rewrite HT in E. cbn [negb] in E.
  rewrite (has_name_mid m l1 x l2 ER) in E. rewrite (is_removed_mid m l1 x l2 ER HN) in E.
  destruct (r_removed x) eqn:Ex; [discriminate|]. cbn [negb] in E.
  rewrite (update_at_noattr m l1 x l2) in E by auto. inversion E; subst.
  repeat split; eauto.
Qed.

Lemma upd_mid_ok ev z q m l1 x l2 :
  m_rows m = l1 ++ x :: l2 -> ~ In (r_name x) (map r_name l1) ->
  r_removed x = false -> r_name x <> ""%string ->
  update_interaction ev TNone (NStr (r_name x)) (Some (AC (CNum z))) None AtNone (TsNum q) m
  = (with_rows (l1 ++ upd_fields (Some (CNum z)) None (Some q) x :: l2) m, Ok tt).
Proof.
  intros ER HN HR NE. unfold update_interaction.
  apply String.eqb_neq in NE.
  cbv [guard bind lift ret get raise].
  cbn [t_truthy andb orb negb check_opt_num check_num check_opt_attrs check_opt_ts opt_info t_is_none].
  unfold n_truthy. rewrite NE. cbn [negb].
  rewrite (has_name_mid m l1 x l2 ER), (is_removed_mid m l1 x l2 ER HN), HR. cbn [negb].
  rewrite (update_at_noattr m l1 x l2) by auto. reflexivity.
Qed.

(** ** The loop over linear interactions *)
Definition Fh (ts a : Qc) (r : row) : row :=
  if body1_active r then upd_fields (Some (cmul (r_coef r) (CNum a))) None (Some ts) r else r.
Definition Fj (ts a : Qc) (r : row) : row :=
  if body2_active r then upd_fields (Some (cmul (r_coef r) (CNum a))) None (Some ts) r else r.

Definition S1 fd (l : list row) : Qc := qsum (map (fun r => value fd (r_coef r)) (filter body1_active l)).
Definition S2 fd (l : list row) : Qc := qsum (map (fun r => value fd (r_coef r)) (filter body2_active l)).

Lemma cmul_num_inv c a z : cmul c (CNum a) = CNum z -> exists y, c = CNum y.
Proof. destruct c; simpl; unfold cmul; intros; try discriminate; eauto. Qed.
Lemma resolves_num fd q : resolves fd (CNum q).
Proof. unfold resolves; simpl; congruence. Qed.

Lemma conv_h_loop ev a b l2 : forall l1 m m' u,
  m_rows m = l1 ++ l2 -> NoDup (map r_name (l1 ++ l2)) ->
  mfor (filter body1_active l2) (conv_h ev a b) m = (m', Ok u) ->
  exists off, m' = with_offset off (with_rows (l1 ++ map (Fh (e_import ev) a) l2) m) /\
    (forall r, In r l2 -> body1_active r = true -> (exists y, r_coef r = CNum y) /\ r_name r <> ""%string) /\
    (forall fd, resolves fd (m_offset m) -> resolves fd off /\
        value fd off = (value fd (m_offset m) + b * S1 fd l2)%Qc).
Proof.
  induction l2 as [|r l2 IH]; intros l1 m m' u ER ND E; simpl in *.
  - minv. exists (m_offset m'). rewrite <- ER. split; [destruct m'; reflexivity|].
    split; [tauto|]. intros fd R. split; auto. unfold S1; simpl; ring.
  - destruct (body1_active r) eqn:Eb; simpl in E.
    + apply bind_ok in E. destruct E as (m1 & u1 & E1 & E).
      unfold conv_h in E1. apply bind_ok in E1. destruct E1 as (m2 & u2 & E2 & E1).
      assert (HN : ~ In (r_name r) (map r_name l1)).
      { rewrite map_app in ND; simpl in ND. apply NoDup_remove_2 in ND.
        rewrite in_app_iff in ND; tauto. }
      destruct (upd_mid _ _ _ _ _ _ _ _ _ ER HN E2) as (HA & NE & [z Hz] & ->).
      inversion E1; subst m1 u1; clear E1 E2.
      destruct (cmul_num_inv _ _ _ Hz) as [y Hy].
      apply (IH (l1 ++ [upd_fields (Some (cmul (r_coef r) (CNum a))) None (Some (e_import ev)) r])) in E.
      * destruct E as (off & -> & HC & HV). exists off. split; [|split].
        -- unfold Fh at 2. rewrite Eb. rewrite <- app_assoc. reflexivity.
        -- intros x [<-|HI] Hx; eauto.
        -- intros fd R.
           destruct (HV fd) as [R' V'].
           { simpl. apply resolves_cadd. split; auto. rewrite Hy. apply resolves_num. }
           split; auto. rewrite V'. simpl. rewrite value_cadd; auto.
           ++ rewrite value_cmul, value_num. unfold S1. simpl. rewrite Eb. simpl. ring.
           ++ rewrite Hy. apply resolves_num.
      * simpl. rewrite <- app_assoc. reflexivity.
      * rewrite !map_app in *. simpl in *. rewrite <- app_assoc. exact ND.
    + unfold Fh at 1. rewrite Eb.
      apply (IH (l1 ++ [r])) in E.
      * destruct E as (off & -> & HC & HV). exists off. split; [|split].
        -- rewrite <- app_assoc. reflexivity.
        -- intros x [<-|HI] Hx; [congruence|auto].
        -- intros fd R. destruct (HV fd R). split; auto. unfold S1 in *. simpl. rewrite Eb. auto.
      * rewrite <- app_assoc; auto.
      * rewrite <- app_assoc; auto.
Qed.

(** ** The loop over pair interactions *)
Definition pair_sum (s : assignment) (k : ikey) : Qc :=
  match k with K1 _ => 0%Qc | K2 a b => (s a + s b)%Qc end.
Definition P fd s (l : list row) : Qc :=
  qsum (map (fun r => value fd (r_coef r) * pair_sum s (r_key r))%Qc (filter body2_active l)).

(** What one pair interaction adds. *)
Definition plain_linear (x : row) : Prop :=
  key_ok x /\ active x /\ r_scale x = CNum 1%Qc /\ (exists a, r_key x = K1 a) /\ (exists y, r_coef x = CNum y).

Definition frame (m : lmodel) := (m_mtype m, m_vars m, m_deleted m, m_fixed m, m_constrs m, m_prev m).

Lemma plain_body1 x : plain_linear x -> body1_active x = true /\ body2_active x = false.
Proof.
  intros (_ & A & _ & (a & K) & _). unfold body1_active, body2_active. rewrite A, K; auto.
Qed.

Lemma conv_J_step ev a b c k l1 r l2 m m' u :
  m_rows m = l1 ++ r :: l2 -> names_unique m -> key_ok r -> body2_active r = true ->
  conv_J ev a b c k r m = (m', Ok u) ->
  exists ex off,
    m_rows m' = l1 ++ Fj (e_import ev) a r :: l2 ++ ex /\ m_offset m' = off /\ frame m' = frame m /\
    names_unique m' /\ Forall plain_linear ex /\
    (exists y, r_coef r = CNum y) /\ r_name r <> ""%string /\
    (forall fd, resolves fd (m_offset m) -> resolves fd off /\
       value fd off = (value fd (m_offset m) + c * value fd (r_coef r))%Qc /\
       S1 fd ex = (qz 2 * b * value fd (r_coef r))%Qc /\
       forall s, csum fd s ex = (b * (value fd (r_coef r) * pair_sum s (r_key r)))%Qc).
Proof.
  intros ER ND [HK1 HK2] Hb E. unfold names_unique, names in ND.
  assert (HN : ~ In (r_name r) (map r_name l1)).
  { rewrite ER, map_app in ND. simpl in ND. apply NoDup_remove_2 in ND. rewrite in_app_iff in ND; tauto. }
  unfold conv_J in E. apply bind_ok in E. destruct E as (m1 & u1 & E1 & E).
  destruct (upd_mid _ _ _ _ _ _ _ _ _ ER HN E1) as (HA & NE & [z Hz] & ->). clear E1.
  destruct (cmul_num_inv _ _ _ Hz) as [y Hy].
  set (r' := upd_fields _ _ _ r) in *.
  destruct (r_inter r) as [w|w0 w1] eqn:EI; [discriminate|].
  destruct (r_key r) as [k0|k0 k1] eqn:EK; [discriminate|].
  simpl in HK1. inversion HK1; subst k0 k1; clear HK1.
  set (m1 := with_rows (l1 ++ r' :: l2) m) in *.
  assert (ND1 : names_unique m1).
  { unfold names_unique, names, m1; simpl. rewrite ER in ND. rewrite map_app in *; simpl in *; auto. }
  apply bind_ok in E. destruct E as (m2 & u2 & E2 & E).
  pose proof (add_names_fresh _ _ _ _ _ _ _ _ _ _ E2 ND1) as ND2.
  apply add_ok_core in E2. destruct E2 as (c2&s2&q2&i2&n2&d2&[A1 A2 A3 A4 A5 A6 A7 A8]&EC2).
  inversion A2; subst c2; clear A2. inversion A3; subst s2; clear A3.
  simpl in A5. inversion A5; subst i2; clear A5 A1 A7.
  apply bind_ok in E. destruct E as (m3 & u3 & E3 & E).
  pose proof (add_names_fresh _ _ _ _ _ _ _ _ _ _ E3 ND2) as ND3.
  apply add_ok_core in E3. destruct E3 as (c3&s3&q3&i3&n3&d3&[B1 B2 B3 B4 B5 B6 B7 B8]&EC3).
  inversion B2; subst c3; clear B2. inversion B3; subst s3; clear B3.
  simpl in B5. inversion B5; subst i3; clear B5 B1 B7.
  inversion E; subst m' u; clear E.
  set (x2 := new_row n2 _ _ _ _) in *. set (x3 := new_row n3 _ _ _ _) in *.
  pose proof (core_rows _ _ EC2) as R2. pose proof (core_rows _ _ EC3) as R3.
  pose proof (core_offset _ _ EC2) as O2. pose proof (core_offset _ _ EC3) as O3.
  cbn [m_rows m_offset with_rows] in R2, R3, O2, O3. unfold m1 in R2, O2. cbn [m_rows m_offset with_rows] in R2, O2.
  exists [x2; x3], (cadd (m_offset m3) (cmul (r_coef r) (CNum c))).
  assert (EV : (exists yy, r_coef x2 = CNum yy) /\ (exists yy, r_coef x3 = CNum yy)).
  { unfold x2, x3, new_row; simpl. rewrite Hy. split; eexists; reflexivity. }
  split; [|split; [|split; [|split; [|split; [|split; [|split]]]]]].
  - cbn [m_rows with_offset]. rewrite R3, R2. unfold Fj. rewrite Hb. fold r'.
    rewrite <- !app_assoc. reflexivity.
  - reflexivity.
  - unfold frame, core in *. cbn in *. congruence.
  - exact ND3.
  - destruct EV. constructor; [|constructor; [|constructor]]; repeat split; simpl; eauto.
  - eauto.
  - auto.
  - intros fd R. rewrite O3, O2.
    assert (RC : resolves fd (cmul (r_coef r) (CNum c))) by (rewrite Hy; apply resolves_num).
    split; [apply resolves_cadd; auto|]. rewrite value_cadd by auto. rewrite value_cmul, value_num.
    split; [ring|].
    destruct (plain_body1 x2) as [P2 _]; [repeat split; simpl; eauto; apply EV|].
    destruct (plain_body1 x3) as [P3 _]; [repeat split; simpl; eauto; apply EV|].
    split.
    + unfold S1. simpl. rewrite !value_cmul, !value_num.
      replace (qz 2) with (1 + 1)%Qc by (apply Qc_is_canon; reflexivity). ring.
    + intros s. rewrite !csum_cons, csum_nil. unfold contribution; simpl.
      rewrite !value_cmul, !value_num. ring.
Qed.

Lemma conv_J_loop ev a b c l2 : forall k l1 ex0 m m' u,
  m_rows m = l1 ++ l2 ++ ex0 -> names_unique m -> Forall key_ok l2 ->
  conv_Js ev a b c k (filter body2_active l2) m = (m', Ok u) ->
  exists ex off,
    m_rows m' = l1 ++ map (Fj (e_import ev) a) l2 ++ ex0 ++ ex /\ m_offset m' = off /\ frame m' = frame m /\
    names_unique m' /\ Forall plain_linear ex /\
    (forall r, In r l2 -> body2_active r = true -> (exists y, r_coef r = CNum y) /\ r_name r <> ""%string) /\
    (forall fd, resolves fd (m_offset m) -> resolves fd off /\
       value fd off = (value fd (m_offset m) + c * S2 fd l2)%Qc /\
       S1 fd ex = (qz 2 * b * S2 fd l2)%Qc /\
       forall s, csum fd s ex = (b * P fd s l2)%Qc).
Proof.
  induction l2 as [|r l2 IH]; intros k l1 ex0 m m' u ER ND HK E; simpl in *.
  - minv. exists [], (m_offset m'). rewrite app_nil_r.
    split; [auto|]. split; [auto|]. split; [auto|]. split; [auto|]. split; [constructor|]. split; [tauto|].
    intros fd R. split; auto. unfold S1, S2, P, csum; simpl. repeat split; try ring. intros; ring.
  - inversion HK as [|? ? HKr HK']; subst.
    destruct (body2_active r) eqn:Eb; simpl in E.
    + apply bind_ok in E. destruct E as (m1 & u1 & E1 & E).
      destruct (conv_J_step _ _ _ _ _ _ _ _ _ _ _ ER ND HKr Eb E1)
        as (ex1 & off1 & R1 & O1 & F1 & ND1 & HX1 & HC1 & HE1 & HV1).
      assert (ER1 : m_rows m1 = (l1 ++ [Fj (e_import ev) a r]) ++ l2 ++ (ex0 ++ ex1)).
      { rewrite R1, <- !app_assoc. reflexivity. }
      destruct (IH _ _ _ _ _ _ ER1 ND1 HK' E) as (ex2 & off2 & R2 & O2 & F2 & ND2 & HX2 & HC2 & HV2).
      exists (ex1 ++ ex2), off2.
      split; [rewrite R2, <- !app_assoc; reflexivity|].
      split; [auto|]. split; [congruence|]. split; [auto|]. split; [apply Forall_app; auto|].
      split; [intros x [<-|HI] Hx; auto|].
      intros fd R. destruct (HV1 fd R) as (Q1 & V1 & W1 & T1). subst off1.
      destruct (HV2 fd Q1) as (Q2 & V2 & W2 & T2).
      split; auto. unfold S2, P in *. simpl. rewrite Eb. simpl. split; [|split].
      * rewrite V2, V1. ring.
      * unfold S1 in *. rewrite filter_app, map_app, qsum_app, W1, W2. ring.
      * intros s. rewrite csum_app, T1, T2. ring.
    + assert (ER1 : m_rows m = (l1 ++ [r]) ++ l2 ++ ex0) by (rewrite ER, <- app_assoc; auto).
      destruct (IH _ _ _ _ _ _ ER1 ND HK' E) as (ex2 & off2 & R2 & O2 & F2 & ND2 & HX2 & HC2 & HV2).
      exists ex2, off2. split.
      { rewrite R2. unfold Fj at 2. rewrite Eb. rewrite <- !app_assoc. reflexivity. }
      split; [auto|]. split; [auto|]. split; [auto|]. split; [auto|].
      split; [intros x [<-|HI] Hx; [congruence|auto]|].
      intros fd R. unfold S2, P in *. simpl. rewrite Eb. apply HV2; auto.
Qed.

(** ** The whole conversion *)
Definition retype_row (t : mtype) (r : row) : row :=
  if r_removed r then r else set_inter (retype_inter t (r_inter r)) r.
Definition conv_row (ts ha ja : Qc) (t : mtype) (r : row) : row :=
  Fj ts ja (Fh ts ha (retype_row t r)).

Lemma retype_ok t r : key_ok r -> key_ok (retype_row t r).
Proof.
  unfold retype_row. destruct (r_removed r); auto. intros [A B]. split; simpl; auto.
  rewrite A. destruct (r_inter r); reflexivity.
Qed.
Lemma retype_fields t r : r_name (retype_row t r) = r_name r /\ r_key (retype_row t r) = r_key r /\
  r_coef (retype_row t r) = r_coef r /\ r_scale (retype_row t r) = r_scale r /\ r_removed (retype_row t r) = r_removed r.
Proof. unfold retype_row. destruct (r_removed r) eqn:E; simpl; auto. Qed.
Lemma Fh_fields ts a r : r_name (Fh ts a r) = r_name r /\ r_key (Fh ts a r) = r_key r /\
  r_inter (Fh ts a r) = r_inter r /\ r_scale (Fh ts a r) = r_scale r /\ r_removed (Fh ts a r) = r_removed r /\
  body1_active (Fh ts a r) = body1_active r /\ body2_active (Fh ts a r) = body2_active r /\
  r_coef (Fh ts a r) = if body1_active r then cmul (r_coef r) (CNum a) else r_coef r.
Proof. unfold Fh. destruct (body1_active r) eqn:E; simpl; repeat split; auto. Qed.
Lemma Fj_fields ts a r : r_name (Fj ts a r) = r_name r /\ r_key (Fj ts a r) = r_key r /\
  r_inter (Fj ts a r) = r_inter r /\ r_scale (Fj ts a r) = r_scale r /\ r_removed (Fj ts a r) = r_removed r /\
  body1_active (Fj ts a r) = body1_active r /\ body2_active (Fj ts a r) = body2_active r /\
  r_coef (Fj ts a r) = if body2_active r then cmul (r_coef r) (CNum a) else r_coef r.
Proof. unfold Fj. destruct (body2_active r) eqn:E; simpl; repeat split; auto. Qed.
Lemma body_excl r : body1_active r = true -> body2_active r = false.
Proof. unfold body1_active, body2_active. destruct (r_removed r), (r_key r); auto. Qed.
Lemma retype_bodies t r : body1_active (retype_row t r) = body1_active r /\ body2_active (retype_row t r) = body2_active r.
Proof.
  unfold body1_active, body2_active. destruct (retype_fields t r) as (_ & -> & _ & _ & ->); auto.
Qed.

Lemma conv_row_fields ts ha ja t r :
  let r' := conv_row ts ha ja t r in
  r_name r' = r_name r /\ r_key r' = r_key r /\ r_scale r' = r_scale r /\ r_removed r' = r_removed r /\
  body1_active r' = body1_active r /\ body2_active r' = body2_active r /\
  r_coef r' = if body1_active r then cmul (r_coef r) (CNum ha)
              else if body2_active r then cmul (r_coef r) (CNum ja) else r_coef r.
Proof.
  unfold conv_row.
  destruct (retype_fields t r) as (A1&A2&A3&A4&A5).
  destruct (retype_bodies t r) as (A6&A7).
  destruct (Fh_fields ts ha (retype_row t r)) as (B1&B2&_&B4&B5&B6&B7&B8).
  destruct (Fj_fields ts ja (Fh ts ha (retype_row t r))) as (C1&C2&_&C4&C5&C6&C7&C8).
  simpl. repeat split; try congruence.
  rewrite C8, B8, B7, A7, A6, A3. destruct (body1_active r) eqn:E; auto. rewrite (body_excl _ E); auto.
Qed.
Lemma conv_row_ok ts ha ja t r : key_ok r -> key_ok (conv_row ts ha ja t r).
Proof.
  intros HK. apply (retype_ok t) in HK. unfold conv_row.
  destruct (Fh_fields ts ha (retype_row t r)) as (_&B2&B3&_).
  destruct (Fj_fields ts ja (Fh ts ha (retype_row t r))) as (_&C2&C3&_).
  unfold key_ok. rewrite C2, C3, B2, B3. exact HK.
Qed.

Lemma dataframe_ok m m' l : dataframe m = (m', Ok l) -> m' = m /\ l = m_rows m.
Proof. unfold dataframe. destruct (df_ok m); intros E; inversion E; auto. Qed.

Lemma convert_ok ev t ha hb ja jb jc m m' u :
  convert ev t ha hb ja jb jc m = (m', Ok u) -> mtype_eqb (m_mtype m) t = false -> well_formed m ->
  exists ex off vs,
    m_rows m' = map (conv_row (e_import ev) ha ja t) (m_rows m) ++ ex /\ m_offset m' = off /\
    frame m' = (t, vs, m_deleted m, m_fixed m, m_constrs m, m_prev m) /\
    recreate (vt_of t) [] (m_vars m) = (vs, Ok tt) /\
    names_unique m' /\ Forall plain_linear ex /\
    (forall r, In r (m_rows m) -> active r -> exists y, r_coef r = CNum y) /\
    (forall fd, resolves fd (m_offset m) -> resolves fd off /\
       value fd off = (value fd (m_offset m) + hb * S1 fd (m_rows m) + jc * S2 fd (m_rows m))%Qc /\
       S1 fd ex = (qz 2 * jb * S2 fd (m_rows m))%Qc /\
       forall s, csum fd s ex = (jb * P fd s (m_rows m))%Qc).
Proof.
  intros E HT [ND HK]. unfold convert in E.
  apply bind_ok in E. destruct E as (m1 & x & E1 & E). inversion E1; subst m1 x; clear E1.
  rewrite HT in E.
  apply bind_ok in E. destruct E as (m1 & x & E1 & E). inversion E1; subst m1 x; clear E1.
  apply bind_ok in E. destruct E as (m1 & x & E1 & E).
  unfold update_variables_type in E1. simpl in E1.
  destruct (recreate (vt_of t) [] (m_vars m)) as [vs [[]|e]] eqn:EV; [|discriminate].
  destruct (df_ok _) in E1; [|discriminate]. inversion E1; subst m1 x; clear E1.
  apply bind_ok in E. destruct E as (m2 & h & E2 & E). apply dataframe_ok in E2. destruct E2 as [-> ->].
  apply bind_ok in E. destruct E as (m3 & x & E3 & E).
  set (m2 := with_rows _ _) in E3.
  assert (R2 : m_rows m2 = [] ++ map (retype_row t) (m_rows m)) by reflexivity.
  assert (NM : map r_name (map (retype_row t) (m_rows m)) = map r_name (m_rows m)).
  { rewrite map_map. apply map_ext. intros r; apply retype_fields. }
  assert (HB : forall r, body1_active (retype_row t r) = body1_active r /\ body2_active (retype_row t r) = body2_active r)
    by (intros; apply retype_bodies).
  change (m_rows m2) with (map (retype_row t) (m_rows m)) in E3.
  apply (conv_h_loop ev ha hb _ [] m2) in E3; [|exact R2|cbn [app]; rewrite NM; exact ND].
  destruct E3 as (off3 & -> & HC3 & HV3).
  apply bind_ok in E. destruct E as (m4 & j & E4 & E). apply dataframe_ok in E4. destruct E4 as [-> ->].
  set (m3 := with_offset _ _) in E.
  set (l := map (Fh (e_import ev) ha) (map (retype_row t) (m_rows m))) in *.
  assert (R3 : m_rows m3 = [] ++ l ++ []) by (rewrite app_nil_r; reflexivity).
  assert (NL : map r_name l = map r_name (m_rows m)).
  { unfold l. rewrite map_map, <- NM. apply map_ext. intros; apply Fh_fields. }
  assert (ND3 : names_unique m3).
  { unfold names_unique, names. rewrite R3, app_nil_r. simpl. rewrite NL. exact ND. }
  assert (HK3 : Forall key_ok l).
  { unfold l. rewrite map_map. rewrite Forall_map. eapply Forall_impl; [|exact HK].
    intros r Hr. simpl. apply (retype_ok t) in Hr.
    destruct (Fh_fields (e_import ev) ha (retype_row t r)) as (_&B2&B3&_).
    unfold key_ok. rewrite B2, B3. exact Hr. }
  change (m_rows m3) with l in E.
  destruct (conv_J_loop _ _ _ _ _ _ _ _ _ _ _ R3 ND3 HK3 E)
    as (ex & off & R4 & O4 & F4 & ND4 & HX4 & HC4 & HV4).
  assert (HS1 : forall fd, S1 fd (map (retype_row t) (m_rows m)) = S1 fd (m_rows m)).
  { intros fd. unfold S1. clear -HB. induction (m_rows m) as [|r rs IH]; simpl; auto.
    rewrite (proj1 (HB r)). destruct (body1_active r); simpl; rewrite IH; auto.
    destruct (retype_fields t r) as (_&_&->&_). auto. }
  assert (HF : forall r, body2_active (Fh (e_import ev) ha (retype_row t r)) = body2_active r /\
     (body2_active r = true -> r_coef (Fh (e_import ev) ha (retype_row t r)) = r_coef r) /\
     r_key (Fh (e_import ev) ha (retype_row t r)) = r_key r).
  { intros r. destruct (Fh_fields (e_import ev) ha (retype_row t r)) as (_&B2&_&_&_&_&B7&B8).
    destruct (retype_fields t r) as (_&C2&C3&_). rewrite B2, B7, B8, C2, C3, (proj1 (HB r)), (proj2 (HB r)).
    repeat split; auto. intros H2. destruct (body1_active r) eqn:H1; auto.
    rewrite (body_excl _ H1) in H2; discriminate. }
  assert (HS2 : forall fd, S2 fd l = S2 fd (m_rows m)).
  { intros fd. unfold S2, l. rewrite map_map. clear -HF. induction (m_rows m) as [|r rs IH]; simpl; auto.
    destruct (HF r) as (F1 & F2 & _). rewrite F1. destruct (body2_active r); simpl; rewrite IH; auto.
    rewrite F2; auto. }
  assert (HP : forall fd s, P fd s l = P fd s (m_rows m)).
  { intros fd s. unfold P, l. rewrite map_map. clear -HF. induction (m_rows m) as [|r rs IH]; simpl; auto.
    destruct (HF r) as (F1 & F2 & F3). rewrite F1. destruct (body2_active r); simpl; rewrite IH; auto.
    rewrite F2, F3; auto. }
  exists ex, off, vs.
  split. { rewrite R4. simpl. unfold l. rewrite !map_map. reflexivity. }
  split; [auto|]. split; [rewrite F4; reflexivity|]. split; [reflexivity|]. split; [auto|]. split; [auto|].
  split.
  { intros r HI HA. destruct (r_key r) as [k|k0 k1] eqn:EK.
    - assert (Hb : body1_active r = true) by (unfold body1_active; rewrite HA, EK; auto).
      destruct (HC3 (retype_row t r)) as [[y Hy] _]; [apply in_map; auto|rewrite (proj1 (HB r)); auto|].
      destruct (retype_fields t r) as (_&_&C3&_). rewrite C3 in Hy; eauto.
    - assert (Hb : body2_active r = true) by (unfold body2_active; rewrite HA, EK; auto).
      destruct (HF r) as (F1 & F2 & _).
      destruct (HC4 (Fh (e_import ev) ha (retype_row t r))) as [[y Hy] _].
      + unfold l. rewrite map_map. apply in_map_iff; eauto.
      + rewrite F1; auto.
      + rewrite F2 in Hy; eauto. }
  intros fd R. destruct (HV3 fd R) as [R3' V3]. destruct (HV4 fd R3') as (R4' & V4 & W4 & T4).
  simpl in V3, V4. rewrite HS1 in V3. rewrite HS2 in V4, W4. split; auto.
  split; [rewrite V4, V3; ring|]. split; [auto|]. intros s. rewrite T4, HP. auto.
Qed.

(** ** Energies *)
Definition lin fd s (l : list row) : Qc :=
  qsum (map (contribution fd s) (filter body1_active l)).
Definition quad fd s (l : list row) : Qc :=
  qsum (map (contribution fd s) (filter body2_active l)).
Lemma csum_lin_quad fd s l : csum fd s l = (lin fd s l + quad fd s l)%Qc.
Proof.
  unfold csum, lin, quad. induction l as [|r l IH]; simpl; [ring|].
  rewrite IH. unfold body1_active, body2_active.
  destruct (r_removed r) eqn:ER; simpl.
  - unfold contribution at 1. rewrite ER. ring.
  - destruct (r_key r); simpl; ring.
Qed.
Lemma csum_conv fd s ts ha ja t l :
  csum fd s (map (conv_row ts ha ja t) l) = (ha * lin fd s l + ja * quad fd s l)%Qc.
Proof.
  unfold csum, lin, quad. induction l as [|r l IH]; simpl; [ring|].
  rewrite IH. destruct (conv_row_fields ts ha ja t r) as (_&B2&B3&B4&_&_&B7).
  assert (EL : contribution fd s (conv_row ts ha ja t r) =
    ((if body1_active r then ha else if body2_active r then ja else 0) * contribution fd s r)%Qc).
  { unfold contribution. rewrite B2, B3, B4, B7. unfold body1_active, body2_active.
    destruct (r_removed r); simpl; [ring|].
    destruct (r_key r); simpl; rewrite value_cmul, value_num; ring. }
  rewrite EL. unfold body1_active, body2_active.
  destruct (r_removed r) eqn:ER; simpl; [ring|].
  destruct (r_key r) eqn:EK; simpl; ring.
Qed.
Lemma S1_conv fd ts ha ja t l : S1 fd (map (conv_row ts ha ja t) l) = (ha * S1 fd l)%Qc.
Proof.
  unfold S1. induction l as [|r l IH]; simpl; [ring|].
  destruct (conv_row_fields ts ha ja t r) as (_&_&_&_&B5&_&B7). rewrite B5.
  destruct (body1_active r); simpl; rewrite IH; auto. rewrite B7, value_cmul, value_num. ring.
Qed.
Lemma S2_conv fd ts ha ja t l : S2 fd (map (conv_row ts ha ja t) l) = (ja * S2 fd l)%Qc.
Proof.
  unfold S2. induction l as [|r l IH]; simpl; [ring|].
  destruct (conv_row_fields ts ha ja t r) as (_&_&_&_&_&B6&B7). rewrite B6.
  destruct (body2_active r) eqn:E2; simpl; rewrite IH; auto. rewrite B7.
  destruct (body1_active r) eqn:E1; [rewrite (body_excl _ E1) in E2; discriminate|].
  rewrite value_cmul, value_num. ring.
Qed.
Lemma S2_plain fd ex : Forall plain_linear ex -> S2 fd ex = 0%Qc.
Proof.
  unfold S2. induction 1 as [|x ex Hx HX IH]; simpl; auto.
  destruct (plain_body1 x Hx) as [_ ->]. auto.
Qed.
Lemma S1_app fd a b : S1 fd (a ++ b) = (S1 fd a + S1 fd b)%Qc.
Proof. unfold S1. rewrite filter_app, map_app, qsum_app; auto. Qed.
Lemma S2_app fd a b : S2 fd (a ++ b) = (S2 fd a + S2 fd b)%Qc.
Proof. unfold S2. rewrite filter_app, map_app, qsum_app; auto. Qed.


Lemma affine_sums fd s (al be : Qc) l :
  (forall r, In r l -> active r -> r_scale r = CNum 1%Qc) ->
  lin fd (fun v => al * s v + be)%Qc l = (al * lin fd s l + be * S1 fd l)%Qc /\
  quad fd (fun v => al * s v + be)%Qc l =
    (al * al * quad fd s l + al * be * P fd s l + be * be * S2 fd l)%Qc.
Proof.
  unfold lin, quad, S1, S2, P. induction l as [|r l IH]; intros HU; simpl; [split; ring|].
  destruct IH as [I1 I2]; [simpl in HU; auto|].
  pose proof (HU r (or_introl eq_refl)) as Hr. unfold active in Hr.
  unfold body1_active, body2_active in *.
  destruct (r_removed r) eqn:ER; simpl; auto.
  rewrite ?ER in *. destruct (r_key r) eqn:EK; simpl; rewrite I1, I2; split; auto;
  unfold contribution; rewrite ER, EK, Hr by auto; simpl; rewrite value_num; ring.
Qed.

Lemma qc2 : qz 2 = (1 + 1)%Qc. Proof. apply Qc_is_canon; reflexivity. Qed.
Lemma half2 : (qfrac 1 2 * qz 2 = 1)%Qc. Proof. apply Qc_is_canon; reflexivity. Qed.

(** How far off the converted energy is. *)
Definition shift_ising fd (m : lmodel) : Qc := (S1 fd (m_rows m) + qfrac 1 2 * S2 fd (m_rows m))%Qc.
Definition shift_qubo fd (m : lmodel) : Qc := (qz 2 * S2 fd (m_rows m) - qz 2 * S1 fd (m_rows m))%Qc.

Lemma energy_ext fd s s' m : (forall l, s l = s' l) -> energy fd s m = energy fd s' m.
Proof.
  intros E. unfold energy. f_equal. f_equal. apply qsum_map_ext. intros r _.
  unfold contribution. destruct (r_removed r); auto. f_equal.
  destruct (r_key r); simpl; rewrite !E; auto.
Qed.

Lemma to_ising_energy ev m m' u fd s :
  to_ising ev m = (m', Ok u) -> m_mtype m = Qubo -> well_formed m -> unit_scales m -> resolves fd (m_offset m) ->
  energy fd s m' = (energy fd (to_binary s) m + shift_ising fd m)%Qc.
Proof.
  intros E HT HW HU HR. unfold to_ising in E.
  destruct (convert_ok _ _ _ _ _ _ _ _ _ _ E) as (ex & off & vs & R & O & F & _ & ND & HX & HC & HV);
    [rewrite HT; auto|auto|].
  destruct (HV fd HR) as (_ & V & _ & T).
  rewrite (energy_ext fd (to_binary s) (fun v => qfrac 1 2 * s v + qfrac 1 2)%Qc).
  2: { intros l. unfold to_binary. unfold Qcdiv. replace (/ qz 2)%Qc with (qfrac 1 2) by (apply Qc_is_canon; reflexivity). ring. }
  destruct (affine_sums fd s (qfrac 1 2) (qfrac 1 2) (m_rows m) HU) as [A1 A2].
  rewrite !energy_csum, R, csum_app, csum_conv, T, (csum_lin_quad fd _ (m_rows m)), A1, A2, O, V.
  unfold shift_ising.
  replace (qfrac 1 4) with (qfrac 1 2 * qfrac 1 2)%Qc by (apply Qc_is_canon; reflexivity).
  set (h := qfrac 1 2). assert (HH : (h + h = 1)%Qc) by (apply Qc_is_canon; reflexivity).
  transitivity (- (h * lin fd s (m_rows m) + h * h * quad fd s (m_rows m) + h * h * P fd s (m_rows m)) +
     value fd (m_offset m) + h * S1 fd (m_rows m) + h * h * S2 fd (m_rows m))%Qc; [ring|].
  transitivity (- (h * lin fd s (m_rows m) + h * h * quad fd s (m_rows m) + h * h * P fd s (m_rows m)) +
     value fd (m_offset m) - h * S1 fd (m_rows m) + (h + h) * S1 fd (m_rows m) - h * h * S2 fd (m_rows m)
       + (h + h) * h * S2 fd (m_rows m))%Qc; [ring|]. rewrite HH. ring.
Qed.

Lemma to_qubo_energy ev m m' u fd x :
  to_qubo ev m = (m', Ok u) -> m_mtype m = Ising -> well_formed m -> unit_scales m -> resolves fd (m_offset m) ->
  energy fd x m' = (energy fd (to_spin x) m + shift_qubo fd m)%Qc.
Proof.
  intros E HT HW HU HR. unfold to_qubo in E.
  destruct (convert_ok _ _ _ _ _ _ _ _ _ _ E) as (ex & off & vs & R & O & F & _ & ND & HX & HC & HV);
    [rewrite HT; auto|auto|].
  destruct (HV fd HR) as (_ & V & _ & T).
  rewrite (energy_ext fd (to_spin x) (fun v => qz 2 * x v + qz (-1))%Qc).
  2: { intros l. unfold to_spin. replace (qz (-1)) with (- (1))%Qc by (apply Qc_is_canon; reflexivity). ring. }
  destruct (affine_sums fd x (qz 2) (qz (-1)) (m_rows m) HU) as [A1 A2].
  rewrite !energy_csum, R, csum_app, csum_conv, T, (csum_lin_quad fd _ (m_rows m)), A1, A2, O, V.
  unfold shift_qubo.
  replace (qz (-1)) with (- (1))%Qc by (apply Qc_is_canon; reflexivity).
  replace (qz (-2)) with (- qz 2)%Qc by (apply Qc_is_canon; reflexivity).
  replace (qz 4) with (qz 2 * qz 2)%Qc by (apply Qc_is_canon; reflexivity).
  replace (qz 1) with 1%Qc by (apply Qc_is_canon; reflexivity).
  rewrite qc2. ring.
Qed.

(** Well-formedness and unit scales survive a conversion. *)
Lemma convert_wf ev t ha hb ja jb jc m m' u :
  convert ev t ha hb ja jb jc m = (m', Ok u) -> well_formed m -> well_formed m'.
Proof.
  intros E HW. destruct (mtype_eqb (m_mtype m) t) eqn:ET.
  - unfold convert, bind, get in E. rewrite ET in E. inversion E; subst; auto.
  - destruct (convert_ok _ _ _ _ _ _ _ _ _ _ E ET HW) as (ex & off & vs & R & O & F & _ & ND & HX & HC & HV).
    split; auto. rewrite R. apply Forall_app. split.
    + rewrite Forall_map. destruct HW as [_ HK]. eapply Forall_impl; [|exact HK].
      intros; apply conv_row_ok; auto.
    + eapply Forall_impl; [|exact HX]. intros x Hx; apply Hx.
Qed.
Lemma convert_unit ev t ha hb ja jb jc m m' u :
  convert ev t ha hb ja jb jc m = (m', Ok u) -> well_formed m -> unit_scales m -> unit_scales m'.
Proof.
  intros E HW HU. destruct (mtype_eqb (m_mtype m) t) eqn:ET.
  - unfold convert, bind, get in E. rewrite ET in E. inversion E; subst; auto.
  - destruct (convert_ok _ _ _ _ _ _ _ _ _ _ E ET HW) as (ex & off & vs & R & O & F & _ & ND & HX & HC & HV).
    intros r HI HA. rewrite R in HI. apply in_app_iff in HI. destruct HI as [HI|HI].
    + apply in_map_iff in HI. destruct HI as (r0 & <- & HI).
      destruct (conv_row_fields (e_import ev) ha ja t r0) as (_&_&B3&B4&_). rewrite B3. apply HU; auto.
      unfold active in *. rewrite B4 in HA. auto.
    + rewrite Forall_forall in HX. apply HX; auto.
Qed.

(** The two conversions undo each other, including the offset. *)
Lemma shifts_cancel_qi ev m m' u fd :
  to_ising ev m = (m', Ok u) -> m_mtype m = Qubo -> well_formed m -> resolves fd (m_offset m) ->
  (shift_ising fd m + shift_qubo fd m' = 0)%Qc /\ resolves fd (m_offset m') /\ m_mtype m' = Ising.
Proof.
  intros E HT HW HR. unfold to_ising in E.
  destruct (convert_ok _ _ _ _ _ _ _ _ _ _ E) as (ex & off & vs & R & O & F & _ & ND & HX & HC & HV);
    [rewrite HT; auto|auto|].
  destruct (HV fd HR) as (RO & V & W & T).
  split; [|split; [rewrite O; auto|unfold frame in F; congruence]].
  unfold shift_ising, shift_qubo. rewrite R, S1_app, S2_app, S1_conv, S2_conv, (S2_plain fd ex HX), W.
  replace (qfrac 1 4) with (qfrac 1 2 * qfrac 1 2)%Qc by (apply Qc_is_canon; reflexivity).
  set (h := qfrac 1 2). assert (HH : (qz 2 * h = 1)%Qc) by (apply Qc_is_canon; reflexivity).
  transitivity (S1 fd (m_rows m) + h * S2 fd (m_rows m) + (qz 2 * h) * h * S2 fd (m_rows m) - (qz 2 * h) * S1 fd (m_rows m)
   - (qz 2 * h) * (qz 2 * h) * S2 fd (m_rows m))%Qc; [ring|]. rewrite HH.
  replace 1%Qc with (h + h)%Qc at 6 by (apply Qc_is_canon; reflexivity).
  assert (H2 : (h + h = 1)%Qc) by (apply Qc_is_canon; reflexivity).
  transitivity ((h + h - 1) * S2 fd (m_rows m))%Qc; [ring|]. rewrite H2. ring.
Qed.
Lemma shifts_cancel_iq ev m m' u fd :
  to_qubo ev m = (m', Ok u) -> m_mtype m = Ising -> well_formed m -> resolves fd (m_offset m) ->
  (shift_qubo fd m + shift_ising fd m' = 0)%Qc /\ resolves fd (m_offset m') /\ m_mtype m' = Qubo.
Proof.
  intros E HT HW HR. unfold to_qubo in E.
  destruct (convert_ok _ _ _ _ _ _ _ _ _ _ E) as (ex & off & vs & R & O & F & _ & ND & HX & HC & HV);
    [rewrite HT; auto|auto|].
  destruct (HV fd HR) as (RO & V & W & T).
  split; [|split; [rewrite O; auto|unfold frame in F; congruence]].
  unfold shift_ising, shift_qubo. rewrite R, S1_app, S2_app, S1_conv, S2_conv, (S2_plain fd ex HX), W.
  replace (qz 4) with (qz 2 * qz 2)%Qc by (apply Qc_is_canon; reflexivity).
  replace (qz (-2)) with (- qz 2)%Qc by (apply Qc_is_canon; reflexivity).
  set (h := qfrac 1 2). assert (HH : (qz 2 * h = 1)%Qc) by (apply Qc_is_canon; reflexivity).
  transitivity (qz 2 * S2 fd (m_rows m) - qz 2 * qz 2 * S2 fd (m_rows m) + (qz 2 * h) * qz 2 * S2 fd (m_rows m))%Qc; [ring|].
  rewrite HH, qc2. ring.
Qed.
