(** * Indep: what a constraint contributes does not depend on clock or ids. *)
From Verif Require Import PyBase PyLemmas Constraint LogicalModel Spec LogicalProofs EnergyProofs ConvertProofs ConstraintProofs MergeProofs PhysicalProofs ToPhysicalProofs.
Open Scope list_scope.

(** Equal up to timestamps. *)
Definition simr (a b : row) : Prop :=
  r_name a = r_name b /\ r_key a = r_key b /\ r_inter a = r_inter b /\ r_coef a = r_coef b /\
  r_scale a = r_scale b /\ r_removed a = r_removed b.
Definition sim (m1 m2 : lmodel) : Prop :=
  built m1 /\ built m2 /\ Forall2 simr (m_rows m1) (m_rows m2).
Definition rel2 (f g : LM unit) : Prop := forall m1 m2, sim m1 m2 ->
  snd (f m1) = snd (g m2) /\ (forall u, snd (f m1) = Ok u -> sim (fst (f m1)) (fst (g m2))).

Lemma simr_names l1 l2 : Forall2 simr l1 l2 -> map r_name l1 = map r_name l2.
Proof. induction 1 as [|a b l1 l2 H HF IH]; simpl; auto. rewrite IH. f_equal; apply H. Qed.

Lemma rel2_ret : rel2 (ret tt) (ret tt).
Proof. intros m1 m2 H; simpl; auto. Qed.
Lemma rel2_bind f f' g g' : rel2 f f' -> rel2 g g' -> rel2 (f ;;; g) (f' ;;; g').
Proof.
  intros HF HG m1 m2 HS. destruct (HF m1 m2 HS) as [E S]. unfold bind.
  destruct (f m1) as [n1 [u|e]]; destruct (f' m2) as [n2 [u'|e']]; simpl in *; try discriminate.
  - apply HG. apply (S u); auto.
  - split; [auto|]. intros u HH; discriminate.
Qed.
Lemma rel2_mfor {A} (f g : A -> LM unit) l : (forall a, rel2 (f a) (g a)) -> rel2 (mfor l f) (mfor l g).
Proof.
  intros HF. induction l as [|a l IH]; simpl; [apply rel2_ret|]. apply rel2_bind; auto.
Qed.
Lemma rel2_add ev1 ev2 t nm q :
  rel2 (add_interaction ev1 t (NStr nm) (AC (CNum q)) (AC (CNum 1%Qc)) AtNone TsNone)
       (add_interaction ev2 t (NStr nm) (AC (CNum q)) (AC (CNum 1%Qc)) AtNone TsNone).
Proof.
  intros m1 m2 (B1 & B2 & HR).
  assert (HN : names m1 = names m2) by (apply simr_names; auto).
  destruct (add_interaction ev1 _ _ _ _ _ _ m1) as [n1 [u1|e1]] eqn:E1.
  - destruct (add_built _ _ _ _ _ _ _ E1 B1) as (inf & x & H1 & H2 & H3 & H4 & H5).
    destruct (add_interaction ev2 _ _ _ _ _ _ m2) as [n2 [u2|e2]] eqn:E2.
    + destruct (add_built _ _ _ _ _ _ _ E2 B2) as (inf' & x' & K1 & K2 & K3 & K4 & K5).
      rewrite H1 in K1; inversion K1; subst inf'. rewrite H2 in K2; inversion K2; subst x'.
      destruct u1, u2. split; auto. intros _ _. split; [auto|]. split; [auto|]. simpl. rewrite H4, K4.
      apply Forall2_app; auto. constructor; [|constructor]. repeat split.
    + exfalso. destruct (add_split ev2 t (NStr nm) (AC (CNum q)) (AC (CNum 1%Qc)) AtNone TsNone m2) as [(e & E' & HX)|(c&s&qq&i&n&d&HA&E')].
      * apply add_ok_core in E1. destruct E1 as (c&s&qq&i&n&d&[A1 A2 A3 A4 A5 A6 A7 A8]&_).
        apply (HX c s (e_now ev2) i n d). constructor; auto. rewrite <- HN; auto.
      * destruct HA as [_ _ _ _ _ _ A7 _]. simpl in A7; inversion A7; subst d.
        destruct (add_body_aligned n i c s qq [] m2 (built_aligned _ B2)) as (z & Ez & _); [constructor|]. congruence.
  - destruct (add_interaction ev2 _ _ _ _ _ _ m2) as [n2 [u2|e2]] eqn:E2.
    + exfalso. destruct (add_split ev1 t (NStr nm) (AC (CNum q)) (AC (CNum 1%Qc)) AtNone TsNone m1) as [(e & E' & HX)|(c&s&qq&i&n&d&HA&E')].
      * apply add_ok_core in E2. destruct E2 as (c&s&qq&i&n&d&[A1 A2 A3 A4 A5 A6 A7 A8]&_).
        apply (HX c s (e_now ev1) i n d). constructor; auto. rewrite HN; auto.
      * destruct HA as [_ _ _ _ _ _ A7 _]. simpl in A7; inversion A7; subst d.
        destruct (add_body_aligned n i c s qq [] m1 (built_aligned _ B1)) as (z & Ez & _); [constructor|]. congruence.
    + simpl. split; [|intros u HH; discriminate]. f_equal.
      unfold add_interaction in E1, E2. cbv [guard bind lift ret get raise check_coef check_attrs check_ts] in E1, E2.
      destruct (t_truthy t); [|congruence]. destruct (interaction_info t) as [inf|]; [|congruence].
      destruct (add_name (NStr nm) (in_name inf)) as [x|]; [|congruence].
      unfold has_name in *. rewrite HN in E1. destruct (negb (mem x (names m2))); [|congruence].
      exfalso. cbv [modify] in E1.
      unfold expand_attrs in E1. cbn [m_attrs with_rows] in E1. rewrite (bl_attrs m1 B1) in E1. cbn in E1. discriminate.
Qed.
Lemma rel2_cadd1 ev1 ev2 l q v : rel2 (cadd1 ev1 l q v) (cadd1 ev2 l q v).
Proof. apply rel2_add. Qed.
Lemma rel2_cadd2 ev1 ev2 l q v w : rel2 (cadd2 ev1 l q v w) (cadd2 ev2 l q v w).
Proof. apply rel2_add. Qed.
Lemma rel2_pairs ev1 ev2 l q vs v : rel2 (cadd_pairs_of ev1 l q vs v) (cadd_pairs_of ev2 l q vs v).
Proof.
  apply rel2_mfor. intros w. destruct (String.ltb _ _); [apply rel2_cadd2|apply rel2_ret].
Qed.
Lemma sim_new : sim (new_model Qubo) (new_model Qubo).
Proof. split; [apply built_new|]. split; [apply built_new|constructor]. Qed.
Lemma to_model_indep ev1 ev2 c : snd (to_model ev1 c) = snd (to_model ev2 c) /\
  (forall u, snd (to_model ev1 c) = Ok u -> sim (fst (to_model ev1 c)) (fst (to_model ev2 c))).
Proof.
  destruct c as [vs n l s|vs l s|v1 v2 l s]; simpl; match goal with |- context [fst (?f (new_model Qubo))] => idtac end.
  - apply (rel2_mfor _ (fun v => cadd1 ev2 l (- (1) * s * (1 - qz 2 * qz n))%Qc v ;;; cadd_pairs_of ev2 l (- qz 2 * s)%Qc vs v)); [|apply sim_new].
    intros v. apply rel2_bind; [apply rel2_cadd1|apply rel2_pairs].
  - apply (rel2_mfor _ (fun v => cadd_pairs_of ev2 l (- qz 2 * s)%Qc vs v)); [|apply sim_new].
    intros v. apply rel2_pairs.
  - refine (rel2_bind _ (mfor (set_union v1 v2) (fun v => cadd1 ev2 l (- (1) * s)%Qc v)) _ (_ ;;; _ ;;; _) _ _ _ _ sim_new).
    + apply rel2_mfor. intros; apply rel2_cadd1.
    + apply rel2_bind; [apply rel2_mfor; intros; apply rel2_pairs|].
      apply rel2_bind; [apply rel2_mfor; intros; apply rel2_pairs|].
      apply rel2_mfor; intros. apply rel2_mfor; intros. apply rel2_cadd2.
Qed.

(** ** Conversion, up to names and timestamps *)
Definition xrow (a : string) (c : coef) : row := mkRow "" (K1 a) (I1 (mkVar a Spin)) c (CNum 1%Qc) None true false.
Definition extra (b : Qc) (r : row) : list row :=
  if body2_active r then match r_key r with
    | K2 l0 l1 => [xrow l0 (cmul (r_coef r) (CNum b)); xrow l1 (cmul (r_coef r) (CNum b))] | K1 _ => [] end else [].
Definition off_h (b : Qc) (l : list row) (o : coef) : coef :=
  fold_left (fun o r => if body1_active r then cadd o (cmul (r_coef r) (CNum b)) else o) l o.
Definition off_J (b : Qc) (l : list row) (o : coef) : coef :=
  fold_left (fun o r => if body2_active r then cadd o (cmul (r_coef r) (CNum b)) else o) l o.

Lemma conv_h_loop2 ev a b l2 : forall l1 m m' u,
  m_rows m = l1 ++ l2 -> NoDup (map r_name (l1 ++ l2)) ->
  mfor (filter body1_active l2) (conv_h ev a b) m = (m', Ok u) ->
  m' = with_offset (off_h b l2 (m_offset m)) (with_rows (l1 ++ map (Fh (e_import ev) a) l2) m).
Proof.
  induction l2 as [|r l2 IH]; intros l1 m m' u ER ND E; simpl in *.
  - minv. rewrite <- ER. destruct m'; reflexivity.
  - destruct (body1_active r) eqn:Eb; simpl in E.
    + apply bind_ok in E. destruct E as (m1 & u1 & E1 & E).
      unfold conv_h in E1. apply bind_ok in E1. destruct E1 as (m2 & u2 & E2 & E1).
      assert (HN : ~ In (r_name r) (map r_name l1)).
      { rewrite map_app in ND; simpl in ND. apply NoDup_remove_2 in ND. rewrite in_app_iff in ND; tauto. }
      destruct (upd_mid _ _ _ _ _ _ _ _ _ ER HN E2) as (HA & NE & [z Hz] & ->).
      inversion E1; subst m1 u1; clear E1 E2.
      apply (IH (l1 ++ [upd_fields (Some (cmul (r_coef r) (CNum a))) None (Some (e_import ev)) r])) in E.
      * rewrite E. unfold Fh at 2. rewrite Eb. rewrite <- app_assoc. reflexivity.
      * simpl. rewrite <- app_assoc. reflexivity.
      * rewrite !map_app in *. simpl in *. rewrite <- app_assoc. exact ND.
    + unfold Fh at 1. rewrite Eb. apply (IH (l1 ++ [r])) in E.
      * rewrite E, <- app_assoc. reflexivity.
      * rewrite <- app_assoc; auto.
      * rewrite <- app_assoc; auto.
Qed.
Lemma conv_J_step2 ev a b c k l1 r l2 m m' u :
  m_rows m = l1 ++ r :: l2 -> names_unique m -> key_ok r -> body2_active r = true ->
  conv_J ev a b c k r m = (m', Ok u) ->
  exists ex,
    m_rows m' = l1 ++ Fj (e_import ev) a r :: l2 ++ ex /\ names_unique m' /\
    m_offset m' = cadd (m_offset m) (cmul (r_coef r) (CNum c)) /\ Forall2 eqv ex (extra b r).
Proof.
  intros ER ND [HK1 HK2] Hb E. unfold names_unique, names in ND.
  assert (HN : ~ In (r_name r) (map r_name l1)).
  { rewrite ER, map_app in ND. simpl in ND. apply NoDup_remove_2 in ND. rewrite in_app_iff in ND; tauto. }
  unfold conv_J in E. apply bind_ok in E. destruct E as (m1 & u1 & E1 & E).
  destruct (upd_mid _ _ _ _ _ _ _ _ _ ER HN E1) as (HA & NE & [z Hz] & ->). clear E1.
  set (r' := upd_fields _ _ _ r) in *.
  destruct (r_inter r) as [w|w0 w1] eqn:EI; [discriminate|].
  destruct (r_key r) as [k0|k0 k1] eqn:EK; [discriminate|].
  simpl in HK1. inversion HK1; subst k0 k1; clear HK1.
  set (m1 := with_rows (l1 ++ r' :: l2) m) in *.
  assert (ND1 : names_unique m1).
  { unfold names_unique, names, m1; simpl. rewrite ER in ND. rewrite map_app in *; simpl in *; auto. }
  apply bind_ok in E. destruct E as (m2 & u2 & E2 & E).
  pose proof (add_names_fresh _ _ _ _ _ _ _ _ _ _ E2 ND1) as ND2.
  apply add_ok_core in E2. destruct E2 as (c2&s2&q2&i2&n2&d2&[A1 A2 A3 A4 A5 A6 A7 A8]&EC2).
  inversion A2; subst c2; clear A2. inversion A3; subst s2; clear A3.
  simpl in A5. inversion A5; subst i2; clear A5 A1 A7.
  apply bind_ok in E. destruct E as (m3 & u3 & E3 & E).
  pose proof (add_names_fresh _ _ _ _ _ _ _ _ _ _ E3 ND2) as ND3.
  apply add_ok_core in E3. destruct E3 as (c3&s3&q3&i3&n3&d3&[B1 B2 B3 B4 B5 B6 B7 B8]&EC3).
  inversion B2; subst c3; clear B2. inversion B3; subst s3; clear B3.
  simpl in B5. inversion B5; subst i3; clear B5 B1 B7.
  inversion E; subst m' u; clear E.
  set (x2 := new_row n2 _ _ _ _) in *. set (x3 := new_row n3 _ _ _ _) in *.
  pose proof (core_rows _ _ EC2) as R2. pose proof (core_rows _ _ EC3) as R3.
  pose proof (core_offset _ _ EC2) as O2. pose proof (core_offset _ _ EC3) as O3.
  cbn [m_rows m_offset with_rows] in R2, R3, O2, O3. unfold m1 in R2, O2. cbn [m_rows m_offset with_rows] in R2, O2.
  exists [x2; x3]. split; [|split; [|split]].
  - cbn [m_rows with_offset]. rewrite R3, R2. unfold Fj. rewrite Hb. fold r'. rewrite <- !app_assoc. reflexivity.
  - exact ND3.
  - cbn [m_offset with_offset]. rewrite O3, O2. reflexivity.
  - unfold extra. rewrite Hb, EK. constructor; [|constructor; [|constructor]]; repeat split.
Qed.
Lemma conv_J_loop2 ev a b c l2 : forall k l1 ex0 m m' u,
  m_rows m = l1 ++ l2 ++ ex0 -> names_unique m -> Forall key_ok l2 ->
  conv_Js ev a b c k (filter body2_active l2) m = (m', Ok u) ->
  exists ex, m_rows m' = l1 ++ map (Fj (e_import ev) a) l2 ++ ex0 ++ ex /\
    m_offset m' = off_J c l2 (m_offset m) /\ Forall2 eqv ex (flat_map (extra b) l2).
Proof.
  induction l2 as [|r l2 IH]; intros k l1 ex0 m m' u ER ND HK E; simpl in *.
  - minv. exists []. rewrite app_nil_r. split; [auto|]. split; [auto|constructor].
  - inversion HK as [|? ? HKr HK']; subst.
    destruct (body2_active r) eqn:Eb; simpl in E.
    + apply bind_ok in E. destruct E as (m1 & u1 & E1 & E).
      destruct (conv_J_step2 _ _ _ _ _ _ _ _ _ _ _ ER ND HKr Eb E1) as (ex1 & R1 & ND1 & O1 & X1).
      assert (ER1 : m_rows m1 = (l1 ++ [Fj (e_import ev) a r]) ++ l2 ++ (ex0 ++ ex1)).
      { rewrite R1, <- !app_assoc. reflexivity. }
      destruct (IH _ _ _ _ _ _ ER1 ND1 HK' E) as (ex2 & R2 & O2 & X2).
      exists (ex1 ++ ex2). split; [rewrite R2, <- !app_assoc; reflexivity|].
      split; [rewrite O2, O1; reflexivity|]. apply Forall2_app; auto.
    + assert (ER1 : m_rows m = (l1 ++ [r]) ++ l2 ++ ex0) by (rewrite ER, <- app_assoc; auto).
      destruct (IH _ _ _ _ _ _ ER1 ND HK' E) as (ex2 & R2 & O2 & X2).
      exists ex2. split.
      { rewrite R2. unfold Fj at 2. rewrite Eb. rewrite <- !app_assoc. reflexivity. }
      split; [auto|]. unfold extra at 1. rewrite Eb. auto.
Qed.

(** What the code's conversion leaves, exactly, up to names and timestamps. *)
Lemma convert_exact ev t ha hb ja jb jc m m' u :
  convert ev t ha hb ja jb jc m = (m', Ok u) -> mtype_eqb (m_mtype m) t = false -> well_formed m ->
  Forall2 eqv (m_rows m') (map (conv_row (e_import ev) ha ja t) (m_rows m) ++ flat_map (extra jb) (m_rows m)) /\
  m_offset m' = off_J jc (m_rows m) (off_h hb (m_rows m) (m_offset m)).
Proof.
  intros E HT [ND HK]. unfold convert in E.
  apply bind_ok in E. destruct E as (m1 & x & E1 & E). inversion E1; subst m1 x; clear E1.
  rewrite HT in E.
  apply bind_ok in E. destruct E as (m1 & x & E1 & E). inversion E1; subst m1 x; clear E1.
  apply bind_ok in E. destruct E as (m1 & x & E1 & E).
  unfold update_variables_type in E1. simpl in E1.
  destruct (recreate (vt_of t) [] (m_vars m)) as [vs [[]|e]] eqn:EV; [|discriminate].
  destruct (df_ok _) in E1; [|discriminate]. inversion E1; subst m1 x; clear E1.
  apply bind_ok in E. destruct E as (m2 & h & E2 & E). apply dataframe_ok in E2. destruct E2 as [-> ->].
  apply bind_ok in E. destruct E as (m3 & x & E3 & E).
  set (m2 := with_rows _ _) in E3.
  assert (R2 : m_rows m2 = [] ++ map (retype_row t) (m_rows m)) by reflexivity.
  assert (NM : map r_name (map (retype_row t) (m_rows m)) = map r_name (m_rows m)).
  { rewrite map_map. apply map_ext. intros r; apply retype_fields. }
  change (m_rows m2) with (map (retype_row t) (m_rows m)) in E3.
  apply (conv_h_loop2 ev ha hb _ [] m2) in E3; [|exact R2|cbn [app]; rewrite NM; exact ND].
  subst m3.
  apply bind_ok in E. destruct E as (m4 & j & E4 & E). apply dataframe_ok in E4. destruct E4 as [-> ->].
  set (m3 := with_offset _ _) in E.
  set (l := map (Fh (e_import ev) ha) (map (retype_row t) (m_rows m))) in *.
  assert (R3 : m_rows m3 = [] ++ l ++ []) by (rewrite app_nil_r; reflexivity).
  assert (NL : map r_name l = map r_name (m_rows m)).
  { unfold l. rewrite map_map, <- NM. apply map_ext. intros; apply Fh_fields. }
  assert (ND3 : names_unique m3).
  { unfold names_unique, names. rewrite R3, app_nil_r. simpl. rewrite NL. exact ND. }
  assert (HK3 : Forall key_ok l).
  { unfold l. rewrite map_map. rewrite Forall_map. eapply Forall_impl; [|exact HK].
    intros r Hr. simpl. apply (retype_ok t) in Hr.
    destruct (Fh_fields (e_import ev) ha (retype_row t r)) as (_&B2&B3&_).
    unfold key_ok. rewrite B2, B3. exact Hr. }
  change (m_rows m3) with l in E.
  destruct (conv_J_loop2 _ _ _ _ _ _ _ _ _ _ _ R3 ND3 HK3 E) as (ex & R4 & O4 & X4).
  assert (HB : forall r, body1_active (retype_row t r) = body1_active r /\ r_coef (retype_row t r) = r_coef r).
  { intros r. split; [apply retype_bodies|apply retype_fields]. }
  assert (HF : forall r, body2_active (Fh (e_import ev) ha (retype_row t r)) = body2_active r /\
     (body2_active r = true -> r_coef (Fh (e_import ev) ha (retype_row t r)) = r_coef r) /\
     r_key (Fh (e_import ev) ha (retype_row t r)) = r_key r).
  { intros r. destruct (Fh_fields (e_import ev) ha (retype_row t r)) as (_&B2&_&_&_&_&B7&B8).
    destruct (retype_fields t r) as (_&C2&C3&_). destruct (retype_bodies t r) as [D1 D2]. rewrite B2, B7, B8, C2, C3, D1, D2.
    repeat split; auto. intros H2. destruct (body1_active r) eqn:H1; auto.
    rewrite (body_excl _ H1) in H2; discriminate. }
  split.
  - rewrite R4. simpl. apply Forall2_app.
    + unfold l. rewrite !map_map. apply Forall2_refl. intros r; repeat split.
    + replace (flat_map (extra jb) (m_rows m)) with (flat_map (extra jb) l); auto.
      unfold l. clear -HF. induction (m_rows m) as [|r rs IH]; simpl; auto.
      rewrite IH. f_equal. unfold extra. destruct (HF r) as (F1 & F2 & F3). rewrite F1, F3.
      destruct (body2_active r); auto. rewrite F2; auto.
  - rewrite O4. unfold m3. simpl.
    assert (H1 : forall o, off_h hb (map (retype_row t) (m_rows m)) o = off_h hb (m_rows m) o).
    { clear -HB. unfold off_h. induction (m_rows m) as [|r rs IH]; simpl; auto. intros o. rewrite IH.
      destruct (HB r) as [-> ->]. auto. }
    rewrite H1. unfold l. generalize (off_h hb (m_rows m) (m_offset m)). clear -HF.
    unfold off_J. induction (m_rows m) as [|r rs IH]; simpl; auto. intros o. rewrite IH.
    destruct (HF r) as (F1 & F2 & F3). rewrite F1. destruct (body2_active r); auto. rewrite F2; auto.
Qed.

(** Models with equal energies for every purpose of to_physical. *)
Definition same_terms (a b : lmodel) : Prop := Forall2 eqv (m_rows a) (m_rows b) /\ m_offset a = m_offset b.

Lemma simr_eqv a b : simr a b -> eqv a b.
Proof. unfold simr, eqv; tauto. Qed.
Lemma eqv_body a b : eqv a b -> body1_active a = body1_active b /\ body2_active a = body2_active b.
Proof. intros (A&B&C&D). unfold body1_active, body2_active. rewrite A, D; auto. Qed.
Lemma eqv_conv ts ts' ha ja t a b : eqv a b -> eqv (conv_row ts ha ja t a) (conv_row ts' ha ja t b).
Proof.
  intros H. pose proof (eqv_body _ _ H) as [B1 B2]. destruct H as (A&B&C&D).
  destruct (conv_row_fields ts ha ja t a) as (_&F1&F2&F3&_&_&F4).
  destruct (conv_row_fields ts' ha ja t b) as (_&G1&G2&G3&_&_&G4).
  unfold eqv. rewrite F1, F2, F3, F4, G1, G2, G3, G4, A, B, C, D, B1, B2. auto.
Qed.
Lemma eqv_extra b x y : eqv x y -> extra b x = extra b y.
Proof. intros H. pose proof (eqv_body _ _ H) as [_ B2]. destruct H as (A&B&C&D). unfold extra. rewrite B2, A, B. auto. Qed.
Lemma eqv_sym a b : eqv a b -> eqv b a.
Proof. unfold eqv. intuition congruence. Qed.
Lemma eqv_trans a b c : eqv a b -> eqv b c -> eqv a c.
Proof. unfold eqv. intuition congruence. Qed.
Lemma Forall2_sym {A} (R : A -> A -> Prop) l l' : (forall a b, R a b -> R b a) -> Forall2 R l l' -> Forall2 R l' l.
Proof. intros HR H; induction H; constructor; auto. Qed.

Lemma convert_same ev1 ev2 t ha hb ja jb jc m1 m2 n1 n2 u1 u2 :
  convert ev1 t ha hb ja jb jc m1 = (n1, Ok u1) -> convert ev2 t ha hb ja jb jc m2 = (n2, Ok u2) ->
  m_mtype m1 = m_mtype m2 -> well_formed m1 -> well_formed m2 -> same_terms m1 m2 -> same_terms n1 n2.
Proof.
  intros E1 E2 HT W1 W2 [SR SO]. destruct (mtype_eqb (m_mtype m1) t) eqn:ET.
  - unfold convert, bind, get in E1, E2. rewrite <- HT in E2. rewrite ET in E1, E2. inversion E1; inversion E2; subst. split; auto.
  - destruct (convert_exact _ _ _ _ _ _ _ _ _ _ E1 ET W1) as [R1 O1].
    rewrite HT in ET. destruct (convert_exact _ _ _ _ _ _ _ _ _ _ E2 ET W2) as [R2 O2].
    split.
    + eapply Forall2_trans; [exact eqv_trans|exact R1|].
      eapply Forall2_trans; [exact eqv_trans| |apply (Forall2_sym _ _ _ eqv_sym R2)].
      apply Forall2_app.
      * clear -SR. induction SR; simpl; constructor; auto. apply eqv_conv; auto.
      * clear -SR. induction SR as [|a b l l' H HF IH]; simpl; [constructor|]. apply Forall2_app; auto.
        rewrite (eqv_extra _ _ _ H). apply Forall2_refl. intros; repeat split.
    + rewrite O1, O2, SO. unfold off_J, off_h.
      rewrite (fold2 eqv (fun o r => if body1_active r then cadd o (cmul (r_coef r) (CNum hb)) else o)
                 (fun o r => if body1_active r then cadd o (cmul (r_coef r) (CNum hb)) else o) (m_rows m1) (m_rows m2)); auto.
      * apply (fold2 eqv); auto. intros d a b H. destruct (eqv_body _ _ H) as [_ ->]. destruct H as (_&->&_). auto.
      * intros d a b H. destruct (eqv_body _ _ H) as [-> _]. destruct H as (_&->&_). auto.
Qed.

Lemma sim_same m1 m2 : sim m1 m2 -> same_terms m1 m2.
Proof.
  intros (B1 & B2 & HR). split; [eapply Forall2_mono; [exact simr_eqv|exact HR]|].
  rewrite (bl_off _ B1), (bl_off _ B2); auto.
Qed.
Lemma built_qubo m : built m -> m_mtype m = Qubo.
Proof. intros B. pose proof (bl_frame _ B) as F. apply (f_equal (fun z => fst (fst (fst (fst (fst z)))))) in F; exact F. Qed.

Lemma cmodel_indep ev1 ev2 t c cm1 cm2 : cmodel ev1 t c = Ok cm1 -> cmodel ev2 t c = Ok cm2 -> same_terms cm1 cm2.
Proof.
  unfold cmodel. destruct (to_model_indep ev1 ev2 c) as [ES HS].
  destruct (to_model ev1 c) as [a1 [u1|e1]] eqn:E1; [|discriminate].
  destruct (to_model ev2 c) as [a2 [u2|e2]] eqn:E2; [|discriminate]. simpl in *.
  specialize (HS u1 eq_refl). pose proof (sim_same _ _ HS) as SS. destruct HS as (B1 & B2 & _).
  destruct (mtype_eqb t Qubo).
  - intros X Y; inversion X; inversion Y; subst; auto.
  - destruct (to_ising ev1 a1) as [b1 [w1|]] eqn:F1; [|discriminate].
    destruct (to_ising ev2 a2) as [b2 [w2|]] eqn:F2; [|discriminate].
    intros X Y; inversion X; inversion Y; subst.
    eapply (convert_same ev1 ev2); [exact F1|exact F2|..]; auto using built_wf.
    rewrite (built_qubo _ B1), (built_qubo _ B2); auto.
Qed.
(** For QUBO models, whether a constraint's model can be built does not depend
    on the environment either. *)
Lemma cmodel_qubo_ok ev1 ev2 c cm : cmodel ev1 Qubo c = Ok cm -> exists cm', cmodel ev2 Qubo c = Ok cm' /\ names cm' = names cm.
Proof.
  unfold cmodel. destruct (to_model_indep ev1 ev2 c) as [ES HS].
  destruct (to_model ev1 c) as [a1 [u1|e1]] eqn:E1; [|discriminate].
  destruct (to_model ev2 c) as [a2 [u2|e2]] eqn:E2; [|discriminate]. simpl in *.
  intros X; inversion X; subst. exists a2. split; auto.
  destruct (HS u1 eq_refl) as (_ & _ & HR). symmetry. apply simr_names; auto.
Qed.
Lemma cmodels_indep ev1 ev2 t cs : forall k1 k2 cms1 cms2,
  cmodels ev1 k1 t cs = Ok cms1 -> cmodels ev2 k2 t cs = Ok cms2 -> Forall2 same_terms cms1 cms2.
Proof.
  induction cs as [|c cs IH]; simpl; intros k1 k2 a b E1 E2.
  - inversion E1; inversion E2; constructor.
  - destruct (cmodel (ev1 k1) t c) eqn:C1; [|discriminate]. destruct (cmodels ev1 (S k1) t cs) eqn:D1; [|discriminate].
    destruct (cmodel (ev2 k2) t c) eqn:C2; [|discriminate]. destruct (cmodels ev2 (S k2) t cs) eqn:D2; [|discriminate].
    inversion E1; inversion E2; subst. constructor; eauto using cmodel_indep.
Qed.
Lemma cmodels_qubo_ok ev1 ev2 cs : forall k1 k2 cms, cmodels ev1 k1 Qubo cs = Ok cms ->
  exists cms', cmodels ev2 k2 Qubo cs = Ok cms' /\ flat_map names cms' = flat_map names cms.
Proof.
  induction cs as [|c cs IH]; simpl; intros k1 k2 cms E.
  - inversion E; subst. exists []. auto.
  - destruct (cmodel (ev1 k1) Qubo c) eqn:C1; [|discriminate]. destruct (cmodels ev1 (S k1) Qubo cs) eqn:D1; [|discriminate].
    inversion E; subst. destruct (cmodel_qubo_ok _ (ev2 k2) _ _ C1) as (x & -> & N1).
    destruct (IH _ (S k2) _ D1) as (y & -> & N2). exists (x :: y). split; auto. simpl. congruence.
Qed.

(** ** Equal physical models *)
Lemma fold_kept {D} (f : D -> row -> D) l : (forall d r, r_removed r = true -> f d r = d) ->
  (forall d r, f d (set_dirty false r) = f d r) ->
  forall d, fold_left f (map (set_dirty false) (filter kept l)) d = fold_left f l d.
Proof.
  intros H1 H2. induction l as [|r l IH]; simpl; auto. intros d. unfold kept at 1.
  destruct (r_removed r) eqn:E; simpl.
  - rewrite H1 by auto. auto.
  - rewrite H2. auto.
Qed.
Lemma rows_same cms1 cms2 : Forall2 same_terms cms1 cms2 ->
  Forall2 eqv (flat_map m_rows cms1) (flat_map m_rows cms2) /\
  forall fd, map (fun c => value fd (m_offset c)) cms1 = map (fun c => value fd (m_offset c)) cms2.
Proof.
  induction 1 as [|a b l l' [H1 H2] HF [IH1 IH2]]; simpl; [split; [constructor|auto]|]. split.
  - apply Forall2_app; auto.
  - intros fd. rewrite H2, IH2; auto.
Qed.
Lemma phys_again fd m m' p cms1 cms2 : purged m p m' -> Forall2 same_terms cms1 cms2 ->
  phys fd m' cms2 = phys fd m cms1.
Proof.
  intros [PR PF _ _] HS. destruct (rows_same _ _ HS) as [HE HO]. unfold phys, all_rows.
  rewrite PR, !fold_left_app.
  rewrite !fold_kept; try (intros; unfold add_lin, add_quad; rewrite ?H; reflexivity).
  rewrite (fold2 eqv (add_lin fd) (add_lin fd) _ _ (fun d a b H => eqv_add_lin fd d a b H) HE).
  rewrite (fold2 eqv (add_quad fd) (add_quad fd) _ _ (fun d a b H => eqv_add_quad fd d a b H) HE).
  rewrite (HO fd).
  unfold frame2, frame in PF; simpl in PF. inversion PF. reflexivity.
Qed.
