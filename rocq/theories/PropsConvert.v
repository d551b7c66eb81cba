(** * PropsConvert: C19-C21 - converting a model between Ising and QUBO. *)
From Verif Require Import PyBase PyLemmas Constraint LogicalModel Spec LogicalProofs EnergyProofs ConvertProofs
  ConstraintProofs MergeProofs PhysicalProofs ToPhysicalProofs InteractionProofs Samples PropsPhysical PropsInteractions PropsVariables.
Open Scope list_scope.

(** ** C19 *)

(** Corresponding assignments. *)
Lemma to_binary_spin s : spin s -> binary (to_binary s).
Proof.
  intros H l. unfold to_binary. destruct (H l) as [->| ->]; [left|right]; apply Qc_is_canon; reflexivity.
Qed.
Lemma to_spin_binary x : binary x -> spin (to_spin x).
Proof.
  intros H l. unfold to_spin. destruct (H l) as [->| ->]; [left|right]; apply Qc_is_canon; reflexivity.
Qed.
Lemma qz2_neq0 : qz 2 <> 0%Qc.
Proof. intros H. apply (f_equal this) in H. discriminate. Qed.
Lemma to_binary_to_spin x l : to_binary (to_spin x) l = x l.
Proof. unfold to_binary, to_spin. field. apply qz2_neq0. Qed.
Lemma to_spin_to_binary s l : to_spin (to_binary s) l = s l.
Proof. unfold to_binary, to_spin. field. apply qz2_neq0. Qed.

Theorem C19_to_ising : forall ev m m' fd, well_formed m -> unit_scales m -> resolves fd (m_offset m) -> m_mtype m = Qubo ->
  to_ising ev m = (m', Ok tt) ->
  m_mtype m' = Ising /\ exists k, forall s, energy fd s m' = (energy fd (to_binary s) m + k)%Qc.
Proof.
  intros ev m m' fd HW HU HO HT E. split; [eapply shifts_cancel_qi; eauto|].
  exists (shift_ising fd m). intros s. eapply to_ising_energy; eauto.
Qed.
Theorem C19_to_qubo : forall ev m m' fd, well_formed m -> unit_scales m -> resolves fd (m_offset m) -> m_mtype m = Ising ->
  to_qubo ev m = (m', Ok tt) ->
  m_mtype m' = Qubo /\ exists k, forall x, energy fd x m' = (energy fd (to_spin x) m + k)%Qc.
Proof.
  intros ev m m' fd HW HU HO HT E. split; [eapply shifts_cancel_iq; eauto|].
  exists (shift_qubo fd m). intros s. eapply to_qubo_energy; eauto.
Qed.
(** Hence the assignments that minimise the energy correspond. *)
Definition minimises (dom : assignment -> Prop) (e : assignment -> Qc) (s : assignment) : Prop :=
  dom s /\ forall s', dom s' -> (e s <= e s')%Qc.
Corollary C19_minima : forall ev m m' fd, well_formed m -> unit_scales m -> resolves fd (m_offset m) -> m_mtype m = Qubo ->
  to_ising ev m = (m', Ok tt) ->
  forall s, spin s -> (minimises spin (fun s => energy fd s m') s <-> minimises binary (fun x => energy fd x m) (to_binary s)).
Proof.
  intros ev m m' fd HW HU HO HT E s HS.
  destruct (C19_to_ising _ _ _ _ HW HU HO HT E) as [_ [k HK]].
  split; intros [_ H]; (split; [auto using to_binary_spin|]).
  - intros x HX. specialize (H (to_spin x) (to_spin_binary x HX)). rewrite !HK in H.
    rewrite (energy_ext fd (to_binary (to_spin x)) x) in H by (intros; apply to_binary_to_spin).
    pose proof (Qcplus_le_compat _ _ _ _ H (Qcle_refl (- k))) as H2.
    replace (energy fd (to_binary s) m + k + - k)%Qc with (energy fd (to_binary s) m) in H2 by ring.
    replace (energy fd x m + k + - k)%Qc with (energy fd x m) in H2 by ring. exact H2.
  - intros s' HS'. rewrite !HK. apply Qcplus_le_compat; [|apply Qcle_refl]. apply H. apply to_binary_spin; auto.
Qed.
(** A model that already has the type is left alone. *)
Theorem C19_same_type : forall ev m, (m_mtype m = Ising -> to_ising ev m = (m, Ok tt)) /\ (m_mtype m = Qubo -> to_qubo ev m = (m, Ok tt)).
Proof. intros ev m. split; intros H; unfold to_ising, to_qubo, convert, bind, get; rewrite H; reflexivity. Qed.
(** The variables keep their shapes and labels and get the new type. *)
Lemma recreate_spec vt todo : forall done vs, recreate vt done todo = (vs, Ok tt) ->
  exists new, vs = done ++ new /\ Forall2 (fun na na' => fst na' = fst na /\ array_create (fst na) (a_shape (snd na)) vt = Ok (snd na')) todo new.
Proof.
  induction todo as [|[n a] todo IH]; intros done vs E; simpl in E.
  - inversion E; subst. exists []. rewrite app_nil_r. auto.
  - destruct (array_create n (a_shape a) vt) as [a'|e] eqn:EC; [|discriminate].
    apply IH in E. destruct E as (new & -> & F). exists ((n, a') :: new). rewrite <- app_assoc. split; auto.
Qed.
Definition same_shape_and_labels (a a' : array) : Prop :=
  a_shape a' = a_shape a /\ map v_label (a_bits a') = map v_label (a_bits a).
Lemma retype_array n sh vt a vt' a' : array_create n sh vt = Ok a -> array_create n (a_shape a) vt' = Ok a' ->
  same_shape_and_labels a a' /\ Forall (fun v => v_type v = vt') (a_bits a').
Proof.
  unfold array_create. destruct (has_char "*"%char n); [discriminate|]. destruct sh as [|z sh]; [discriminate|].
  destruct (forallb _ _) eqn:EF; [|discriminate]. intros E E'. inversion E; subst; clear E. cbn [a_shape] in E'.
  rewrite EF in E'. inversion E'; subst; clear E'. split.
  - split; [reflexivity|]. simpl. rewrite !map_map. reflexivity.
  - simpl. apply Forall_forall. intros v HI. apply in_map_iff in HI. destruct HI as (idx & <- & _). reflexivity.
Qed.
Theorem C19_variables : forall ev t ha hb ja jb jc m m', declared_by_name (m_vars m) -> well_formed m -> m_mtype m <> t ->
  convert ev t ha hb ja jb jc m = (m', Ok tt) ->
  Forall2 (fun na na' => fst na' = fst na /\ same_shape_and_labels (snd na) (snd na') /\
                         Forall (fun v => v_type v = kind_of t) (a_bits (snd na'))) (m_vars m) (m_vars m').
Proof.
  change kind_of with vt_of.
  intros ev t ha hb ja jb jc m m' [_ HD] HW HT E.
  assert (HT' : mtype_eqb (m_mtype m) t = false) by (destruct (m_mtype m), t; auto; congruence).
  destruct (convert_ok _ _ _ _ _ _ _ _ _ _ E HT' HW) as (ex & off & vs & _ & _ & F & R & _).
  injection F as _ F _ _ _ _. rewrite F. apply recreate_spec in R. destruct R as (new & -> & R). simpl.
  clear -HD R. revert HD. induction R as [|[n a] [n' a'] l l' [H1 H2] R IH]; intros HD; constructor.
  - simpl in *. subst n'. destruct (HD n a) as (_ & sh & vt & EC); [simpl; auto|].
    destruct (retype_array _ _ _ _ _ _ EC H2). auto.
  - apply IH. intros nn b HI. apply HD. simpl; auto.
Qed.

(** When conversion succeeds. *)
Fixpoint added_names (ev : env) (k : nat) (l : list row) : list string :=
  match l with
  | [] => []
  | r :: rest => match r_key r with
                 | K2 a b => [mtype_add_name ev (2 * k) a (r_name r); mtype_add_name ev (2 * k + 1) b (r_name r)]
                 | K1 _ => [] end ++ added_names ev (S k) rest
  end.
Definition numeric (m : lmodel) : Prop := forall r, In r (m_rows m) -> active r -> exists q, r_coef r = CNum q.
Lemma aligned_df m : aligned m -> df_ok m = true.
Proof.
  intros (A & _ & _ & D). unfold df_ok. apply forallb_forall. intros c Hc. apply Nat.eqb_eq.
  rewrite Forall_forall in D. rewrite (D c Hc). auto.
Qed.
Lemma conv_h_succeeds ev a b l2 : forall l1 m,
  m_rows m = l1 ++ l2 -> NoDup (map r_name (l1 ++ l2)) ->
  (forall r, In r l2 -> active r -> (exists q, r_coef r = CNum q) /\ r_name r <> ""%string) ->
  exists off, mfor (filter body1_active l2) (conv_h ev a b) m =
    (with_offset off (with_rows (l1 ++ map (Fh (e_import ev) a) l2) m), Ok tt).
Proof.
  induction l2 as [|r l2 IH]; intros l1 m ER ND HA; simpl.
  - exists (m_offset m). unfold ret. rewrite <- ER. destruct m; reflexivity.
  - destruct (body1_active r) eqn:Eb; simpl.
    + assert (HR : r_removed r = false) by (unfold body1_active in Eb; destruct (r_removed r); auto; discriminate).
      destruct (HA r (or_introl eq_refl) HR) as [[q Hq] HNE].
      assert (HN : ~ In (r_name r) (map r_name l1)).
      { rewrite map_app in ND; simpl in ND. apply NoDup_remove_2 in ND. rewrite in_app_iff in ND; tauto. }
      unfold bind at 1. unfold conv_h at 1. unfold bind at 1. rewrite Hq. change (cmul (CNum q) (CNum a)) with (CNum (q * a)%Qc).
      unfold update_default_ts. rewrite (upd_mid_ok ev (q * a)%Qc (e_import ev) m l1 r l2 ER HN HR HNE).
      unfold modify. set (m1 := with_offset _ _).
      destruct (IH (l1 ++ [upd_fields (Some (cmul (r_coef r) (CNum a))) None (Some (e_import ev)) r]) m1) as [off Eo].
      * unfold m1. simpl. rewrite <- app_assoc. rewrite Hq. reflexivity.
      * rewrite !map_app in *. simpl in *. rewrite <- app_assoc. exact ND.
      * intros x HI. apply HA. simpl; auto.
      * exists off. rewrite Eo. unfold Fh at 2. rewrite Eb. rewrite <- app_assoc. reflexivity.
    + unfold Fh at 1. rewrite Eb. destruct (IH (l1 ++ [r]) m) as [off Eo].
      * rewrite <- app_assoc. auto.
      * rewrite <- app_assoc. auto.
      * intros x HI. apply HA. simpl; auto.
      * exists off. rewrite Eo. rewrite <- app_assoc. reflexivity.
Qed.
Lemma add_plain_succeeds ev v nm c m : aligned m -> nm <> ""%string -> ~ In nm (names m) ->
  exists m' r, add_interaction ev (TVar v) (NStr nm) (AC c) (AC (CNum 1%Qc)) AtNone TsNone m = (m', Ok tt) /\ aligned m' /\
    m_rows m' = m_rows m ++ [r] /\ r_name r = nm /\ r_removed r = false /\ r_key r = K1 (v_label v) /\ r_coef r = c.
Proof.
  intros HA HNE HF. assert (WF : attrs_wf AtNone) by (intros d H; discriminate).
  destruct (proj2 (C03_succeeds_iff ev (TVar v) (NStr nm) (AC c) (AC (CNum 1%Qc)) AtNone TsNone m HA WF)) as [m2 E2].
  { exists c, (CNum 1%Qc), (I1 v), (v_label v), nm. do 4 (split; [try reflexivity; discriminate|]). split; [constructor|]. split; [|auto].
    right. split; auto. }
  destruct (C03_effect _ _ _ _ _ _ _ _ _ HA WF E2) as (c' & s' & i & dn & nm' & EC & _ & HD & HS & _ & ER2 & _ & AL2 & _).
  exists m2. eexists. split; [exact E2|]. split; [exact AL2|]. split; [exact ER2|]. simpl.
  assert (nm' = nm). { destruct HS as [[H _]|[H _]]; [|congruence]. destruct nm; [congruence|discriminate]. }
  inversion HD; subst. inversion EC; subst. auto.
Qed.
Lemma add_name_ne ev k a n : mtype_add_name ev k a n <> ""%string.
Proof. unfold mtype_add_name. destruct a; discriminate. Qed.
Lemma conv_J_succeeds ev a b c k l1 r l2 m : aligned m ->
  m_rows m = l1 ++ r :: l2 -> key_ok r -> body2_active r = true ->
  (exists q, r_coef r = CNum q) -> r_name r <> ""%string ->
  NoDup (names m ++ added_names ev k [r]) ->
  exists m' ex, conv_J ev a b c k r m = (m', Ok tt) /\ aligned m' /\
    m_rows m' = l1 ++ Fj (e_import ev) a r :: l2 ++ ex /\ map r_name ex = added_names ev k [r].
Proof.
  intros HA ER [HK1 HK2] Hb [q Hq] HNE ND.
  assert (HR : r_removed r = false) by (unfold body2_active in Hb; destruct (r_removed r); auto; discriminate).
  pose proof ND as ND'. unfold names in ND'. rewrite ER, map_app in ND'. simpl map in ND'. apply NoDup_app_iff in ND'. destruct ND' as (NDa & NDb & NDc).
  assert (HN : ~ In (r_name r) (map r_name l1)).
  { apply NoDup_remove_2 in NDa. rewrite in_app_iff in NDa; tauto. }
  unfold conv_J. rewrite Hq. change (cmul (CNum q) (CNum a)) with (CNum (q * a)%Qc).  change (cmul (CNum q) (CNum b)) with (CNum (q * b)%Qc). unfold update_default_ts. unfold bind at 1.
  rewrite (upd_mid_ok ev (q * a)%Qc (e_import ev) m l1 r l2 ER HN HR HNE).
  assert (EKE : exists la lb, r_key r = K2 la lb).
  { unfold body2_active in Hb. destruct (r_key r); [rewrite andb_false_r in Hb; discriminate|eauto]. }
  destruct EKE as (la & lb & EK). simpl added_names in *. rewrite EK in *. unfold inter_key in HK1. destruct (r_inter r) as [w|w0 w1] eqn:EI; [discriminate|].
  injection HK1 as EA EB.
  set (r1 := upd_fields (Some (CNum (q * a))) None (Some (e_import ev)) r). set (m1 := with_rows (l1 ++ r1 :: l2) m).
  assert (HA1 : aligned m1).
  { destruct HA as (A & B & C & D). split; [|split; [|split]]; auto. simpl. rewrite A, ER, !app_length. reflexivity. }
  assert (NM1 : names m1 = names m) by (unfold names; simpl; rewrite ER, !map_app; reflexivity).
  cbn [app] in *.
  replace (k + (k + 0)) with (2 * k) in * by lia.
  destruct (add_plain_succeeds ev w0 (mtype_add_name ev (2 * k) la (r_name r)) (CNum (q * b)) m1 HA1 (add_name_ne _ _ _ _)) as (m2 & ra & E2 & HA2 & ER2 & NR2 & _).
  { rewrite NM1. intros HI. apply NoDup_app_iff in ND. destruct ND as (_ & _ & ND). apply (ND _ HI). simpl; auto. }
  unfold bind at 1. rewrite E2.
  destruct (add_plain_succeeds ev w1 (mtype_add_name ev (2 * k + 1) lb (r_name r)) (CNum (q * b)) m2 HA2 (add_name_ne _ _ _ _)) as (m3 & rb & E3 & HA3 & ER3 & NR3 & _).
  { unfold names. rewrite ER2, map_app. fold (names m1). rewrite NM1. intros HI. apply in_app_iff in HI. destruct HI as [HI|[HI|[]]].
    - apply NoDup_app_iff in ND. destruct ND as (_ & _ & ND). apply (ND _ HI). simpl; auto.
    - inversion NDb as [|? ? HX _]; subst. apply HX. left. exact (eq_trans (eq_sym HI) NR2). }
  unfold bind at 1. rewrite E3. unfold modify. eexists. exists [ra; rb]. split; [reflexivity|]. split; [|split].
  - destruct HA3 as (A & B & C & D). split; [|split; [|split]]; auto.
  - simpl. rewrite ER3, ER2. unfold m1. simpl. unfold Fj. rewrite Hb. rewrite <- !app_assoc. unfold r1. rewrite Hq. reflexivity.
  - simpl. rewrite NR2, NR3. reflexivity.
Qed.
Lemma conv_Js_succeeds ev a b c l2 : forall k l1 ex0 m, aligned m ->
  m_rows m = l1 ++ l2 ++ ex0 -> Forall key_ok l2 ->
  (forall r, In r l2 -> active r -> (exists q, r_coef r = CNum q) /\ r_name r <> ""%string) ->
  NoDup (names m ++ added_names ev k (filter body2_active l2)) ->
  exists m', conv_Js ev a b c k (filter body2_active l2) m = (m', Ok tt) /\ aligned m' /\ names m' = names m ++ added_names ev k (filter body2_active l2).
Proof.
  induction l2 as [|r l2 IH]; intros k l1 ex0 m HA ER HK HQ ND; simpl.
  - exists m. rewrite app_nil_r. auto.
  - inversion HK as [|? ? HKr HK']; subst. simpl in ND. destruct (body2_active r) eqn:Eb; simpl.
    + assert (HR : r_removed r = false) by (unfold body2_active in Eb; destruct (r_removed r); auto; discriminate).
      destruct (HQ r (or_introl eq_refl) HR) as [Hq HNE].
      assert (EA : added_names ev k (r :: filter body2_active l2) = added_names ev k [r] ++ added_names ev (S k) (filter body2_active l2)).
      { cbn [added_names]. rewrite app_nil_r. reflexivity. }
      rewrite EA, app_assoc in ND. pose proof ND as ND'. apply NoDup_app_iff in ND'. destruct ND' as (ND1 & _).
      destruct (conv_J_succeeds ev a b c k l1 r (l2 ++ ex0) m HA ER HKr Eb Hq HNE ND1) as (m1 & ex & E1 & HA1 & ER1 & EX).
      assert (EN : names m1 = names m ++ added_names ev k [r]).
      { unfold names. rewrite ER1, ER, <- EX. rewrite ?map_app. cbn [map app]. rewrite ?map_app.
        destruct (Fj_fields (e_import ev) a r) as (-> & _). rewrite <- !app_assoc. cbn [app]. rewrite <- !app_assoc. reflexivity. }
      unfold bind. rewrite E1. destruct (IH (S k) (l1 ++ [Fj (e_import ev) a r]) (ex0 ++ ex) m1) as (m' & E' & HA' & EN'); auto.
      * rewrite ER1, <- !app_assoc. reflexivity.
      * intros x HI. apply HQ. simpl; auto.
      * rewrite EN. exact ND.
      * exists m'. split; [exact E'|]. split; [exact HA'|]. cbn [added_names] in EA, EN. rewrite EN', EN, <- app_assoc. f_equal. symmetry. exact EA.
    + apply (IH k (l1 ++ [r]) ex0); auto.
      * rewrite ER, <- app_assoc. reflexivity.
      * intros x HI. apply HQ. simpl; auto.
Qed.
Lemma recreate_succeeds vt todo : (forall n a, In (n, a) todo -> exists a', array_create n (a_shape a) vt = Ok a') ->
  forall done, exists vs, recreate vt done todo = (vs, Ok tt).
Proof.
  induction todo as [|[n a] todo IH]; intros H done; simpl; [eauto|].
  destruct (H n a) as [a' ->]; [simpl; auto|]. apply IH. intros; apply H; simpl; auto.
Qed.
Theorem C19_succeeds : forall ev t ha hb ja jb jc m, aligned m -> well_formed m -> numeric m ->
  (forall n a, In (n, a) (m_vars m) -> regular n a) ->
  (forall r, In r (m_rows m) -> r_name r <> ""%string) ->
  NoDup (names m ++ added_names ev 0 (filter body2_active (m_rows m))) ->
  exists m', convert ev t ha hb ja jb jc m = (m', Ok tt) /\ aligned m' /\ incl (names m') (names m ++ added_names ev 0 (filter body2_active (m_rows m))).
Proof.
  intros ev t ha hb ja jb jc m HA [HU HK] HN HV HNE ND. unfold convert. unfold bind at 1, get.
  destruct (mtype_eqb (m_mtype m) t); [exists m; split; auto; split; auto; apply incl_appl, incl_refl|].
  unfold bind at 1, modify. unfold bind at 1, update_variables_type. cbn [m_mtype with_mtype m_vars].
  destruct (recreate_succeeds (vt_of t) (m_vars m)) with (done := @nil (string * array)) as [vs EV].
  { intros n a HI. destruct (HV n a HI) as (R1 & R2 & R3). unfold array_create. rewrite R1. destruct (a_shape a) as [|z sh] eqn:ES; [congruence|].
    destruct (forallb (fun z => (0 <? z)%Z) (z :: sh)) eqn:EF; [eauto|]. exfalso.
    assert (HF : forallb (fun z => (0 <? z)%Z) (z :: sh) = true); [|congruence].
    apply forallb_forall. rewrite Forall_forall in R3. intros y HI'. apply Z.ltb_lt. auto. }
  rewrite EV. assert (HD : df_ok (with_vars vs (with_mtype t m)) = true) by (apply aligned_df; destruct HA as (A & B & C & D); split; [|split; [|split]]; auto).
  rewrite HD. set (m1 := with_rows _ (with_vars vs (with_mtype t m))). simpl in m1.
  set (l := map (fun r => if r_removed r then r else set_inter (retype_inter t (r_inter r)) r) (m_rows m)) in m1.
  assert (HA1 : aligned m1).
  { destruct HA as (A & B & C & D). split; [|split; [|split]]; auto. unfold m1, l. simpl. rewrite map_length. auto. }
  unfold bind at 1, dataframe. rewrite (aligned_df m1 HA1). change (m_rows m1) with l.
  assert (HL : l = map (retype_row t) (m_rows m)) by reflexivity.
  assert (NL : map r_name l = names m).
  { rewrite HL, map_map. apply map_ext. intros r. destruct (retype_fields t r) as (-> & _). reflexivity. }
  assert (HQ : forall r, In r l -> active r -> (exists q, r_coef r = CNum q) /\ r_name r <> ""%string).
  { intros r HI HAc. rewrite HL in HI. apply in_map_iff in HI. destruct HI as (r0 & <- & HI).
    destruct (retype_fields t r0) as (F1 & F2 & F3 & F4 & F5). unfold active in HAc. rewrite F1, F3. rewrite F5 in HAc. auto. }
  unfold bind at 1.
  destruct (conv_h_succeeds ev ha hb l [] m1 eq_refl) as [off Eo]; [cbn [app]; rewrite NL; exact HU|exact HQ|].
  rewrite Eo. cbn [app]. set (m2 := with_offset _ _).
  assert (HA2 : aligned m2).
  { destruct HA1 as (A & B & C & D). split; [|split; [|split]]; auto. unfold m2. cbn [m_rows m_len with_offset with_rows]. rewrite map_length. exact A. }
  unfold bind at 1. rewrite (aligned_df m2 HA2).
  set (l3 := map (Fh (e_import ev) ha) l). change (m_rows m2) with l3.
  assert (NM : names m2 = names m).
  { rewrite <- NL. unfold names. change (m_rows m2) with l3. unfold l3. rewrite map_map. apply map_ext. intros r. apply Fh_fields. }
  assert (HF : forall ls k, added_names ev k (filter body2_active (map (Fh (e_import ev) ha) (map (retype_row t) ls))) = added_names ev k (filter body2_active ls)).
  { clear. induction ls as [|r ls IH]; intros k; auto. simpl.
    destruct (Fh_fields (e_import ev) ha (retype_row t r)) as (F1 & F2 & _ & _ & _ & _ & F7 & _).
    destruct (retype_bodies t r) as [_ G]. destruct (retype_fields t r) as (G1 & G2 & _).
    rewrite F7, G. destruct (body2_active r); auto. cbn [added_names]. rewrite F2, G2, F1, G1, IH. reflexivity. }
  destruct (conv_Js_succeeds ev ja jb jc l3 0 [] [] m2 HA2) as (m' & E' & HA' & EN').
  - rewrite app_nil_r. reflexivity.
  - unfold l3. rewrite HL, map_map. rewrite Forall_map. eapply Forall_impl; [|exact HK].
    intros r Hr. apply (retype_ok t) in Hr. destruct (Fh_fields (e_import ev) ha (retype_row t r)) as (_&B2&B3&_).
    unfold key_ok. rewrite B2, B3. exact Hr.
  - intros r HI HAc. unfold l3 in HI. apply in_map_iff in HI. destruct HI as (r0 & <- & HI).
    destruct (Fh_fields (e_import ev) ha r0) as (F1 & _ & _ & _ & F5 & _ & _ & F8). unfold active in HAc. rewrite F5 in HAc.
    rewrite F1, F8. destruct (HQ r0 HI HAc) as [[q Hq] HN0]. split; auto. rewrite Hq. destruct (body1_active r0); [change (cmul (CNum q) (CNum ha)) with (CNum (q * ha)%Qc)|]; eauto.
  - rewrite NM. unfold l3. rewrite HL, HF. exact ND.
  - exists m'. split; [exact E'|]. split; [exact HA'|]. rewrite EN', NM. unfold l3. rewrite HL, HF. apply incl_refl.
Qed.
(** In particular when labels have no space and no "(" and names no "(". *)
Lemma split_at_char (c : ascii) a b x y : has_char c a = false -> has_char c b = false ->
  (a +++ String c x = b +++ String c y)%string -> a = b /\ x = y.
Proof.
  revert b. induction a as [|d a IH]; intros [|e b] HA HB E; cbn [has_char] in *; simpl in E.
  - inversion E; auto.
  - injection E as E1 E2. subst e. rewrite Ascii.eqb_refl in HB. discriminate.
  - injection E as E1 E2. subst d. rewrite Ascii.eqb_refl in HA. discriminate.
  - injection E as E1 E2. subst e. apply orb_false_iff in HA, HB. destruct (IH b) as [-> ->]; tauto.
Qed.
Lemma add_name_inj ev k k' a b n n' : has_char " "%char a = false -> has_char " "%char b = false ->
  has_char "("%char n = false -> has_char "("%char n' = false ->
  mtype_add_name ev k a n = mtype_add_name ev k' b n' -> a = b /\ n = n'.
Proof.
  intros HA HB HN HN' E. unfold mtype_add_name in E.
  change (" from " +++ n +++ " (mtype additional " +++ e_clock_str ev k +++ ")")%string with
    (String " " ("from " +++ n +++ " (mtype additional " +++ e_clock_str ev k +++ ")"))%string in E.
  change (" from " +++ n' +++ " (mtype additional " +++ e_clock_str ev k' +++ ")")%string with
    (String " " ("from " +++ n' +++ " (mtype additional " +++ e_clock_str ev k' +++ ")"))%string in E.
  apply split_at_char in E; auto. destruct E as [-> E]. split; auto.
  apply append_inj_l in E.
  assert (HS : forall m z, (m +++ " (mtype additional " +++ z)%string = ((m +++ " ") +++ String "(" ("mtype additional " +++ z))%string).
  { intros mm z. induction mm as [|ch mm IHm]; [reflexivity|]. simpl. simpl in IHm. rewrite IHm. reflexivity. }
  rewrite !HS in E. apply split_at_char in E.
  - destruct E as [E _]. eapply append_inj_r; eauto.
  - rewrite has_char_app, HN. reflexivity.
  - rewrite has_char_app, HN'. reflexivity.
Qed.
Definition plain_row (r : row) : Prop :=
  r_name r <> ""%string /\ has_char "("%char (r_name r) = false /\
  match r_key r with K1 a => has_char " "%char a = false | K2 a b => has_char " "%char a = false /\ has_char " "%char b = false end.
Lemma added_in ev l : forall k x, In x (added_names ev k l) -> exists r a j, In r l /\ x = mtype_add_name ev j a (r_name r) /\
  match r_key r with K1 _ => False | K2 b c => a = b \/ a = c end.
Proof.
  induction l as [|r l IH]; intros k x HI; [destruct HI|]. simpl in HI. apply in_app_iff in HI. destruct HI as [HI|HI].
  - destruct (r_key r) as [b|b c] eqn:EK; [destruct HI|]. destruct HI as [<-|[<-|[]]]; eexists r, _, _; (split; [simpl; auto|]; split; [reflexivity|]; rewrite EK; auto).
  - apply IH in HI. destruct HI as (r0 & a & j & HI & H). exists r0, a, j. split; auto. simpl; auto.
Qed.
Lemma added_nodup ev l : Forall plain_row l -> Forall key_ok l -> NoDup (map r_name l) -> forall k, NoDup (added_names ev k l).
Proof.
  induction l as [|r l IH]; intros HP HK HU k; simpl; [constructor|]. inversion HP as [|? ? HPr HP']; subst. inversion HK as [|? ? HKr HK']; subst.
  simpl in HU. inversion HU as [|? ? HUr HU']; subst. destruct HPr as (_ & P1 & P2). destruct HKr as [_ K].
  assert (HD : forall j a x, (match r_key r with K1 _ => False | K2 b c => a = b \/ a = c end) -> x = mtype_add_name ev j a (r_name r) -> ~ In x (added_names ev (S k) l)).
  { intros j a x Ha -> HI. apply added_in in HI. destruct HI as (r0 & a0 & j0 & HI & E & H0).
    rewrite Forall_forall in HP'. destruct (HP' r0 HI) as (_ & Q1 & Q2).
    apply add_name_inj in E; auto.
    - destruct E as [_ E]. apply HUr. rewrite E. apply in_map; auto.
    - destruct (r_key r); [contradiction|]. destruct P2, Ha; subst; auto.
    - destruct (r_key r0); [contradiction|]. destruct Q2, H0; subst; auto. }
  destruct (r_key r) as [a|a b] eqn:EK; [apply IH; auto|]. cbn [app]. constructor; [|constructor; [|apply IH; auto]].
  - intros [E|HI]; [|exact (HD _ a _ (or_introl eq_refl) eq_refl HI)].
    apply add_name_inj in E; try tauto. destruct E as [E _]. subst b. rewrite ltb_irrefl in K. discriminate.
  - exact (HD _ b _ (or_intror eq_refl) eq_refl).
Qed.
Corollary C19_succeeds_plain : forall ev t ha hb ja jb jc m, aligned m -> well_formed m -> numeric m ->
  (forall n a, In (n, a) (m_vars m) -> regular n a) -> Forall plain_row (m_rows m) ->
  exists m', convert ev t ha hb ja jb jc m = (m', Ok tt).
Proof.
  intros ev t ha hb ja jb jc m HA HW HN HV HP. destruct (C19_succeeds ev t ha hb ja jb jc m HA HW HN HV) as (m' & E & _); eauto.
  - intros r HI. rewrite Forall_forall in HP. apply HP; auto.
  - apply NoDup_app_iff. split; [apply HW|]. split.
    + apply added_nodup.
      * apply Forall_forall. intros r HI. apply filter_In in HI. rewrite Forall_forall in HP. apply HP; tauto.
      * apply Forall_forall. intros r HI. apply filter_In in HI. destruct HW as [_ HW]. rewrite Forall_forall in HW. apply HW; tauto.
      * destruct HW as [HU _]. unfold names_unique, names in HU. clear -HU. induction (m_rows m) as [|r l IH]; simpl; [constructor|].
        simpl in HU. inversion HU as [|? ? H1 H2]; subst. destruct (body2_active r); auto. simpl. constructor; auto.
        intros HI. apply H1. apply in_map_iff in HI. destruct HI as (r' & E & HI). apply filter_In in HI. apply in_map_iff. exists r'. tauto.
    + intros n HI HI2. apply added_in in HI2. destruct HI2 as (r0 & a & j & _ & -> & _). apply in_map_iff in HI. destruct HI as (r & E & HI).
      rewrite Forall_forall in HP. destruct (HP r HI) as (_ & P1 & _). rewrite E in P1. unfold mtype_add_name in P1.
      rewrite !has_char_app in P1. apply orb_false_iff in P1. destruct P1 as [_ P1]. apply orb_false_iff in P1. destruct P1 as [_ P1].
      apply orb_false_iff in P1. destruct P1 as [_ P1]. simpl in P1. discriminate.
Qed.

(** ** C21 *)
Theorem C21_qubo_ising_qubo : forall ev ev' m m1 m2 fd, well_formed m -> unit_scales m -> resolves fd (m_offset m) -> m_mtype m = Qubo ->
  to_ising ev m = (m1, Ok tt) -> to_qubo ev' m1 = (m2, Ok tt) ->
  m_mtype m2 = Qubo /\ forall x, energy fd x m2 = energy fd x m.
Proof.
  intros ev ev' m m1 m2 fd HW HU HO HT E1 E2.
  destruct (shifts_cancel_qi _ _ _ _ _ E1 HT HW HO) as (C & O1 & T1).
  assert (W1 : well_formed m1) by (eapply convert_wf; eauto).
  assert (U1 : unit_scales m1) by (eapply convert_unit; eauto).
  destruct (shifts_cancel_iq _ _ _ _ _ E2 T1 W1 O1) as (_ & _ & T2). split; auto. intros x.
  rewrite (to_qubo_energy _ _ _ _ _ _ E2 T1 W1 U1 O1), (to_ising_energy _ _ _ _ _ _ E1 HT HW HU HO).
  rewrite (energy_ext fd _ x) by (intros; apply to_binary_to_spin).
  transitivity (energy fd x m + (shift_ising fd m + shift_qubo fd m1))%Qc; [ring|]. rewrite C. ring.
Qed.
Theorem C21_ising_qubo_ising : forall ev ev' m m1 m2 fd, well_formed m -> unit_scales m -> resolves fd (m_offset m) -> m_mtype m = Ising ->
  to_qubo ev m = (m1, Ok tt) -> to_ising ev' m1 = (m2, Ok tt) ->
  m_mtype m2 = Ising /\ forall s, energy fd s m2 = energy fd s m.
Proof.
  intros ev ev' m m1 m2 fd HW HU HO HT E1 E2.
  destruct (shifts_cancel_iq _ _ _ _ _ E1 HT HW HO) as (C & O1 & T1).
  assert (W1 : well_formed m1) by (eapply convert_wf; eauto).
  assert (U1 : unit_scales m1) by (eapply convert_unit; eauto).
  destruct (shifts_cancel_qi _ _ _ _ _ E2 T1 W1 O1) as (_ & _ & T2). split; auto. intros x.
  rewrite (to_ising_energy _ _ _ _ _ _ E2 T1 W1 U1 O1), (to_qubo_energy _ _ _ _ _ _ E1 HT HW HU HO).
  rewrite (energy_ext fd _ x) by (intros; apply to_spin_to_binary).
  transitivity (energy fd x m + (shift_qubo fd m + shift_ising fd m1))%Qc; [ring|]. rewrite C. ring.
Qed.

(** A QUBO with numeric, unit-scale interactions, one of them removed. *)
Definition conv_model : lmodel := fst ((variables (VName "q") (ShTuple [ShInt 2; ShInt 2]) ;;;
  add_interaction env0 (TVar (mkVar "q[0][0]" Binary)) (NStr "") (num 3) (num 1) AtNone TsNone ;;;
  add_interaction env0 (pair (mkVar "q[0][0]" Binary) (mkVar "q[1][1]" Binary)) (NStr "") (num (-2)) (num 1) AtNone TsNone ;;;
  add_interaction env0 (pair (mkVar "q[0][1]" Binary) (mkVar "q[0][0]" Binary)) (NStr "pair") (num 5) (num 1) AtNone TsNone ;;;
  add_interaction env0 (pair (mkVar "q[0][1]" Binary) (mkVar "q[1][0]" Binary)) (NStr "gone") (num 5) (num 7) AtNone TsNone ;;;
  remove_interaction TNone (NStr "gone") ;;; set_offset (CNum (qz 4)))%py (new_model Qubo)).
Example C19_C21_hyps : exists m1 m2, aligned conv_model /\ well_formed conv_model /\ unit_scales conv_model /\ resolves [] (m_offset conv_model) /\
  m_mtype conv_model = Qubo /\ numeric conv_model /\ (forall n a, In (n, a) (m_vars conv_model) -> regular n a) /\ declared_by_name (m_vars conv_model) /\
  Forall plain_row (m_rows conv_model) /\ to_ising env0 conv_model = (m1, Ok tt) /\ to_qubo (evs0 1) m1 = (m2, Ok tt) /\ length (m_rows m1) = 8.
Proof.
  exists (fst (to_ising env0 conv_model)), (fst (to_qubo (evs0 1) (fst (to_ising env0 conv_model)))).
  split; [apply alignedb_ok; reflexivity|]. split; [apply wfb_ok; reflexivity|].
  split. { intros r [<-|[<-|[<-|[<-|[]]]]] HA; try reflexivity. discriminate HA. }
  split. { intros H. discriminate H. }
  split; [reflexivity|].
  split. { intros r [<-|[<-|[<-|[<-|[]]]]] HA; try (eexists; reflexivity). }
  split. { intros n a [H|[]]. inversion H; subst. split; [reflexivity|]. split; [discriminate|]. repeat constructor. }
  split. { split; [repeat constructor; intros []|]. intros n a [H|[]]. inversion H; subst. split; [reflexivity|]. exists [2%Z; 2%Z], Binary. reflexivity. }
  split. { repeat (constructor; [split; [discriminate|split; [reflexivity|simpl; auto]]|]). constructor. }
  split; [apply okb_ok; vm_compute; reflexivity|]. split; [apply okb_ok; vm_compute; reflexivity|]. vm_compute. reflexivity.
Qed.

(** ** C20 *)

(** For unit scales the energies of corresponding assignments differ by exactly
    the sum of the linear coefficients plus half the sum of the quadratic ones
    (respectively by twice their difference), so conversion is exact
    only when that is zero. *)
Theorem C20_shift_partial : forall ev m m' fd, well_formed m -> unit_scales m -> resolves fd (m_offset m) ->
  (m_mtype m = Qubo -> to_ising ev m = (m', Ok tt) ->
     forall s, energy fd s m' = (energy fd (to_binary s) m + (S1 fd (m_rows m) + qfrac 1 2 * S2 fd (m_rows m)))%Qc) /\
  (m_mtype m = Ising -> to_qubo ev m = (m', Ok tt) ->
     forall x, energy fd x m' = (energy fd (to_spin x) m + qz 2 * (S2 fd (m_rows m) - S1 fd (m_rows m)))%Qc).
Proof.
  intros ev m m' fd HW HU HO. split; intros HT E s.
  - eapply to_ising_energy; eauto.
  - rewrite (to_qubo_energy _ _ _ _ _ _ E HT HW HU HO). unfold shift_qubo. ring.
Qed.
(** Full statement: energies of corresponding assignments are equal, any scale.
    False: (1) one linear term moves the offset the wrong way; (2) a scale other
    than 1 changes energy differences too. *)
Definition c20_a : lmodel := fst ((variables (VName "q") (ShTuple [ShInt 2]) ;;;
  add_interaction env0 (TVar (bin "q" 0)) (NStr "") (num 3) (num 1) AtNone TsNone)%py (new_model Qubo)).
Definition c20_b : lmodel := fst ((variables (VName "q") (ShTuple [ShInt 2]) ;;;
  add_interaction env0 (pair (bin "q" 0) (bin "q" 1)) (NStr "") (num 3) (num 2) AtNone TsNone)%py (new_model Qubo)).
Definition up : assignment := fun _ => 1%Qc.
Definition down : assignment := fun _ => (- (1))%Qc.
Definition updown : assignment := fun l => if String.eqb l "q[0]" then 1%Qc else (- (1))%Qc.
Theorem C20_refuted :
  (exists m', well_formed c20_a /\ unit_scales c20_a /\ to_ising env0 c20_a = (m', Ok tt) /\
     energy [] up m' <> energy [] (to_binary up) c20_a) /\
  (exists m', well_formed c20_b /\ to_ising env0 c20_b = (m', Ok tt) /\
     (energy [] updown m' - energy [] down m' <> energy [] (to_binary updown) c20_b - energy [] (to_binary down) c20_b)%Qc).
Proof.
  split; eexists; (split; [apply wfb_ok; reflexivity|]).
  - split; [intros r [<-|[]] _; reflexivity|]. split; [apply okb_ok; vm_compute; reflexivity|].
    intros H. apply (f_equal this) in H. vm_compute in H. discriminate.
  - split; [apply okb_ok; vm_compute; reflexivity|].
    intros H. apply (f_equal this) in H. vm_compute in H. discriminate.
Qed.

Print Assumptions C19_to_ising.
Print Assumptions C19_to_qubo.
Print Assumptions C19_minima.
Print Assumptions C19_same_type.
Print Assumptions C19_variables.
Print Assumptions C19_succeeds.
Print Assumptions C19_succeeds_plain.
Print Assumptions C21_qubo_ising_qubo.
Print Assumptions C21_ising_qubo_ising.
Print Assumptions C20_shift_partial.
Print Assumptions C20_refuted.
