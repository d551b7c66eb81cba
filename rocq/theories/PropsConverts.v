(** * PropsConverts: C106, models with constraints have a physical model. *)
From Verif Require Import PyBase PyLemmas Numbers Constraint LogicalModel Spec LogicalProofs EnergyProofs ConvertProofs ConstraintProofs MergeProofs
  PhysicalProofs ToPhysicalProofs Samples PropsConvert PropsConstraints PropsPhysical.
Local Open Scope string_scope.
Local Open Scope list_scope.

(** ** Specification *)

(** Distinct variables whose labels have no space and no star. *)
Definition simple_labels (c : constr) : Prop :=
  NoDup (all_labels_of c) /\ Forall (fun l => has_char "*"%char l = false /\ has_char " "%char l = false) (all_labels_of c).
(** What the clock prints has no opening parenthesis (it prints a number). *)
Definition plain_clock (ev : env) : Prop := forall k, has_char "("%char (e_clock_str ev k) = false.

(** ** Strings *)
Lemma split_last (c : ascii) a b x y : has_char c x = false -> has_char c y = false -> (a +++ String c x = b +++ String c y)%string -> a = b /\ x = y.
Proof.
  revert b. induction a as [|d a IH]; intros [|e b] HA HB E; cbn [append] in E.
  - injection E as E. auto.
  - exfalso. injection E as E1 E2. rewrite E2, has_char_app in HA. cbn [has_char] in HA. rewrite Ascii.eqb_refl, orb_true_r in HA. discriminate.
  - exfalso. injection E as E1 E2. rewrite <- E2, has_char_app in HB. cbn [has_char] in HB. rewrite Ascii.eqb_refl, orb_true_r in HB. discriminate.
  - injection E as E1 E2. subst. destruct (IH b HA HB E2) as [-> ->]. auto.
Qed.
Lemma app_assoc_s a b c : ((a +++ b) +++ c = a +++ (b +++ c))%string.
Proof. induction a as [|d a IH]; [auto|]. simpl. simpl in IH. now rewrite IH. Qed.
Lemma add_name_injective ev k k' a b n n' : plain_clock ev -> has_char " "%char a = false -> has_char " "%char b = false ->
  mtype_add_name ev k a n = mtype_add_name ev k' b n' -> a = b /\ n = n'.
Proof.
  intros HC HA HB E. unfold mtype_add_name in E.
  change (" from " +++ n +++ " (mtype additional " +++ e_clock_str ev k +++ ")")%string with
    (String " " ("from " +++ n +++ " (mtype additional " +++ e_clock_str ev k +++ ")"))%string in E.
  change (" from " +++ n' +++ " (mtype additional " +++ e_clock_str ev k' +++ ")")%string with
    (String " " ("from " +++ n' +++ " (mtype additional " +++ e_clock_str ev k' +++ ")"))%string in E.
  apply split_at_char in E; auto. destruct E as [-> E]. split; auto. apply append_inj_l in E.
  assert (HS : forall m z, (m +++ " (mtype additional " +++ z)%string = ((m +++ " ") +++ String "(" ("mtype additional " +++ z))%string).
  { intros mm z. rewrite app_assoc_s. reflexivity. }
  rewrite !HS in E. apply split_last in E.
  - destruct E as [E _]. eapply append_inj_r; eauto.
  - rewrite !has_char_app, HC. reflexivity.
  - rewrite !has_char_app, HC. reflexivity.
Qed.

(** ** The interactions of a constraint's model *)
Definition named (l : string) (L : list string) (r : row) : Prop :=
  match r_key r with
  | K1 a => In a L /\ r_name r = (a +++ " (" +++ l +++ ")")%string
  | K2 a b => In a L /\ In b L /\ (r_name r = (a +++ "*" +++ b +++ " (" +++ l +++ ")")%string \/ r_name r = (b +++ "*" +++ a +++ " (" +++ l +++ ")")%string)
  end.
Definition all_named l L (m : lmodel) : Prop := built m /\ Forall (named l L) (m_rows m).
Lemma not_empty_s a c b : negb (String.eqb (a +++ String c b) "") = true.
Proof. destruct a; reflexivity. Qed.
Lemma cadd1_named ev l L q v m m' u : In (v_label v) L -> cadd1 ev l q v m = (m', Ok u) -> all_named l L m -> all_named l L m'.
Proof.
  intros HI E [B F]. unfold cadd1 in E. destruct (add_built _ _ _ _ _ _ _ E B) as (inf & nm & H1 & H2 & _ & H4 & H5). split; auto.
  rewrite H4. apply Forall_app. split; auto. constructor; [|constructor]. inversion H1; subst inf.
  assert (EN : nm = (v_label v +++ " (" +++ l +++ ")")%string).
  { unfold add_name in H2. cbn [n_truthy] in H2. change (" (" +++ l +++ ")")%string with (String " " ("(" +++ l +++ ")")) in *. rewrite not_empty_s in H2. inversion H2; auto. }
  subst nm. red. cbn. auto.
Qed.
Lemma cadd2_named ev l L q v w m m' u : In (v_label v) L -> In (v_label w) L -> cadd2 ev l q v w m = (m', Ok u) -> all_named l L m -> all_named l L m'.
Proof.
  intros HV HW E [B F]. unfold cadd2 in E. destruct (add_built _ _ _ _ _ _ _ E B) as (inf & nm & H1 & H2 & _ & H4 & H5). split; auto.
  rewrite H4. apply Forall_app. split; auto. constructor; [|constructor].
  assert (EN : nm = (v_label v +++ "*" +++ v_label w +++ " (" +++ l +++ ")")%string).
  { unfold add_name in H2. cbn [n_truthy] in H2. change ("*" +++ v_label w +++ " (" +++ l +++ ")")%string with (String "*" (v_label w +++ " (" +++ l +++ ")")) in *. rewrite not_empty_s in H2. inversion H2; auto. }
  subst nm. cbn in H1. destruct (String.eqb _ _); [discriminate|]. destruct (String.ltb _ _); inversion H1; subst inf; red; cbn; auto 6.
Qed.
Lemma loop_named {A} l L (f : A -> LM unit) xs : (forall x m m' u, In x xs -> f x m = (m', Ok u) -> all_named l L m -> all_named l L m') ->
  forall m m' u, mfor xs f m = (m', Ok u) -> all_named l L m -> all_named l L m'.
Proof.
  induction xs as [|x xs IH]; intros HF m m' u E H; cbn [mfor] in E; [inversion E; subst; auto|].
  apply bind_ok in E. destruct E as (m1 & u1 & E1 & E). eapply IH; [|exact E|].
  - intros; eapply HF; eauto. now right.
  - eapply HF; eauto. now left.
Qed.
Lemma pairs_named ev l L q vs v : (forall w, In w vs -> In (v_label w) L) -> In (v_label v) L -> forall m m' u, cadd_pairs_of ev l q vs v m = (m', Ok u) -> all_named l L m -> all_named l L m'.
Proof.
  intros HV HI. apply loop_named. intros w m m' u HW E H. destruct (String.ltb _ _); [exact (cadd2_named ev l L q v w m m' u HI (HV w HW) E H) | inversion E; subst; auto].
Qed.
Lemma to_set_in l : forall acc v, In v (to_set acc l) -> In v acc \/ In v l.
Proof.
  induction l as [|w l IH]; intros acc v H; cbn [to_set] in H; auto. destruct (mem w acc); apply IH in H; cbn; [tauto|].
  rewrite in_app_iff in H. cbn in H. tauto.
Qed.
Definition c_lab (c : constr) : string := match c with NHot _ _ l _ | ZeroOrOne _ l _ | Equality _ _ l _ => l end.
Lemma to_model_named ev c cm u : to_model ev c = (cm, Ok u) -> all_named (c_lab c) (all_labels_of c) cm.
Proof.
  assert (H0 : forall l L, all_named l L (new_model Qubo)) by (split; [apply built_new | constructor]).
  intros E. destruct c as [vs n l s|vs l s|v1 v2 l s]; cbn [to_model c_lab all_labels_of] in *.
  - eapply loop_named; [|exact E|auto]. intros v m m' u0 HV E1 H. apply bind_ok in E1. destruct E1 as (m1 & u1 & E1 & E2).
    eapply pairs_named; [| |exact E2|]; [intros; now apply in_map | now apply in_map|]. eapply cadd1_named; eauto. now apply in_map.
  - eapply loop_named; [|exact E|auto]. intros v m m' u0 HV E1 H. eapply pairs_named; [| |exact E1|]; auto; intros; now apply in_map.
  - apply bind_ok in E. destruct E as (m1 & u1 & E1 & E). apply bind_ok in E. destruct E as (m2 & u2 & E2 & E). apply bind_ok in E. destruct E as (m3 & u3 & E3 & E4).
    assert (I1 : forall v, In v v1 -> In (v_label v) (map v_label (v1 ++ v2))) by (intros; apply in_map, in_or_app; auto).
    assert (I2 : forall v, In v v2 -> In (v_label v) (map v_label (v1 ++ v2))) by (intros; apply in_map, in_or_app; auto).
    eapply loop_named; [|exact E4|].
    + intros v m m' u0 HV E5 H. eapply loop_named; [|exact E5|exact H]. intros w m5 m6 u5 HW E6 H6. exact (cadd2_named _ _ _ _ v w _ _ _ (I1 v HV) (I2 w HW) E6 H6).
    + eapply loop_named; [|exact E3|]; [intros v m m' u0 HV E5 H; exact (pairs_named _ _ _ _ v2 v I2 (I2 v HV) _ _ _ E5 H)|].
      eapply loop_named; [|exact E2|]; [intros v m m' u0 HV E5 H; exact (pairs_named _ _ _ _ v1 v I1 (I1 v HV) _ _ _ E5 H)|].
      eapply loop_named; [|exact E1|auto]. intros v m m' u0 HV E5 H. eapply cadd1_named; eauto. apply to_set_in in HV. destruct HV; auto.
Qed.

(** ** The conversion of a constraint's model *)
Definition apart (c : constr) : Prop := Forall (fun l => has_char "*"%char l = false /\ has_char " "%char l = false) (all_labels_of c).
Lemma K2_free l L r a b : Forall (fun l => has_char "*"%char l = false /\ has_char " "%char l = false) L -> named l L r -> r_key r = K2 a b -> has_char " "%char a = false /\ has_char " "%char b = false.
Proof. intros F H E. red in H. rewrite E in H. rewrite Forall_forall in F. destruct H as (H1 & H2 & _). split; apply F; auto. Qed.
Lemma added_distinct ev l L rows : plain_clock ev -> Forall (fun l => has_char "*"%char l = false /\ has_char " "%char l = false) L ->
  Forall (named l L) rows -> Forall key_ok rows -> NoDup (map r_name rows) -> forall k, NoDup (added_names ev k rows).
Proof.
  intros HC HL. induction rows as [|r rows IH]; intros HP HK HU k; cbn [added_names]; [constructor|]. inversion HP as [|? ? HPr HP']; subst. inversion HK as [|? ? HKr HK']; subst.
  cbn [map] in HU. inversion HU as [|? ? HUr HU']; subst. destruct HKr as [_ K].
  assert (HD : forall j a x, (match r_key r with K1 _ => False | K2 b c => a = b \/ a = c end) -> x = mtype_add_name ev j a (r_name r) -> ~ In x (added_names ev (S k) rows)).
  { intros j a x Ha -> HI. apply added_in in HI. destruct HI as (r0 & a0 & j0 & HI & E & H0).
    rewrite Forall_forall in HP'. specialize (HP' r0 HI).
    apply add_name_injective in E; auto.
    - destruct E as [_ E]. apply HUr. rewrite E. apply in_map; auto.
    - destruct (r_key r) as [|b c] eqn:EK; [contradiction|]. destruct (K2_free l L r b c HL HPr EK), Ha; subst; auto.
    - destruct (r_key r0) as [|b c] eqn:EK; [contradiction|]. destruct (K2_free l L r0 b c HL HP' EK), H0; subst; auto. }
  destruct (r_key r) as [a|a b] eqn:EK; [apply IH; auto|]. destruct (K2_free l L r a b HL HPr EK) as [FA FB]. cbn [app]. constructor; [|constructor; [|apply IH; auto]].
  - intros [E|HI]; [|exact (HD _ a _ (or_introl eq_refl) eq_refl HI)].
    apply add_name_injective in E; auto. destruct E as [E _]. subst b. rewrite ltb_irrefl in K. discriminate.
  - exact (HD _ b _ (or_intror eq_refl) eq_refl).
Qed.
Lemma added_not_named ev j l L r a n : Forall (fun l => has_char "*"%char l = false /\ has_char " "%char l = false) L -> named l L r ->
  has_char "*"%char a = false -> has_char " "%char a = false -> r_name r <> mtype_add_name ev j a n.
Proof.
  intros HL H SA FA E. red in H. rewrite Forall_forall in HL. unfold mtype_add_name in E.
  change (" from " +++ n +++ " (mtype additional " +++ e_clock_str ev j +++ ")")%string with (String " " ("from " +++ n +++ " (mtype additional " +++ e_clock_str ev j +++ ")"))%string in E.
  assert (two : forall x y, In x L -> In y L -> (x +++ "*" +++ y +++ " (" +++ l +++ ")" = a +++ String " " ("from " +++ n +++ " (mtype additional " +++ e_clock_str ev j +++ ")"))%string -> False).
  { intros x y HX HY E'. destruct (HL x HX) as [SX FX]. destruct (HL y HY) as [SY FY].
    change (" (" +++ l +++ ")")%string with (String " " ("(" +++ l +++ ")")) in E'. rewrite <- !append_assoc_s in E'. apply split_at_char in E'; auto.
    - destruct E' as [E' _]. rewrite <- E', !has_char_app in SA. cbn in SA. rewrite orb_true_r in SA. discriminate.
    - rewrite !has_char_app, FX, FY. reflexivity. }
  destruct (r_key r) as [b|b c].
  - destruct H as [HB H]. rewrite H in E. change (" (" +++ l +++ ")")%string with (String " " ("(" +++ l +++ ")")) in E. apply split_at_char in E; auto; [|apply HL; auto].
    destruct E as [_ E]. discriminate.
  - destruct H as (HB & HC' & [H|H]); rewrite H in E; [exact (two b c HB HC' E) | exact (two c b HC' HB E)].
Qed.
Lemma named_paren l L r : named l L r -> has_char "("%char (r_name r) = true.
Proof. unfold named. destruct (r_key r); [intros [_ ->] | intros (_ & _ & [-> | ->])]; rewrite !has_char_app; cbn; rewrite ?orb_true_r; reflexivity. Qed.
Lemma cmodel_ok ev t c : simple_labels c -> (t = Ising -> plain_clock ev) ->
  exists cm, cmodel ev t c = Ok cm /\ forall n, In n (names cm) -> has_char "("%char n = true.
Proof.
  intros [ND F] HC.
  destruct (to_model_succeeds ev c ND) as [cm E]; [eapply Forall_impl; [|exact F]; intros a H; apply H|].
  destruct (to_model_named _ _ _ _ E) as [B HN]. unfold cmodel. rewrite E.
  assert (P0 : forall n, In n (names cm) -> has_char "("%char n = true).
  { intros n HI. apply in_map_iff in HI as (r & <- & HI). rewrite Forall_forall in HN. eapply named_paren; eauto. }
  destruct t; cbn [mtype_eqb]; [|exists cm; auto]. specialize (HC eq_refl).
  assert (FR := bl_frame _ B). unfold frame in FR. injection FR as T1 T2 T3 T4 T5 T6.
  assert (HK : Forall key_ok (m_rows cm)) by (eapply Forall_impl; [|apply (bl_rows _ B)]; intros r H; apply H).
  assert (NR : Forall (fun r => r_name r <> "") (m_rows cm)).
  { eapply Forall_impl; [|exact HN]. intros r H C. apply named_paren in H. rewrite C in H. discriminate. }
  destruct (C19_succeeds ev Ising (qfrac 1 2) (qfrac 1 2) (qfrac 1 4) (qfrac 1 4) (qfrac 1 4) cm) as (cm' & E' & _ & HI).
  - apply built_aligned; auto.
  - apply built_wf; auto.
  - intros r HI _. pose proof (bl_rows _ B) as HR. rewrite Forall_forall in HR. apply (HR r HI).
  - rewrite T2. intros n a [].
  - intros r HI. rewrite Forall_forall in NR. auto.
  - apply NoDup_app_iff. split; [apply (bl_names _ B)|]. split.
    + apply (added_distinct ev (c_lab c) (all_labels_of c)); auto.
      * apply Forall_forall. intros r HI. apply filter_In in HI. rewrite Forall_forall in HN. apply HN; tauto.
      * apply Forall_forall. intros r HI. apply filter_In in HI. rewrite Forall_forall in HK. apply HK; tauto.
      * assert (HU := bl_names _ B). unfold names_unique, names in HU. clear -HU. induction (m_rows cm) as [|r l IH]; simpl; [constructor|].
        simpl in HU. inversion HU as [|? ? H1 H2]; subst. destruct (body2_active r); auto. simpl. constructor; auto.
        intros HI. apply H1. apply in_map_iff in HI. destruct HI as (r' & E & HI). apply filter_In in HI. apply in_map_iff. exists r'. tauto.
    + intros n HI HI2. apply added_in in HI2. destruct HI2 as (r0 & a & j & HR & -> & HA). apply in_map_iff in HI. destruct HI as (r & E1 & HI).
      rewrite Forall_forall in HN. apply filter_In in HR. destruct HR as [HR _]. pose proof (HN r0 HR) as H0. pose proof F as F'. rewrite Forall_forall in F'.
      unfold named in H0. destruct (r_key r0) as [|b b']; [contradiction|]. assert (IA : In a (all_labels_of c)) by (destruct H0 as (X & Y & _), HA; subst; auto).
      destruct (F' a IA) as [SA FA]. exact (added_not_named ev j _ _ r a _ F (HN r HI) SA FA E1).
  - assert (EI : to_ising ev cm = (cm', Ok tt)) by exact E'. rewrite EI. exists cm'. split; auto.
    intros n Hn. apply HI in Hn. apply in_app_or in Hn as [Hn|Hn]; auto. apply added_in in Hn. destruct Hn as (r & a & j & _ & -> & _).
    unfold mtype_add_name. rewrite !has_char_app. cbn. rewrite ?orb_true_r. reflexivity.
Qed.
Lemma cmodels_ok evs t cs : Forall simple_labels cs -> (t = Ising -> forall k, plain_clock (evs k)) ->
  forall k, exists cms, cmodels evs k t cs = Ok cms /\ forall cm n, In cm cms -> In n (names cm) -> has_char "("%char n = true.
Proof.
  intros F HC. induction F as [|c cs Hc F IH]; intros k; cbn [cmodels]; [exists []; split; auto; intros ? ? []|].
  destruct (cmodel_ok (evs k) t c Hc) as (cm & E & H); [intros ET; apply (HC ET)|]. rewrite E. destruct (IH (S k)) as (cms & E' & H'). rewrite E'.
  exists (cm :: cms). split; auto. intros cm' n [<-|HI]; eauto.
Qed.

(** ** C106 *)

(** A model with any constraints on variables with distinct simple labels has a physical
    model: QUBO or Ising, whatever the strengths, n, and labels of the constraints.
    (A removed interaction that is still pending must not have a name with a
    parenthesis, as the interactions of constraints have.) *)
Theorem C106_to_physical_succeeds : forall ev evs fd m,
  aligned m -> names_unique m -> resolved fd m ->
  Forall simple_labels (dvals (m_constrs m)) -> (m_mtype m = Ising -> forall k, plain_clock (evs k)) ->
  (forall r, In r (m_rows m) -> r_removed r = true -> has_char "("%char (r_name r) = false) ->
  exists m' p, to_physical ev evs fd m = (m', Ok p).
Proof.
  intros ev evs fd m AL NU HR HS HC HP. destruct (cmodels_ok evs (m_mtype m) _ HS HC 0) as (cms & EC & HN).
  apply (C09_to_physical_succeeds ev evs fd m cms AL NU HR EC). intros r cm Hr RR Hc C. specialize (HN cm _ Hc C). rewrite (HP r Hr RR) in HN. discriminate.
Qed.
(** A missing placeholder is then the only reason for to_physical to raise. *)
Theorem C106_only_placeholders : forall ev evs fd m m' e,
  aligned m -> names_unique m ->
  Forall simple_labels (dvals (m_constrs m)) -> (m_mtype m = Ising -> forall k, plain_clock (evs k)) ->
  (forall r, In r (m_rows m) -> r_removed r = true -> has_char "("%char (r_name r) = false) ->
  to_physical ev evs fd m = (m', Err e) -> ~ resolved fd m.
Proof.
  intros ev evs fd m m' e AL NU HS HC HP E HR. destruct (C106_to_physical_succeeds ev evs fd m AL NU HR HS HC HP) as (m2 & p & E2). congruence.
Qed.

(** ** Examples *)
Definition two_constraints : lmodel :=
  fst (add_constraint (Some (Equality [spn "x" 0; spn "x" 2] [spn "x" 1] "same (size)" (qz 3))) ising_con).
Example C106_hyps : aligned two_constraints /\ names_unique two_constraints /\ resolved feed0 two_constraints /\ m_mtype two_constraints = Ising /\
  length (m_constrs two_constraints) = 2 /\
  Forall simple_labels (dvals (m_constrs two_constraints)) /\ (forall k, plain_clock (evs0 k)) /\
  (forall r, In r (m_rows two_constraints) -> r_removed r = true -> has_char "("%char (r_name r) = false) /\
  (exists r, In r (m_rows two_constraints) /\ r_removed r = true) /\
  exists p, snd (to_physical env0 evs0 feed0 two_constraints) = Ok p /\ length (p_quad p) = 3.
Proof.
  split; [apply alignedb_ok; vm_compute; reflexivity|]. split; [apply wfb_ok; vm_compute; reflexivity|]. split; [apply resolvedb_ok; vm_compute; reflexivity|]. split; [reflexivity|].
  split; [vm_compute; reflexivity|]. split; [|split].
  - assert (E : dvals (m_constrs two_constraints) = [NHot [spn "x" 0; spn "x" 1] 1 "one" (qz 10); Equality [spn "x" 0; spn "x" 2] [spn "x" 1] "same (size)" (qz 3)]) by (vm_compute; reflexivity).
    rewrite E. constructor; [|constructor; [|constructor]]; (split; [repeat constructor; cbn; intuition discriminate | repeat constructor]).
  - intros k i. cbn [e_clock_str evs0]. rewrite !has_char_app, !str_of_nat_no_char; [reflexivity | |]; intros d H; cbn in H; intuition (subst; discriminate).
  - split; [|split].
    + assert (HB : forallb (fun r => negb (r_removed r) || negb (has_char "("%char (r_name r))) (m_rows two_constraints) = true) by (vm_compute; reflexivity).
      rewrite forallb_forall in HB. intros r HI HR. specialize (HB r HI). rewrite HR in HB. now apply negb_true_iff in HB.
    + assert (HB : existsb r_removed (m_rows two_constraints) = true) by (vm_compute; reflexivity). apply existsb_exists in HB. exact HB.
    + eexists. split; [vm_compute; reflexivity | reflexivity].
Qed.
Print Assumptions C106_to_physical_succeeds.
Print Assumptions C106_only_placeholders.
