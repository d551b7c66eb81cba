(** * PropsPyqubo: C31, C32 - loading compiled pyqubo models. *)
From Verif Require Import PyBase PyLemmas Numbers Constraint LogicalModel Spec LogicalProofs EnergyProofs ConvertProofs
  ConstraintProofs MergeProofs PhysicalProofs ToPhysicalProofs InteractionProofs Samples PropsInteractions PropsState.
Open Scope list_scope.

(** The energy of the compiled QUBO itself: sum of c * x_a * x_b over its terms, plus its offset. *)
Definition qubo_terms (fd : feed) (x : assignment) (l : list ((string * string) * coef)) : Qc :=
  qsum (map (fun t => (value fd (snd t) * (x (fst (fst t)) * x (snd (fst t))))%Qc) l).
Definition qubo_energy (fd : feed) (x : assignment) (pq : pqmodel) : Qc :=
  (qubo_terms fd x (pq_terms pq) + value fd (pq_offset pq))%Qc.
(** pyqubo's structure table maps the label name[i][j].. to (name, i, j, ..). *)
Definition structured (pq : pqmodel) : Prop :=
  forall l n idx, dget l (pq_struct pq) = Some (n, idx) -> l = (n +++ brackets idx)%string.
(** Every declared variable is an array created under its own name. *)
Definition own_names (m : lmodel) : Prop :=
  forall n a, dget n (m_vars m) = Some a -> exists sh vt, array_create n sh vt = Ok a.

Lemma flat_pos_inside sh : forall idx p, flat_pos sh idx = Some p -> Forall2 (fun i n => i < n) idx sh.
Proof.
  induction sh as [|n sh IH]; intros [|i idx] p; simpl; try discriminate; [constructor|].
  destruct (Nat.ltb_spec i n); [|discriminate]. destruct (flat_pos sh idx) eqn:E; [|discriminate]. constructor; eauto.
Qed.
Lemma lookup_label m pq l v : structured pq -> own_names m -> pq_lookup m pq l = Ok v -> v_label v = l.
Proof.
  intros HS HO. unfold pq_lookup. destruct (dget l (pq_struct pq)) as [[n idx]|] eqn:E; [|discriminate].
  destruct (dget n (m_vars m)) as [a|] eqn:EA; [|discriminate]. intros EG. destruct (HO _ _ EA) as (sh & vt & EC).
  pose proof (array_create_shape _ _ _ _ EC) as HSH.
  assert (HI : inside idx sh).
  { unfold array_get in EG. destruct (flat_pos (map Z.to_nat (a_shape a)) idx) as [p|] eqn:EP; [|discriminate].
    apply flat_pos_inside in EP. rewrite HSH in EP. apply inside_nat; auto. }
  rewrite (array_get_create _ _ _ _ _ EC HI) in EG. inversion EG; subst. simpl. symmetry. apply HS; auto.
Qed.
Lemma value_cneg fd c : value fd (cneg c) = (- value fd c)%Qc.
Proof. unfold cneg. rewrite value_cmul, value_num. ring. Qed.
Definition term_key (k : string * string) : ikey :=
  if String.eqb (fst k) (snd k) then K1 (fst k) else if String.ltb (fst k) (snd k) then K2 (fst k) (snd k) else K2 (snd k) (fst k).
Lemma monomial_term x k : binary x -> monomial x (term_key k) = (x (fst k) * x (snd k))%Qc.
Proof.
  intros HB. destruct k as [a b]. unfold term_key. simpl. destruct (String.eqb_spec a b) as [->|HN]; simpl.
  - destruct (HB b) as [->| ->]; ring.
  - destruct (String.ltb a b); simpl; ring.
Qed.
Lemma step_ok ev m pq k c m' c' : structured pq -> own_names m -> pq_step ev m pq (k, c) = (m', c', Ok tt) ->
  exists r, core m' = core (with_rows (m_rows m ++ [r]) m) /\ r_removed r = false /\ r_coef r = cneg c /\ r_scale r = CNum 1%Qc /\
    r_key r = term_key k /\ c' = (if is_num c then c else cneg c).
Proof.
  intros HS HO. destruct k as [k0 k1]. unfold pq_step. destruct (pq_lookup m pq k0) as [t0|e] eqn:E0; [|discriminate].
  destruct (pq_lookup m pq k1) as [t1|e] eqn:E1; [|discriminate].
  apply lookup_label in E0; auto. apply lookup_label in E1; auto.
  destruct (add_interaction _ _ _ _ _ _ _ m) as [m2 r2] eqn:EA. intros E. inversion E; subst m2 r2 c'; clear E.
  apply add_ok_core in EA. destruct EA as (c0 & s0 & q & inf & nm & d & AA & HC). exists (new_row nm inf c0 s0 q).
  destruct AA. inversion aa_c; inversion aa_s; subst c0 s0.
  split; [exact HC|]. split; [reflexivity|]. split; [reflexivity|]. split; [reflexivity|]. split; [|reflexivity].
  simpl. unfold term_key. simpl. destruct (String.eqb_spec k0 k1) as [->|HN].
  - simpl in aa_inf. inversion aa_inf; subst. reflexivity.
  - simpl in aa_inf. rewrite E0, E1 in aa_inf. destruct (String.eqb_spec k0 k1); [contradiction|].
    destruct (String.ltb k0 k1) eqn:EL; inversion aa_inf; subst; reflexivity.
Qed.
Lemma core_vars m m' : core m = core m' -> m_vars m = m_vars m'.
Proof. unfold core. congruence. Qed.
Lemma loop_ok ev pq l : forall m m' l', structured pq -> own_names m -> pq_loop ev m pq l = (m', l', Ok tt) ->
  exists new, core m' = core (with_rows (m_rows m ++ new) m) /\
    l' = map (fun t => (fst t, if is_num (snd t) then snd t else cneg (snd t))) l /\
    forall fd x, binary x -> csum fd x new = (- qubo_terms fd x l)%Qc.
Proof.
  induction l as [|[k c] l IH]; intros m m' l' HS HO E.
  - simpl in E. inversion E; subst. exists []. split; [rewrite app_nil_r; destruct m'; reflexivity|]. split; [reflexivity|].
    intros. unfold qubo_terms, csum. simpl. ring.
  - cbn [pq_loop] in E. destruct (pq_step ev m pq (k, c)) as [[m1 c1] [[]|e]] eqn:E1; [|discriminate].
    destruct (pq_loop ev m1 pq l) as [[m2 l2] r2] eqn:E2. inversion E; subst m2 l' r2; clear E.
    destruct (step_ok _ _ _ _ _ _ _ HS HO E1) as (r & HC & H1 & H2 & H3 & H4 & H5).
    assert (HO1 : own_names m1). { intros n a HD. apply HO. rewrite <- HD. f_equal. symmetry. apply (core_vars _ _ HC). }
    destruct (IH _ _ _ HS HO1 E2) as (new & HC2 & HL & HE). exists (r :: new). split; [|split].
    + rewrite HC2. pose proof (core_rows _ _ HC) as HR. simpl in HR. rewrite HR. unfold core in *. simpl in *. rewrite <- app_assoc. simpl. congruence.
    + subst. reflexivity.
    + intros fd x HB. rewrite csum_cons, (HE fd x HB). unfold contribution. rewrite H1, H2, H3, H4, value_cneg, value_num, (monomial_term x k HB).
      unfold qubo_terms. simpl. ring.
Qed.

(** Loading replaces the offset and adds the energy of the terms. *)
Theorem C31_energy : forall ev m pq m' pq' fd x, structured pq -> own_names m ->
  from_pyqubo ev m pq = (m', pq', Ok tt) -> binary x ->
  energy fd x m' = (energy fd x m - value fd (m_offset m) + qubo_energy fd x pq)%Qc.
Proof.
  intros ev m pq m' pq' fd x HS HO E HB. unfold from_pyqubo in E.
  destruct (pq_loop ev m pq (pq_terms pq)) as [[m1 l1] [[]|e]] eqn:EL; inversion E; subst m' pq'; clear E.
  destruct (loop_ok _ _ _ _ _ _ HS HO EL) as (new & HC & _ & HE). rewrite !energy_csum. cbn [m_rows m_offset with_offset].
  rewrite (core_rows _ _ HC). cbn [m_rows with_rows]. rewrite csum_app, (HE fd x HB). unfold qubo_energy. ring.
Qed.
Theorem C31_fresh : forall ev m pq m' pq' fd x, structured pq -> own_names m -> m_rows m = [] ->
  from_pyqubo ev m pq = (m', pq', Ok tt) -> binary x -> energy fd x m' = qubo_energy fd x pq.
Proof.
  intros ev m pq m' pq' fd x HS HO HR E HB. rewrite (C31_energy _ _ _ _ _ fd x HS HO E HB), energy_csum, HR. unfold csum. simpl. ring.
Qed.
(** Everything else is left alone. *)
Theorem C31_frame : forall ev m pq m' pq', structured pq -> own_names m -> from_pyqubo ev m pq = (m', pq', Ok tt) ->
  m_mtype m' = m_mtype m /\ m_vars m' = m_vars m /\ m_deleted m' = m_deleted m /\ m_fixed m' = m_fixed m /\ m_constrs m' = m_constrs m /\
  m_offset m' = pq_offset pq /\ exists new, m_rows m' = m_rows m ++ new.
Proof.
  intros ev m pq m' pq' HS HO E. unfold from_pyqubo in E.
  destruct (pq_loop ev m pq (pq_terms pq)) as [[m1 l1] [[]|e]] eqn:EL; inversion E; subst m' pq'; clear E.
  destruct (loop_ok _ _ _ _ _ _ HS HO EL) as (new & HC & _ & _). unfold core in HC. injection HC as H1 H2 H3 H4 H5 H6 H7 H8.
  simpl. repeat (split; [congruence|]). exists new. auto.
Qed.

(** ** Success *)

(** Two terms are over the same pair of labels. *)
Definition same_pair (a b : string * string) : Prop := a = b \/ a = (snd b, fst b).
Definition term_name (k : string * string) : string :=
  if String.eqb (fst k) (snd k) then fst k
  else if String.ltb (fst k) (snd k) then fst k +++ "*" +++ snd k else snd k +++ "*" +++ fst k.
Lemma lookup_vars m m' pq l : m_vars m' = m_vars m -> pq_lookup m' pq l = pq_lookup m pq l.
Proof. intros H. unfold pq_lookup. rewrite H. reflexivity. Qed.
Lemma loop_succeeds ev pq l : forall m, structured pq -> own_names m -> aligned m ->
  (forall k c, In (k, c) l -> (exists v, pq_lookup m pq (fst k) = Ok v) /\ (exists v, pq_lookup m pq (snd k) = Ok v)) ->
  NoDup (names m ++ map (fun t => term_name (fst t)) l) ->
  exists m' l', pq_loop ev m pq l = (m', l', Ok tt).
Proof.
  induction l as [|[[k0 k1] c] l IH]; intros m HS HO HA HL ND; simpl; [eauto|].
  destruct (HL _ _ (or_introl eq_refl)) as [[t0 E0] [t1 E1]]. simpl in E0, E1. rewrite E0, E1.
  pose proof (lookup_label _ _ _ _ HS HO E0) as L0. pose proof (lookup_label _ _ _ _ HS HO E1) as L1.
  set (tgt := if String.eqb k0 k1 then TVar t0 else TTuple [EVar t0; EVar t1]).
  assert (HD : exists i, denotes tgt i (term_name (k0, k1))).
  { unfold tgt, term_name. simpl. destruct (String.eqb_spec k0 k1) as [HE|HN].
    - exists (I1 t0). rewrite <- L0. constructor.
    - destruct (String.ltb k0 k1) eqn:EL.
      + exists (I2 t0 t1). rewrite <- L0, <- L1. constructor. rewrite L0, L1; auto.
      + exists (I2 t1 t0). rewrite <- L0, <- L1. constructor. rewrite L0, L1. rewrite (ltb_total k0 k1) in EL; auto.
        apply negb_false_iff; auto. }
  destruct HD as [i HD]. assert (WF : attrs_wf AtNone) by (intros d H; discriminate).
  assert (HF : ~ In (term_name (k0, k1)) (names m)).
  { apply NoDup_app_iff in ND. destruct ND as (_ & _ & ND). intros HI. apply (ND _ HI). simpl; auto. }
  destruct (proj2 (C03_succeeds_iff ev tgt (NStr "") (AC (cneg c)) (AC (CNum 1%Qc)) AtNone TsNone m HA WF)) as [m1 EA].
  { exists (cneg c), (CNum 1%Qc), i, (term_name (k0, k1)), (term_name (k0, k1)). do 4 (split; [try reflexivity; discriminate|]). split; auto. split; auto.
    left. auto. }
  rewrite EA. destruct (C03_effect _ _ _ _ _ _ _ _ _ HA WF EA) as (c' & s' & i' & dn & nm & _ & _ & HD' & HN & _ & ER & SR & AL & _).
  assert (EN : nm = term_name (k0, k1)).
  { destruct HN as [[_ ->]|[HN HNE]]; [|inversion HN; congruence]. apply denotes_info in HD, HD'. congruence. }
  destruct SR as (_ & HV & _).
  destruct (IH m1) as (m' & l' & E'); auto.
  - intros n a. rewrite HV. apply HO.
  - intros k c0 HI. rewrite !(lookup_vars m m1 pq) by auto. apply (HL k c0). simpl; auto.
  - unfold names. rewrite ER, map_app, <- app_assoc. simpl. rewrite EN. exact ND.
  - rewrite E'. eauto.
Qed.
(** A fresh model with all the variables declared accepts every compiled QUBO
    (over different pairs of labels without '*'). *)
Theorem C31_succeeds : forall ev m pq, structured pq -> own_names m -> aligned m -> m_rows m = [] ->
  (forall a b c, In ((a, b), c) (pq_terms pq) -> forall l, l = a \/ l = b -> has_char "*"%char l = false /\
     exists n idx sh a, dget l (pq_struct pq) = Some (n, idx) /\ dget n (m_vars m) = Some a /\ a_shape a = sh /\ inside idx sh) ->
  ForallOrdPairs (fun t u => ~ same_pair (fst t) (fst u)) (pq_terms pq) ->
  exists m' pq', from_pyqubo ev m pq = (m', pq', Ok tt).
Proof.
  intros ev m pq HS HO HA HR HT HP. unfold from_pyqubo.
  destruct (loop_succeeds ev pq (pq_terms pq) m HS HO HA) as (m' & l' & E).
  - assert (HX : forall l, (exists n idx sh a, dget l (pq_struct pq) = Some (n, idx) /\ dget n (m_vars m) = Some a /\ a_shape a = sh /\ inside idx sh) ->
      exists v, pq_lookup m pq l = Ok v).
    { intros l (n & idx & sh & a & H1 & H2 & H3 & H4). unfold pq_lookup. rewrite H1, H2. destruct (HO _ _ H2) as (sh' & vt & EC).
      pose proof (array_create_shape _ _ _ _ EC). subst. eexists. apply (array_get_create _ _ _ _ _ EC); auto. }
    intros [a b] c HI. split; apply HX; eapply HT; eauto.
  - unfold names. rewrite HR. simpl. clear -HT HP. revert HT HP. generalize (pq_terms pq). intros l.
    induction l as [|[[a b] c] l IH]; intros HT HP; simpl; [constructor|]. inversion HP; subst. constructor.
    + intros HI. apply in_map_iff in HI. destruct HI as ([[a' b'] c'] & HE & HI). rewrite Forall_forall in H1. specialize (H1 _ HI). simpl in *. apply H1.
      assert (HD : forall p q, has_char "*"%char p = false -> has_char "*"%char q = false ->
         exists t i, denotes t i (term_name (p, q)) /\ plain_labels i /\ forall l, In l (labels_of i) <-> l = p \/ l = q).
      { intros p q Hp Hq. unfold term_name; simpl. destruct (String.eqb_spec p q) as [->|HN].
        - exists (TVar (mkVar q Binary)), (I1 (mkVar q Binary)). split; [apply (denotes_var (mkVar q Binary))|]. split; [repeat constructor; auto|].
          simpl. intros; intuition.
        - destruct (String.ltb p q) eqn:EL.
          + exists (TTuple [EVar (mkVar p Binary); EVar (mkVar q Binary)]), (I2 (mkVar p Binary) (mkVar q Binary)).
            split; [apply (denotes_pair (mkVar p Binary) (mkVar q Binary)); auto|]. split; [repeat constructor; auto|]. simpl; intros; intuition.
          + exists (TTuple [EVar (mkVar p Binary); EVar (mkVar q Binary)]), (I2 (mkVar q Binary) (mkVar p Binary)).
            split; [apply (denotes_swap (mkVar p Binary) (mkVar q Binary)); simpl; auto|].
            * rewrite (ltb_total p q) in EL; auto. apply negb_false_iff; auto.
            * split; [repeat constructor; auto|]. simpl; intros; intuition. }
      assert (S1 : forall l0, l0 = a \/ l0 = b -> has_char "*"%char l0 = false) by (intros l0 HL0; apply (HT a b c (or_introl eq_refl) l0 HL0)).
      assert (S2 : forall l0, l0 = a' \/ l0 = b' -> has_char "*"%char l0 = false) by (intros l0 HL0; apply (HT a' b' c' (or_intror HI) l0 HL0)).
      destruct (HD a b) as (t1 & i1 & D1 & P1 & L1); auto. destruct (HD a' b') as (t2 & i2 & D2 & P2 & L2); auto.
      destruct (C08_default_name_injective _ _ _ _ _ _ D1 D2 P1 P2) as [HJ _]. specialize (HJ (eq_sym HE)).
      assert (HK : forall l0, l0 = a \/ l0 = b <-> l0 = a' \/ l0 = b') by (intros l0; rewrite <- L1, <- L2; apply HJ).
      pose proof (proj1 (HK a) (or_introl eq_refl)). pose proof (proj1 (HK b) (or_intror eq_refl)).
      pose proof (proj2 (HK a') (or_introl eq_refl)). pose proof (proj2 (HK b') (or_intror eq_refl)). unfold same_pair; simpl.
      destruct H, H0, H3, H4; subst; auto.
    + apply IH; auto. intros a' b' c' HI. apply (HT a' b' c'). simpl; auto.
  - rewrite E. eauto.
Qed.

(** ** C32 *)

(** With a zero offset loading adds the energies; without pyqubo.Coefficient
    (placeholder) coefficients the argument is left as it was. *)
Theorem C32_additive_partial : forall ev m pq m' pq' fd x, structured pq -> own_names m -> value fd (m_offset m) = 0%Qc ->
  from_pyqubo ev m pq = (m', pq', Ok tt) -> binary x -> energy fd x m' = (energy fd x m + qubo_energy fd x pq)%Qc.
Proof. intros. erewrite C31_energy; eauto. rewrite H1. ring. Qed.
Theorem C32_argument_partial : forall ev m pq m' pq', structured pq -> own_names m ->
  (forall k c, In (k, c) (pq_terms pq) -> exists q, c = CNum q) -> from_pyqubo ev m pq = (m', pq', Ok tt) -> pq' = pq.
Proof.
  intros ev m pq m' pq' HS HO HN E. unfold from_pyqubo in E.
  destruct (pq_loop ev m pq (pq_terms pq)) as [[m1 l1] [[]|e]] eqn:EL; inversion E; subst m' pq'; clear E.
  destruct (loop_ok _ _ _ _ _ _ HS HO EL) as (new & _ & -> & _). destruct pq as [l st o]. simpl in *. f_equal.
  clear -HN. induction l as [|[k c] l IH]; auto. simpl. destruct (HN k c) as [q ->]; [simpl; auto|]. cbn [is_num]. f_equal. apply IH. intros; apply (HN k0); simpl; auto.
Qed.
(** What happens to it otherwise: loading it again adds every placeholder term with the opposite sign. *)
Theorem C32_argument_negated : forall ev m pq m' pq', structured pq -> own_names m -> from_pyqubo ev m pq = (m', pq', Ok tt) ->
  pq_offset pq' = pq_offset pq /\ pq_struct pq' = pq_struct pq /\
  Forall2 (fun t t' => fst t' = fst t /\ forall fd, value fd (snd t') = match snd t with CNum q => q | c => (- value fd c)%Qc end)
    (pq_terms pq) (pq_terms pq').
Proof.
  intros ev m pq m' pq' HS HO E. unfold from_pyqubo in E.
  destruct (pq_loop ev m pq (pq_terms pq)) as [[m1 l1] [[]|e]] eqn:EL; inversion E; subst m' pq'; clear E.
  destruct (loop_ok _ _ _ _ _ _ HS HO EL) as (new & _ & -> & _). simpl. split; auto. split; auto.
  clear. induction (pq_terms pq) as [|[k c] l IH]; simpl; constructor; auto. simpl. split; auto. intros fd. destruct c; cbn [is_num]; try apply value_cneg. apply value_num.
Qed.

Definition pq_sample : pqmodel := mkPq
  [(("q[0]", "q[0]"), CNum (qz 2)); (("q[1]", "q[0]"), CPh "lambda"); (("q[1]", "q[1]"), CNum (qz (-3)))]%string
  [("q[0]", ("q", [0])); ("q[1]", ("q", [1]))]%string (CNum (qz 7)).
Definition fresh_q : lmodel := fst (variables (VName "q") (ShTuple [ShInt 2]) (new_model Qubo)).
Lemma sample_structured : structured pq_sample.
Proof.
  intros l n idx. simpl. destruct (String.eqb_spec l "q[0]"); [intros E; inversion E; subst; reflexivity|].
  destruct (String.eqb_spec l "q[1]"); [intros E; inversion E; subst; reflexivity|discriminate].
Qed.
Lemma fresh_own : own_names fresh_q.
Proof.
  intros n a. simpl. destruct (String.eqb_spec n "q"); [|discriminate]. intros E; inversion E; subst. exists [2%Z], Binary. reflexivity.
Qed.
Example C31_hyps : structured pq_sample /\ own_names fresh_q /\ aligned fresh_q /\ m_rows fresh_q = [] /\
  (forall a b c, In ((a, b), c) (pq_terms pq_sample) -> forall l, l = a \/ l = b -> has_char "*"%char l = false /\
     exists n idx sh a, dget l (pq_struct pq_sample) = Some (n, idx) /\ dget n (m_vars fresh_q) = Some a /\ a_shape a = sh /\ inside idx sh) /\
  ForallOrdPairs (fun t u => ~ same_pair (fst t) (fst u)) (pq_terms pq_sample).
Proof.
  split; [apply sample_structured|]. split; [apply fresh_own|]. split; [apply alignedb_ok; reflexivity|]. split; [reflexivity|]. split.
  - assert (H : forall l, (l = "q[0]" \/ l = "q[1]")%string -> has_char "*"%char l = false /\
       exists n idx sh a, dget l (pq_struct pq_sample) = Some (n, idx) /\ dget n (m_vars fresh_q) = Some a /\ a_shape a = sh /\ inside idx sh).
    { intros l [->| ->]; (split; [reflexivity|]); do 4 eexists; (split; [reflexivity|]); (split; [reflexivity|]); (split; [reflexivity|]); repeat constructor. }
    intros a b c HI l HL. apply H. simpl in HI. decompose [or] HI; try contradiction; inversion H0 || inversion H1; subst; tauto.
  - repeat constructor; intros [H|H]; inversion H.
Qed.
(** The existing offset 5 is lost, and the placeholder term of the argument
    has changed sign. *)
Theorem C32_refuted : exists ev m pq m' pq' fd x, structured pq /\ own_names m /\ binary x /\
  from_pyqubo ev m pq = (m', pq', Ok tt) /\ energy fd x m' <> (energy fd x m + qubo_energy fd x pq)%Qc /\
  qubo_energy fd x pq' <> qubo_energy fd x pq.
Proof.
  pose (m := with_offset (CNum (qz 5)) fresh_q). pose (res := from_pyqubo env0 m pq_sample).
  exists env0, m, pq_sample, (fst (fst res)), (snd (fst res)), feed0, (fun _ => 1%Qc).
  split; [apply sample_structured|]. split; [exact fresh_own|]. split; [intros l; auto|].
  assert (E : from_pyqubo env0 m pq_sample = (fst (fst res), snd (fst res), Ok tt)).
  { assert (H : okb res = true) by (vm_compute; reflexivity). fold res. clearbody res. destruct res as [[a b] [[]|e]]; [reflexivity|discriminate]. }
  split; [exact E|]. split.
  - rewrite (C31_energy _ _ _ _ _ feed0 (fun _ => 1%Qc) sample_structured (fresh_own : own_names m) E) by (intros l; auto).
    intros H. assert (H2 : value feed0 (m_offset m) = 0%Qc).
    { transitivity (energy feed0 (fun _ => 1%Qc) m + qubo_energy feed0 (fun _ => 1%Qc) pq_sample -
        (energy feed0 (fun _ => 1%Qc) m - value feed0 (m_offset m) + qubo_energy feed0 (fun _ => 1%Qc) pq_sample))%Qc; [ring|]. rewrite H. ring. }
    vm_compute in H2. discriminate.
  - intros H. assert (H2 : Qc_eqb (qubo_energy feed0 (fun _ => 1%Qc) (snd (fst res))) (qubo_energy feed0 (fun _ => 1%Qc) pq_sample) = true) by (rewrite H; vm_compute; reflexivity).
    revert H2. unfold res. vm_compute. discriminate.
Qed.

Print Assumptions C31_energy.
Print Assumptions C31_fresh.
Print Assumptions C31_frame.
Print Assumptions C31_succeeds.
Print Assumptions C32_additive_partial.
Print Assumptions C32_argument_partial.
Print Assumptions C32_argument_negated.
Print Assumptions C32_refuted.
