(** * PropsExpression: C134 - from a PyQUBO expression to its minimum, and the PyQUBO samples of sample/model/model.py. *)
From Verif Require Import PyBase PyLemmas Numbers Constraint LogicalModel Spec LogicalProofs EnergyProofs ConvertProofs ConstraintProofs MergeProofs
  PhysicalProofs ToPhysicalProofs PropsPhysical PropsInteractions PropsState PropsPyqubo PropsDeclare Samples Physical Solver SolverSpec SolverProofs PropsBqm PropsSolver
  Npp Services ServicesSpec PropsServices PropsSolvers Stream StreamSpec NppStream Tsp TspSpec TspProofs TspTours PropsTsp PropsConverts PropsPenalty.
Local Open Scope string_scope.
Local Open Scope list_scope.

(** A QUBO model with nothing but variables declared by name. *)
Inductive declared : lmodel -> Prop :=
| d_new : declared (new_model Qubo)
| d_variables m n sh m' : declared m -> variables (VName n) sh m = (m', Ok tt) -> declared m'.
(** The variables of an expression are elements of declared arrays whose names have no bracket. *)
Definition in_scope (m : lmodel) (e : expr) : Prop :=
  forall n idx, In (n, idx) (bits_of e) -> has_char "["%char n = false /\ exists a, dget n (m_vars m) = Some a /\ inside idx (a_shape a).

Lemma declared_step m n sh m' : variables (VName n) sh m = (m', Ok tt) -> exists a, m' = with_vars (dset n a (m_vars m)) m /\ exists d, array_create n d (vt_of (m_mtype m)) = Ok a.
Proof.
  intros E. cbn [variables] in E. destruct (check_shape false sh) as [d|]; [|discriminate]. destruct (array_create n d (vt_of (m_mtype m))) as [a|] eqn:EA; [|discriminate].
  inversion E. exists a. eauto.
Qed.
Lemma declared_facts m : declared m -> m_mtype m = Qubo /\ m_rows m = [] /\ m_constrs m = [] /\ aligned m /\ own_names m.
Proof.
  induction 1 as [|m n sh m' HD (H1 & H2 & H3 & H4 & H5) E].
  - repeat (split; [reflexivity|]). split; [repeat split; intros; auto; constructor|]. intros n a HD. discriminate.
  - destruct (declared_step _ _ _ _ E) as (a & -> & d & EA). split; auto. split; auto. split; auto. split; [exact H4|].
    intros k b HK. cbn [m_vars with_vars] in HK. destruct (String.eqb_spec k n) as [->|NE].
    + rewrite dget_dset_same in HK. inversion HK; subst. eauto.
    + rewrite dget_dset_other in HK by auto. eauto.
Qed.
Lemma brackets_star l : has_char "*"%char (brackets l) = false.
Proof.
  induction l as [|i l IH]; auto. cbn [brackets]. rewrite !has_char_app, IH. rewrite str_of_nat_no_char; [reflexivity|].
  intros d H'. intros <-. cbn in H'. intuition discriminate.
Qed.

Section expression.
Variables (compile : compiler) (HC : pyqubo_compiler compile).
(** Loading an expression of degree two succeeds; giving its placeholders makes the physical
    model, whose energy is the value of the expression. *)
Theorem C134_expression : forall ev0 m e, declared m -> degree e <= 2 -> in_scope m e ->
  exists m' pq', from_pyqubo ev0 m (compile e) = (m', pq', Ok tt) /\
  forall ev evs fd, all_given fd e ->
  exists m'' p, to_physical ev evs fd m' = (m'', Ok p) /\ p_mtype p = Qubo /\ (forall l, ~ In (l, l) (dkeys (p_quad p))) /\
    forall x, binary x -> energy_physical x p = eval fd x e.
Proof.
  intros ev0 m e HD HG HS. destruct (declared_facts m HD) as (T & R & K & A & O).
  assert (HCF : compiled_from e (compile e)) by (apply HC; auto; intros n idx HI; apply (HS n idx HI)).
  set (pq := compile e) in *. destruct HCF as [CS CL CP CR CE].
  destruct (C31_succeeds ev0 m pq CS O A R) as (m' & pq' & E); [|exact CP|].
  { intros a b c Hin l Hl. destruct (CL _ _ _ _ Hin Hl) as (k & idx & K1 & K2 & K3). destruct (HS _ _ K1) as (_ & ar & HA & HI).
    destruct (O _ _ HA) as (sh & vt & EC). assert (HN : has_char "*"%char k = false) by (unfold array_create in EC; destruct (has_char "*"%char k); [discriminate|auto]).
    split; [subst l; rewrite has_char_app, HN, brackets_star; reflexivity|]. exists k, idx, (a_shape ar), ar. auto. }
  exists m', pq'. split; auto. intros ev evs fd HF.
  pose proof (C31_frame _ _ _ _ _ CS O E) as (G1 & G2 & G3 & G4 & G5 & G6 & _).
  pose proof E as EL. unfold from_pyqubo in EL. destruct (pq_loop ev0 m pq (pq_terms pq)) as [[m2 l2] [[]|er]] eqn:EP; [|inversion EL].
  assert (NU : names_unique m) by (unfold names_unique, names; rewrite R; constructor).
  destruct (loaded ev0 pq (pq_terms pq) m m2 l2 A NU EP) as (L1 & L2 & new & L3 & L4).
  assert (HM : m' = with_offset (pq_offset pq) m2) by (inversion EL; reflexivity). rewrite R in L3. cbn [app] in L3.
  assert (HR : m_rows m' = new) by (rewrite HM; exact L3).
  assert (A' : aligned m') by (rewrite HM; exact L1). assert (U' : names_unique m') by (rewrite HM; exact L2).
  assert (K' : m_constrs m' = []) by (rewrite G5; auto).
  destruct (CR fd HF) as [R1 R2].
  assert (RS : resolved fd m').
  { split; [|rewrite G6; auto]. intros r Hr _. rewrite HR in Hr. destruct (L4 r Hr) as (_ & -> & _ & k & c & K1 & ->). split; [|apply resolves_num].
    unfold cneg. apply resolves_cmul. split; [apply resolves_num|eauto]. }
  assert (HCM : cmodels evs 0 (m_mtype m') (dvals (m_constrs m')) = Ok []) by (rewrite K'; reflexivity).
  assert (HX : forall r cm, In r (m_rows m') -> r_removed r = true -> In cm [] -> ~ In (r_name r) (names cm)) by (intros ? ? _ _ []).
  destruct (C09_to_physical_succeeds ev evs fd m' [] A' U' RS HCM HX) as (m'' & p & EPH). assert (HL : m_len m' = length (m_rows m')) by apply A'.
  exists m'', p. split; auto. split; [|split].
  - destruct (to_physical_ok _ _ _ _ _ _ HL EPH) as (cms & _ & _ & ->). rewrite <- T, <- G1. unfold phys, build_physical. destruct (index_labels _ _ _ _ _ _); reflexivity.
  - intros l HI'. destruct (C10_coefficients _ _ _ _ _ _ HL EPH) as (cms & HC' & _ & _ & _ & _ & Q0 & _). rewrite HCM in HC'. injection HC' as <-.
    cbn [flat_map] in Q0. rewrite app_nil_r in Q0.
    assert (HQ : quad_total fd (m_rows m') l l = 0%Qc) by (apply no_pair_loop; intros r a b Hr; rewrite HR in Hr; apply (L4 r Hr)).
    specialize (Q0 l l HQ). now apply dget_none in Q0.
  - intros x HB. rewrite (C09_no_constraints _ _ _ _ _ _ HL K' EPH). rewrite (C31_fresh _ _ _ _ _ fd x CS O R E HB). apply CE; auto.
Qed.
(** Unless the expression is constant, the exact local solver accepts the physical model, and its best
    sample is a minimum of the expression. *)
Theorem C134_minimum : forall ev0 m e m' pq' ev evs fd m'' p neal, declared m -> degree e <= 2 -> in_scope m e ->
  from_pyqubo ev0 m (compile e) = (m', pq', Ok tt) -> all_given fd e -> to_physical ev evs fd m' = (m'', Ok p) ->
  (exists x y, binary x /\ binary y /\ eval fd x e <> eval fd y e) ->
  exists rows s en, local_solve true neal (Some p) = Ok rows /\ lowest s en rows /\
    forall a, binary a -> (forall l z, dget l s = Some z -> a l = qz z) ->
    eval fd a e = en /\ forall b, binary b -> (eval fd a e <= eval fd b e)%Qc.
Proof.
  intros ev0 m e m' pq' ev evs fd m'' p neal HD HG HS E HF EP (x & y & BX & BY & NE).
  destruct (C134_expression ev0 m e HD HG HS) as (m1 & pq1 & E1 & HP). rewrite E in E1. injection E1 as <- <-.
  destruct (HP ev evs fd HF) as (m2 & p2 & EP2 & PT & NL & HE). rewrite EP in EP2. injection EP2 as <- <-.
  destruct (C75_succeeds neal p) as [rows ES]; auto.
  { destruct (p_linear p) eqn:E1; [|left; discriminate]. destruct (p_quad p) eqn:E2; [|right; discriminate]. exfalso. apply NE.
    rewrite <- !HE by auto. unfold energy_physical. rewrite E1, E2. reflexivity. }
  destruct (C75_has_lowest _ _ _ ES) as (s & en & LW). exists rows, s, en. split; auto. split; auto.
  destruct (C75_minimum _ _ _ _ _ ES LW) as [EE HM]. intros a BA HA.
  assert (EA : energy_physical (value_of s) p = energy_physical a p).
  { apply energy_physical_ext. intros l OC. destruct LW as ((c & HI) & _). destruct (C75_exact _ _ _ ES) as (HR & _). destruct (HR _ _ _ HI) as (_ & _ & HK & _).
    apply HK in OC. apply dget_some_in in OC. destruct OC as [z HZ]. unfold value_of. rewrite HZ. symmetry. auto. }
  split; [rewrite <- HE, EE by auto; auto|]. intros b BB. rewrite <- !HE by auto. rewrite <- EA, <- EE. apply HM. intros l _. rewrite PT. cbn [legal].
  destruct (BB l) as [-> | ->]; [exists 0%Z|exists 1%Z]; split; auto; apply Qc_is_canon; reflexivity.
Qed.
End expression.

(** ** sample/model/model.py 156-194: model_from_pyqubo_expression and model_from_pyqubo_model

    Generalisation: [n] variables in each array (4 in the sample), and any values of the scale and the
    constant (the placeholder A and 10.0 in the second sample, 1 and 0 in the first). *)
Definition sum_bits (nm : string) (rest : list nat) (n : nat) : expr := esum (fun i => EBit nm (i :: rest)) (ENum 0%Qc) (seq 0 n).
Definition difference_squared (rest : list nat) (n : nat) : expr :=
  let d := EAdd (sum_bits "x" rest n) (EMul (ENum (- (1))%Qc) (sum_bits "y" rest n)) in EMul d d.
Definition pyqubo_sample (rest : list nat) (n : nat) : expr := EAdd (EMul (EPlace "A") (difference_squared rest n)) (ENum (qz 10)).
(** Lines 159-160 (shape (n,)) and 176-177 (shape (n, 2)). *)
Definition declare_two (d : list Z) : LM unit :=
  _ <- variables (VName "x") (ShTuple (map ShInt d)) ;; variables (VName "y") (ShTuple (map ShInt d)).

(** x[i, 0] (179-180). *)
Definition column : list nat := [0].
(** How many of the variables nm[0]rest, nm[1]rest, .. are 1. *)
Definition ones (x : assignment) (nm : string) (rest : list nat) (n : nat) : Qc := qsum (map (fun i => x (nm +++ brackets (i :: rest))) (seq 0 n)).
Lemma eval_sum_bits fd x nm rest n : eval fd x (sum_bits nm rest n) = ones x nm rest n.
Proof. unfold sum_bits, ones. rewrite eval_esum. cbn [eval]. ring. Qed.
Lemma eval_difference fd x rest n : eval fd x (difference_squared rest n) = ((ones x "x" rest n - ones x "y" rest n) * (ones x "x" rest n - ones x "y" rest n))%Qc.
Proof. unfold difference_squared. cbn [eval]. rewrite !eval_sum_bits. ring. Qed.
Lemma degree_esum {X} (f : X -> expr) k l : forall acc, degree acc <= k -> (forall i, degree (f i) <= k) -> degree (esum f acc l) <= k.
Proof. unfold esum. induction l as [|i l IH]; intros acc HA HF; cbn [fold_left]; auto. apply IH; auto. cbn [degree]. specialize (HF i). lia. Qed.
Lemma bits_esum {X} (f : X -> expr) l : forall acc b, In b (bits_of (esum f acc l)) -> In b (bits_of acc) \/ exists i, In i l /\ In b (bits_of (f i)).
Proof.
  unfold esum. induction l as [|i l IH]; intros acc b H; cbn [fold_left] in H; auto. destruct (IH _ _ H) as [HA|(j & HJ & HB)]; [|right; exists j; split; [now right|auto]].
  cbn [bits_of] in HA. apply in_app_or in HA. destruct HA as [HA|HA]; auto. right. exists i. split; [now left|auto].
Qed.
Lemma places_sum_bits nm rest n : places (sum_bits nm rest n) = [].
Proof. unfold sum_bits. apply places_esum; auto. Qed.
Lemma difference_facts rest n : degree (difference_squared rest n) <= 2 /\ places (difference_squared rest n) = [] /\
  forall b, In b (bits_of (difference_squared rest n)) -> exists nm i, (nm = "x" \/ nm = "y") /\ i < n /\ b = (nm, i :: rest).
Proof.
  assert (D : forall nm, degree (sum_bits nm rest n) <= 1) by (intros nm; unfold sum_bits; apply degree_esum; [cbn; lia|intros; cbn; lia]).
  split; [|split].
  - unfold difference_squared. cbn [degree]. pose proof (D "x"). pose proof (D "y"). lia.
  - unfold difference_squared. cbn [places]. rewrite !places_sum_bits. reflexivity.
  - assert (B : forall nm b, In b (bits_of (sum_bits nm rest n)) -> exists i, i < n /\ b = (nm, i :: rest)).
    { intros nm b HB. unfold sum_bits in HB. apply bits_esum in HB. destruct HB as [[]|(i & HI & [HB|[]])]. apply in_seq in HI. exists i. split; [lia|auto]. }
    intros b HB. unfold difference_squared in HB. cbn [bits_of] in HB. rewrite !in_app_iff in HB. cbn [In] in HB.
    assert (HX : In b (bits_of (sum_bits "x" rest n)) \/ In b (bits_of (sum_bits "y" rest n))) by tauto.
    destruct HX as [HX|HX]; apply B in HX; destruct HX as (i & HI & ->); eauto 6.
Qed.
Lemma declare_two_ok d : d <> [] -> Forall (fun z => (0 < z)%Z) d ->
  exists m ax ay, declare_two d (new_model Qubo) = (m, Ok tt) /\ declared m /\ dget "x" (m_vars m) = Some ax /\ dget "y" (m_vars m) = Some ay /\ a_shape ax = d /\ a_shape ay = d.
Proof.
  intros HN HP. destruct (proj2 (C80_succeeds_iff "x" (ShTuple (map ShInt d)) (new_model Qubo))) as [m1 E1]; [exists d; auto|].
  destruct (proj2 (C80_succeeds_iff "y" (ShTuple (map ShInt d)) m1)) as [m2 E2]; [exists d; auto|].
  destruct (C80_effect _ _ _ _ E1) as (ax & _ & X1 & X2 & _). destruct (C80_effect _ _ _ _ E2) as (ay & _ & Y1 & Y2 & Y3).
  exists m2, ax, ay. split; [unfold declare_two; cbv beta; unfold bind; rewrite E1; exact E2|]. split; [econstructor; [econstructor; [constructor|exact E1]|exact E2]|].
  split; [rewrite Y3; auto; discriminate|]. split; auto. split; [apply X2|apply Y2].
Qed.
Lemma two_scope d rest n m ax ay e : dget "x" (m_vars m) = Some ax -> dget "y" (m_vars m) = Some ay -> a_shape ax = d -> a_shape ay = d ->
  (forall i, i < n -> inside (i :: rest) d) ->
  (forall b, In b (bits_of e) -> exists nm i, (nm = "x" \/ nm = "y") /\ i < n /\ b = (nm, i :: rest)) -> in_scope m e.
Proof.
  intros DX DY SX SY HI HB nm idx HIn. destruct (HB _ HIn) as (k & i & HK & LI & EQ). injection EQ as -> ->.
  destruct HK as [-> | ->]; (split; [reflexivity|]); [exists ax|exists ay]; (split; [auto|]); [rewrite SX|rewrite SY]; auto.
Qed.
Lemma square_nonneg q : (0 <= q * q)%Qc.
Proof. exact (sq_nonneg q). Qed.
Lemma square_pos q : q <> 0%Qc -> (0 < q * q)%Qc.
Proof.
  intros H. destruct (Qcle_lt_or_eq _ _ (square_nonneg q)) as [L|E]; auto. exfalso. symmetry in E. apply Qcmult_integral in E. tauto.
Qed.
Lemma pos_mul a b : (0 < a)%Qc -> (0 < b)%Qc -> (0 < a * b)%Qc.
Proof. apply Qc_pos_mul. Qed.

(** The model of the second sample has A * (number of x - number of y)^2 + 10 as its energy: for A > 0
    the ground states are exactly the assignments with as many x as y, with energy 10. *)
Theorem C134_sample : forall compile ev0 n A, pyqubo_compiler compile -> 0 < n -> (0 < A)%Qc ->
  exists m m' pq', declare_two [Z.of_nat n; 2%Z] (new_model Qubo) = (m, Ok tt) /\
    from_pyqubo ev0 m (compile (pyqubo_sample column n)) = (m', pq', Ok tt) /\
  forall ev evs, exists m'' p, to_physical ev evs [("A", A)] m' = (m'', Ok p) /\
  forall x, binary x ->
    let dx := (ones x "x" column n - ones x "y" column n)%Qc in
    energy_physical x p = (A * (dx * dx) + qz 10)%Qc /\
    ((forall y, binary y -> (energy_physical x p <= energy_physical y p)%Qc) <-> ones x "x" column n = ones x "y" column n).
Proof.
  intros compile ev0 n A HC HN HA. destruct (declare_two_ok [Z.of_nat n; 2%Z]) as (m & ax & ay & ED & DM & DX & DY & SX & SY); [discriminate|repeat constructor; lia|].
  destruct (difference_facts column n) as (F1 & F2 & F3).
  destruct (C134_expression compile HC ev0 m (pyqubo_sample column n)) as (m' & pq' & E & HP); auto.
  { unfold pyqubo_sample. cbn [degree]. lia. }
  { eapply (two_scope [Z.of_nat n; 2%Z] column n); eauto; [intros i LI; repeat constructor; lia|]. unfold pyqubo_sample. cbn [bits_of app]. intros b HB. apply F3. rewrite app_nil_r in HB. exact HB. }
  exists m, m', pq'. split; auto. split; auto. intros ev evs.
  destruct (HP ev evs [("A", A)]) as (m'' & p & EP & _ & _ & HE).
  { intros q HQ. unfold pyqubo_sample in HQ. cbn [places] in HQ. rewrite F2 in HQ. destruct HQ as [<-|[]]. discriminate. }
  assert (HV : forall x, binary x -> energy_physical x p = (A * ((ones x "x" column n - ones x "y" column n) * (ones x "x" column n - ones x "y" column n)) + qz 10)%Qc).
  { intros x BX. rewrite HE by auto. unfold pyqubo_sample. cbn [eval]. rewrite eval_difference. reflexivity. }
  exists m'', p. split; auto. intros x BX dx. split; [apply HV; auto|]. split.
  - intros HM. specialize (HM (fun _ => 0%Qc) (fun l => or_introl eq_refl)). rewrite !HV in HM by (auto; intros l; auto).
    assert (Z0 : forall nm, ones (fun _ => 0%Qc) nm column n = 0%Qc) by (intros nm; unfold ones; generalize (seq 0 n); intros q; induction q as [|i q IH]; cbn [map]; [apply qsum_nil|rewrite qsum_cons, IH; ring]).
    rewrite !Z0 in HM. fold dx in HM. assert (DZ : dx = 0%Qc).
    { destruct (Qc_eq_dec dx 0%Qc) as [EZ|NZ]; auto. exfalso. pose proof (pos_mul _ _ HA (square_pos dx NZ)) as HP2.
      replace (A * ((0 - 0) * (0 - 0)) + qz 10)%Qc with (qz 10) in HM by ring. qlin. }
    unfold dx in DZ. rewrite <- (Qcplus_0_l (ones x "y" column n)), <- DZ. ring.
  - intros EQ y BY. rewrite !HV by auto. rewrite EQ. assert (SQ := square_nonneg (ones y "x" column n - ones y "y" column n)%Qc).
    set (dy := (ones y "x" column n - ones y "y" column n)%Qc) in *.
    assert (H0 : (0 <= A * (dy * dy))%Qc) by (destruct (Qc_eq_dec dy 0%Qc) as [-> |NZ]; [replace (A * (0 * 0))%Qc with 0%Qc by ring; apply Qcle_refl|apply Qclt_le_weak, pos_mul; auto; apply square_pos; auto]).
    set (o := ones x "y" column n). replace (A * ((o - o) * (o - o)) + qz 10)%Qc with (qz 10) by ring. qlin.
Qed.

(** The first sample: (number of x - number of y)^2 without placeholders, n variables in each array. *)
Theorem C134_first_sample : forall compile ev0 n, pyqubo_compiler compile -> 0 < n ->
  exists m m' pq', declare_two [Z.of_nat n] (new_model Qubo) = (m, Ok tt) /\
    from_pyqubo ev0 m (compile (difference_squared [] n)) = (m', pq', Ok tt) /\
  forall ev evs fd, exists m'' p, to_physical ev evs fd m' = (m'', Ok p) /\
  forall x, binary x ->
    let dx := (ones x "x" [] n - ones x "y" [] n)%Qc in
    energy_physical x p = (dx * dx)%Qc /\
    ((forall y, binary y -> (energy_physical x p <= energy_physical y p)%Qc) <-> ones x "x" [] n = ones x "y" [] n).
Proof.
  intros compile ev0 n HC HN. destruct (declare_two_ok [Z.of_nat n]) as (m & ax & ay & ED & DM & DX & DY & SX & SY); [discriminate|repeat constructor; lia|].
  destruct (difference_facts [] n) as (F1 & F2 & F3).
  destruct (C134_expression compile HC ev0 m (difference_squared [] n)) as (m' & pq' & E & HP); auto.
  { eapply (two_scope [Z.of_nat n] [] n); eauto. intros i LI; repeat constructor; lia. }
  exists m, m', pq'. split; auto. split; auto. intros ev evs fd.
  destruct (HP ev evs fd) as (m'' & p & EP & _ & _ & HE).
  { intros q HQ. rewrite F2 in HQ. destruct HQ. }
  assert (HV : forall x, binary x -> energy_physical x p = ((ones x "x" [] n - ones x "y" [] n) * (ones x "x" [] n - ones x "y" [] n))%Qc).
  { intros x BX. rewrite HE by auto. apply eval_difference. }
  exists m'', p. split; auto. intros x BX dx. split; [apply HV; auto|]. split.
  - intros HM. specialize (HM (fun _ => 0%Qc) (fun l => or_introl eq_refl)). rewrite !HV in HM by (auto; intros l; auto).
    assert (Z0 : forall nm, ones (fun _ => 0%Qc) nm [] n = 0%Qc) by (intros nm; unfold ones; generalize (seq 0 n); intros q; induction q as [|i q IH]; cbn [map]; [apply qsum_nil|rewrite qsum_cons, IH; ring]).
    rewrite !Z0 in HM. fold dx in HM. assert (DZ : dx = 0%Qc).
    { destruct (Qc_eq_dec dx 0%Qc) as [EZ|NZ]; auto. exfalso. pose proof (square_pos dx NZ) as HP2.
      replace ((0 - 0) * (0 - 0))%Qc with 0%Qc in HM by ring. qlin. }
    unfold dx in DZ. rewrite <- (Qcplus_0_l (ones x "y" [] n)), <- DZ. ring.
  - intros EQ y BY. rewrite !HV by auto. rewrite EQ. pose proof (square_nonneg (ones y "x" [] n - ones y "y" [] n)%Qc) as SQ.
    set (o := ones x "y" [] n). replace ((o - o) * (o - o))%Qc with 0%Qc by ring. exact SQ.
Qed.

(** ** The hypotheses are met: a compiler that fulfils the contract exists, and the samples are in scope. *)
Example C134_hyps : pyqubo_compiler compile_ref /\ exists m, declare_two [4%Z; 2%Z] (new_model Qubo) = (m, Ok tt) /\ declared m /\
  degree (pyqubo_sample column 4) <= 2 /\ in_scope m (pyqubo_sample column 4) /\ all_given [("A", qz 2)] (pyqubo_sample column 4) /\
  exists x y, binary x /\ binary y /\ eval [("A", qz 2)] x (pyqubo_sample column 4) <> eval [("A", qz 2)] y (pyqubo_sample column 4).
Proof.
  split; [apply compile_ref_ok|]. destruct (declare_two_ok [4%Z; 2%Z]) as (m & ax & ay & ED & DM & DX & DY & SX & SY); [discriminate|repeat constructor; lia|].
  exists m. split; auto. split; auto. split; [cbn; lia|]. split; [|split].
  - eapply (two_scope [4%Z; 2%Z] column 4); eauto; [intros i LI; repeat constructor; lia|]. unfold pyqubo_sample. cbn [bits_of app]. intros b HB. apply difference_facts. rewrite app_nil_r in HB. exact HB.
  - intros q HQ. cbn in HQ. intuition; subst; discriminate.
  - exists (fun _ => 0%Qc), (fun l => if String.eqb l "x[0][0]" then 1%Qc else 0%Qc). split; [intros l; auto|]. split; [intros l; destruct (String.eqb l _); auto|].
    intros H. apply (f_equal this) in H. vm_compute in H. discriminate.
Qed.
Print Assumptions C134_expression.
Print Assumptions C134_minimum.
Print Assumptions C134_sample.
Print Assumptions C134_first_sample.
