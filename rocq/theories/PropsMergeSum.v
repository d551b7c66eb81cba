(** * PropsMergeSum: C110 and C111, merging adds the objectives, in any order and grouping,
    and merging a constraint's model is adding the constraint. *)
From Coq Require Import Permutation.
From Verif Require Import PyBase PyLemmas Numbers Constraint LogicalModel Spec LogicalProofs EnergyProofs ConvertProofs MergeProofs PhysicalProofs ToPhysicalProofs ConstraintProofs Samples Physical History PropsHistory
  ProperProofs ConstrFrame PropsInteractions PropsConvert PropsMerge PropsPhysical PropsAlike Solver SolverSpec PropsSolver Services PropsSolvers PropsPenalty PropsReach PropsTsp PropsDetermined PropsFixing.
Local Open Scope string_scope.
Local Open Scope list_scope.

Lemma dupdate_app {A} (b : dict string A) : forall a, NoDup (dkeys b) -> (forall k, In k (dkeys a) -> ~ In k (dkeys b)) -> dupdate a b = a ++ b.
Proof.
  induction b as [|[k v] b IH]; intros a N D; [symmetry; apply app_nil_r|]. inversion N as [|? ? N1 N2]; subst.
  assert (FR : ~ In k (dkeys a)) by (intros C; apply (D k C); left; reflexivity).
  change (dupdate a ((k, v) :: b)) with (dupdate (dset k v a) b). rewrite dset_keys_new by auto. rewrite IH; auto.
  - rewrite <- app_assoc. reflexivity.
  - intros j HJ C. unfold dkeys in HJ. rewrite map_app, in_app_iff in HJ. destruct HJ as [HJ|[<-|[]]]; [|contradiction]. apply (D j HJ). right. exact C.
Qed.

(** What merge makes of the constraints and the alignment. *)
Lemma merged ev evo k m o m' o' : reachable o -> merge ev evo k m o = (m', o', Ok tt) ->
  m_constrs m' = m_constrs m ++ m_constrs o.
Proof.
  intros RO E. destruct (fc_merge _ _ _ _ _ _ _ _ E) as [FO ->]. apply merge_inv in E. destruct E as [_ E].
  apply merge_same_ok in E. destruct E as (vs & cols & _ & _ & _ & HD & _). rewrite FO in HD. apply dupdate_app.
  - apply (proj1 (reachable_regular _ RO)).
  - intros l HI HO. assert (X : existsb (fun l => dmem l (m_constrs o)) (dkeys (m_constrs m)) = true).
    { apply existsb_exists. exists l. split; auto. unfold dmem. destruct (dget l (m_constrs o)) eqn:EG; auto. apply dget_none in EG. contradiction. }
    congruence.
Qed.
Lemma penalties_app x a b : penalties x (a ++ b) = (penalties x a + penalties x b)%Qc.
Proof. unfold penalties. rewrite map_app, qsum_app. reflexivity. Qed.
Lemma dvals_app {A} (a b : dict string A) : dvals (a ++ b) = dvals a ++ dvals b.
Proof. apply map_app. Qed.

(** Merging adds the objectives (models of the same type). *)
Theorem C110_objective : forall ev evo k m o m' o' fd a, reachable o -> m_mtype m = m_mtype o ->
  merge ev evo k m o = (m', o', Ok tt) -> resolves fd (m_offset m') ->
  objective fd m' a = (objective fd m a + objective fd o a)%Qc.
Proof.
  intros ev evo k m o m' o' fd a RO HT E HR. pose proof (merged _ _ _ _ _ _ _ RO E) as HC.
  apply merge_inv in E. destruct E as [[[_ ->]|[X _]] E]; [|contradiction].
  assert (HM : m_mtype m' = m_mtype m /\ resolves fd (m_offset m) /\ resolves fd (m_offset o)).
  { destruct (merge_same_ok _ _ _ _ _ _ E) as (vs & cols & _ & _ & _ & _ & EM). rewrite EM in HR |- *. cbn [m_offset m_mtype] in *. split; auto. apply resolves_cadd, HR. }
  destruct HM as (T & R1 & R2). unfold objective. rewrite T, HC, dvals_app, penalties_app, <- HT.
  rewrite (merge_same_energy _ _ _ _ _ _ fd a E R1 R2). ring.
Qed.

(** The energy of the physical model: the objective and a constant of the constraints. *)
Definition shift (m : lmodel) : Qc := match m_mtype m with Ising => qsum (map ising_shift (dvals (m_constrs m))) | Qubo => 0%Qc end.
Lemma physical_value ev evs fd m m' p a : m_len m = length (m_rows m) -> Forall constr_ok (dvals (m_constrs m)) -> to_physical ev evs fd m = (m', Ok p) ->
  lawful (m_mtype m) a -> energy_physical a p = (objective fd m a + shift m)%Qc.
Proof.
  intros HL HC E LA. unfold objective, shift. destruct (m_mtype m) eqn:ET.
  - rewrite (C09_ising _ _ _ _ _ _ a HL ET HC E LA). reflexivity.
  - rewrite (C09_qubo _ _ _ _ _ _ a HL ET HC E LA). ring.
Qed.
Lemma merged_facts ev evo k m o m' o' : reachable m -> reachable o -> aligned m -> aligned o -> m_mtype m = m_mtype o ->
  Forall constr_ok (dvals (m_constrs m)) -> Forall constr_ok (dvals (m_constrs o)) -> merge ev evo k m o = (m', o', Ok tt) ->
  reachable m' /\ aligned m' /\ Forall constr_ok (dvals (m_constrs m')) /\ m_mtype m' = m_mtype m /\ shift m' = (shift m + shift o)%Qc.
Proof.
  intros RM RO AM AO HT CM CO E. pose proof (merged _ _ _ _ _ _ _ RO E) as HC.
  split; [replace m' with (fst (fst (merge ev evo k m o))) by (rewrite E; reflexivity); constructor; auto|].
  split; [exact (proj1 (al_merge _ _ _ _ _ _ _ _ E AM AO))|]. split; [rewrite HC, dvals_app; apply Forall_app; auto|].
  assert (T : m_mtype m' = m_mtype m).
  { apply merge_inv in E. destruct E as [_ E]. destruct (merge_same_ok _ _ _ _ _ _ E) as (vs & cols & _ & _ & _ & _ & ->). reflexivity. }
  split; auto. unfold shift. rewrite T, <- HT. destruct (m_mtype m); [|ring]. rewrite HC, dvals_app, map_app, qsum_app. reflexivity.
Qed.
Lemma physical_resolved ev evs fd m m' p : m_len m = length (m_rows m) -> to_physical ev evs fd m = (m', Ok p) -> resolved fd m.
Proof. intros HL E. destruct (to_physical_ok _ _ _ _ _ _ HL E) as (cms & _ & H & _). exact H. Qed.

(** The physical model of a merged model has the sum of the energies of the two physical models. *)
Theorem C110_sum : forall ev evo k m o m' o' fd e1 f1 e2 f2 e3 f3 n1 n2 n3 pm po p, reachable m -> reachable o -> aligned m -> aligned o -> m_mtype m = m_mtype o ->
  Forall constr_ok (dvals (m_constrs m)) -> Forall constr_ok (dvals (m_constrs o)) -> merge ev evo k m o = (m', o', Ok tt) ->
  to_physical e1 f1 fd m = (n1, Ok pm) -> to_physical e2 f2 fd o = (n2, Ok po) -> to_physical e3 f3 fd m' = (n3, Ok p) ->
  forall a, lawful (m_mtype m) a -> energy_physical a p = (energy_physical a pm + energy_physical a po)%Qc.
Proof.
  intros ev evo k m o m' o' fd e1 f1 e2 f2 e3 f3 n1 n2 n3 pm po p RM RO AM AO HT CM CO E P1 P2 P3 a LA.
  destruct (merged_facts _ _ _ _ _ _ _ RM RO AM AO HT CM CO E) as (R & A & C & T & S).
  rewrite (physical_value _ _ _ _ _ _ a (proj1 A) C P3), (physical_value _ _ _ _ _ _ a (proj1 AM) CM P1), (physical_value _ _ _ _ _ _ a (proj1 AO) CO P2) by congruence.
  rewrite (C110_objective _ _ _ _ _ _ _ fd a RO HT E (proj2 (physical_resolved _ _ _ _ _ _ (proj1 A) P3))), S. ring.
Qed.

(** m.merge(o) and o.merge(m) have the same physical coefficients and offset. *)
Theorem C110_commutes : forall ev evo k ev' evo' k' m o m1 o1 m2 o2 fd e1 f1 e2 f2 n1 n2 p q, reachable m -> reachable o -> aligned m -> aligned o -> m_mtype m = m_mtype o ->
  Forall constr_ok (dvals (m_constrs m)) -> Forall constr_ok (dvals (m_constrs o)) ->
  merge ev evo k m o = (m1, o1, Ok tt) -> merge ev' evo' k' o m = (m2, o2, Ok tt) ->
  to_physical e1 f1 fd m1 = (n1, Ok p) -> to_physical e2 f2 fd m2 = (n2, Ok q) -> same_coefficients p q /\ p_offset p = p_offset q.
Proof.
  intros ev evo k ev' evo' k' m o m1 o1 m2 o2 fd e1 f1 e2 f2 n1 n2 p q RM RO AM AO HT CM CO E E' P1 P2.
  destruct (merged_facts _ _ _ _ _ _ _ RM RO AM AO HT CM CO E) as (R & A & C & T & S).
  destruct (merged_facts _ _ _ _ _ _ _ RO RM AO AM (eq_sym HT) CO CM E') as (R' & A' & C' & T' & S').
  destruct (C105_coefficients _ _ _ _ _ _ _ _ _ _ _ _ 0%Qc R (proj1 A) P1 R' (proj1 A') P2) as [H1 H2]; [congruence| |split; auto; rewrite H2; ring].
  intros a LA. rewrite (physical_value _ _ _ _ _ _ a (proj1 A) C P1 LA), (physical_value _ _ _ _ _ _ a (proj1 A') C' P2) by (rewrite T', <- HT, <- T; exact LA).
  rewrite (C110_objective _ _ _ _ _ _ _ fd a RO HT E (proj2 (physical_resolved _ _ _ _ _ _ (proj1 A) P1))).
  rewrite (C110_objective _ _ _ _ _ _ _ fd a RM (eq_sym HT) E' (proj2 (physical_resolved _ _ _ _ _ _ (proj1 A') P2))), S, S'. ring.
Qed.
Lemma merged_resolves ev evo k m o m' o' fd : m_mtype m = m_mtype o -> merge ev evo k m o = (m', o', Ok tt) -> resolves fd (m_offset m') ->
  resolves fd (m_offset m) /\ resolves fd (m_offset o).
Proof.
  intros HT E HR. apply merge_inv in E. destruct E as [[[_ ->]|[X _]] E]; [|contradiction].
  destruct (merge_same_ok _ _ _ _ _ _ E) as (vs & cols & _ & _ & _ & _ & EM). rewrite EM in HR. apply resolves_cadd, HR.
Qed.
(** Merging b and then c into a, or b with c merged into it, is the same to the solvers. *)
Theorem C110_associates : forall e1 v1 k1 e2 v2 k2 e3 v3 k3 e4 v4 k4 a b c ab b1 abc c1 bc c2 abc' bc1 fd e f e' f' n1 n2 p q,
  reachable a -> reachable b -> reachable c -> aligned a -> aligned b -> aligned c -> m_mtype a = m_mtype b -> m_mtype b = m_mtype c ->
  Forall constr_ok (dvals (m_constrs a)) -> Forall constr_ok (dvals (m_constrs b)) -> Forall constr_ok (dvals (m_constrs c)) ->
  merge e1 v1 k1 a b = (ab, b1, Ok tt) -> merge e2 v2 k2 ab c = (abc, c1, Ok tt) ->
  merge e3 v3 k3 b c = (bc, c2, Ok tt) -> merge e4 v4 k4 a bc = (abc', bc1, Ok tt) ->
  to_physical e f fd abc = (n1, Ok p) -> to_physical e' f' fd abc' = (n2, Ok q) -> same_coefficients p q /\ p_offset p = p_offset q.
Proof.
  intros e1 v1 k1 e2 v2 k2 e3 v3 k3 e4 v4 k4 a b c ab b1 abc c1 bc c2 abc' bc1 fd e f e' f' n1 n2 p q RA RB RC AA AB AC T1 T2 CA CB CC E1 E2 E3 E4 P1 P2.
  destruct (merged_facts _ _ _ _ _ _ _ RA RB AA AB T1 CA CB E1) as (R1 & A1 & D1 & U1 & S1).
  destruct (merged_facts _ _ _ _ _ _ _ R1 RC A1 AC (eq_trans U1 (eq_trans T1 T2)) D1 CC E2) as (R2 & A2 & D2 & U2 & S2).
  destruct (merged_facts _ _ _ _ _ _ _ RB RC AB AC T2 CB CC E3) as (R3 & A3 & D3 & U3 & S3).
  destruct (merged_facts _ _ _ _ _ _ _ RA R3 AA A3 (eq_trans T1 (eq_sym U3)) CA D3 E4) as (R4 & A4 & D4 & U4 & S4).
  destruct (C105_coefficients _ _ _ _ _ _ _ _ _ _ _ _ 0%Qc R2 (proj1 A2) P1 R4 (proj1 A4) P2) as [H1 H2]; [congruence| |split; auto; rewrite H2; ring].
  intros s LA. rewrite (physical_value _ _ _ _ _ _ s (proj1 A2) D2 P1 LA), (physical_value _ _ _ _ _ _ s (proj1 A4) D4 P2) by (rewrite U4, <- U1, <- U2; exact LA).
  pose proof (proj2 (physical_resolved _ _ _ _ _ _ (proj1 A2) P1)) as O1. pose proof (proj2 (physical_resolved _ _ _ _ _ _ (proj1 A4) P2)) as O2.
  assert (Tabc : m_mtype ab = m_mtype c) by congruence. assert (Tabc' : m_mtype a = m_mtype bc) by congruence.
  rewrite (C110_objective _ _ _ _ _ _ _ fd s RC Tabc E2 O1), (C110_objective _ _ _ _ _ _ _ fd s R3 Tabc' E4 O2).
  rewrite (C110_objective _ _ _ _ _ _ _ fd s RB T1 E1 (proj1 (merged_resolves _ _ _ _ _ _ _ _ Tabc E2 O1))).
  rewrite (C110_objective _ _ _ _ _ _ _ fd s RC T2 E3 (proj2 (merged_resolves _ _ _ _ _ _ _ _ Tabc' E4 O2))).
  rewrite S2, S1, S4, S3. ring.
Qed.

(** Models of different types: whichever is merged into the other, the objectives differ
    by a constant at corresponding assignments (all scales of both are 1). *)
Theorem C110_either_type : forall ev evo k ev' evo' k' m o m1 o1 m2 o2 fd, reachable m -> reachable o -> well_formed m -> well_formed o -> unit_scales m -> unit_scales o ->
  resolves fd (m_offset m) -> resolves fd (m_offset o) -> m_mtype m = Ising -> m_mtype o = Qubo ->
  merge ev evo k m o = (m1, o1, Ok tt) -> merge ev' evo' k' o m = (m2, o2, Ok tt) ->
  m_mtype m1 = Ising /\ m_mtype m2 = Qubo /\ exists c, forall s, objective fd m1 s = (objective fd m2 (to_binary s) + c)%Qc.
Proof.
  intros ev evo k ev' evo' k' m o m1 o1 m2 o2 fd RM RO WM WO UM UO OM OO TM TO E E'.
  assert (N1 : m_mtype m <> m_mtype o) by congruence. assert (N2 : m_mtype o <> m_mtype m) by congruence.
  destruct (C22_merge_energy_other_type _ _ _ _ _ _ _ fd WO UO OM OO N1 E) as [c1 H1].
  destruct (C22_merge_energy_other_type _ _ _ _ _ _ _ fd WM UM OO OM N2 E') as [c2 H2].
  destruct (C22_merge_energy _ _ _ _ _ _ _ fd WO OM OO E) as (_ & T1 & _). destruct (C22_merge_energy _ _ _ _ _ _ _ fd WM OO OM E') as (_ & T2 & _).
  rewrite TM in T1, H1. rewrite TO in T2, H2. split; auto. split; auto. exists (c1 - c2)%Qc. intros s. unfold objective. rewrite T1, T2, H1, H2. cbn [mtype_eqb].
  rewrite (merged _ _ _ _ _ _ _ RO E), (merged _ _ _ _ _ _ _ RM E'), !dvals_app, !penalties_app.
  rewrite (energy_ext fd (to_spin (to_binary s)) s). { ring. }
  intros l. unfold to_spin, to_binary. field. discriminate.
Qed.

(** If one order is accepted, so is the other. *)
Theorem C110_both_accepted : forall ev evo k ev' evo' k' m o m1 o1, reachable m -> reachable o -> aligned m -> aligned o -> m_mtype m = m_mtype o ->
  (forall n a, dget n (m_vars m) = Some a -> regular n a) -> (forall n a, dget n (m_vars o) = Some a -> regular n a) ->
  merge ev evo k m o = (m1, o1, Ok tt) -> exists m2, merge ev' evo' k' o m = (m2, m, Ok tt).
Proof.
  intros ev evo k ev' evo' k' m o m1 o1 RM RO AM AO HT GM GO E.
  assert (NM : NoDup (dkeys (m_vars m))) by (apply (proj1 (reachable_regular _ RM))). assert (NO : NoDup (dkeys (m_vars o))) by (apply (proj1 (reachable_regular _ RO))).
  assert (DJ : forall l, In l (dkeys (m_constrs m)) -> ~ In l (dkeys (m_constrs o))).
  { intros l HM HO. apply merge_inv in E. destruct E as [[[_ ->]|[X _]] E]; [|contradiction]. destruct (merge_same_ok _ _ _ _ _ _ E) as (vs & cols & _ & _ & _ & HD & _).
    assert (X : existsb (fun l => dmem l (m_constrs o)) (dkeys (m_constrs m)) = true); [|congruence].
    apply existsb_exists. exists l. split; auto. unfold dmem. destruct (dget l (m_constrs o)) eqn:EG; auto. apply dget_none in EG. contradiction. }
  destruct (C23_succeeds_iff ev evo k m o HT AM AO NM NO) as [[SD _]|[_ E']]; auto; [|congruence].
  destruct (C23_succeeds_iff ev' evo' k' o m (eq_sym HT) AO AM NO NM) as [[_ H]|[ND _]]; auto.
  - intros l H1 H2. apply (DJ l H2 H1).
  - exfalso. apply ND. intros n a b HA HB. symmetry. apply (SD n b a); [apply in_dget; auto|apply dget_in; auto].
Qed.

(** ** C111: a constraint, or its model merged by hand *)
Definition reach_keeps {A} (f : LM A) : Prop := forall m m' r, f m = (m', r) -> reachable m -> reachable m'.
Lemma rk_ret {A} (a : A) : reach_keeps (ret a). Proof. intros m m' r E. inversion E; subst; auto. Qed.
Lemma rk_bind {A B} (f : LM A) (g : A -> LM B) : reach_keeps f -> (forall a, reach_keeps (g a)) -> reach_keeps (bind f g).
Proof.
  intros HF HG m m' r E HM. unfold bind in E. destruct (f m) as [m1 [a|e]] eqn:E1.
  - exact (HG _ _ _ _ E (HF _ _ _ E1 HM)).
  - inversion E; subst. eapply HF; eauto.
Qed.
Lemma rk_mfor {A} (l : list A) (f : A -> LM unit) : (forall a, reach_keeps (f a)) -> reach_keeps (mfor l f).
Proof. intros H. induction l as [|a l IH]; cbn [mfor]; [apply rk_ret|]. apply rk_bind; auto. Qed.
Lemma rk_add ev t n c sc a ts : reach_keeps (add_interaction ev t n c sc a ts).
Proof.
  intros m m' r E HM. replace m' with (fst (do_op ev (fun _ => ev) (OAdd t n c sc a ts) m)) by (cbn [do_op]; rewrite E; reflexivity). constructor. exact HM.
Qed.
Lemma to_model_reachable ev c m r : to_model ev c = (m, r) -> reachable m.
Proof.
  assert (HK : forall f : LM unit, reach_keeps f -> f (new_model Qubo) = (m, r) -> reachable m) by (intros f HF E; eapply HF; eauto; constructor).
  assert (H3 : forall l q vs v, reach_keeps (cadd_pairs_of ev l q vs v)).
  { intros. apply rk_mfor. intros w. destruct (String.ltb _ _); [apply rk_add|apply rk_ret]. }
  destruct c; unfold to_model; apply HK.
  - apply rk_mfor. intros. apply rk_bind; [apply rk_add|]; auto.
  - apply rk_mfor. intros. auto.
  - apply rk_bind; [apply rk_mfor; intros; apply rk_add|]. intros _. apply rk_bind; [apply rk_mfor; auto|]. intros _.
    apply rk_bind; [apply rk_mfor; auto|]. intros _. apply rk_mfor. intros. apply rk_mfor. intros; apply rk_add.
Qed.
Lemma to_model_constrs ev c m r : to_model ev c = (m, r) -> m_constrs m = [].
Proof. intros E. exact (fc_to_model _ _ _ _ E). Qed.

(** What merging a constraint's model by hand adds to the energy. *)
Lemma by_hand_energy ec ev evo k c cm m m2 cm' fd a : constr_ok c -> to_model ec c = (cm, Ok tt) -> merge ev evo k m cm = (m2, cm', Ok tt) ->
  resolves fd (m_offset m) -> lawful (m_mtype m) a ->
  m_constrs m2 = m_constrs m /\ m_mtype m2 = m_mtype m /\
  energy fd a m2 = (energy fd a m + (penalty (as_binary (m_mtype m) a) c + match m_mtype m with Ising => ising_shift c | Qubo => 0 end))%Qc.
Proof.
  intros HC EC E HR LA. pose proof (to_model_built _ _ _ _ EC) as B. pose proof (built_plain _ B) as PL.
  pose proof (merged _ _ _ _ _ _ _ (to_model_reachable _ _ _ _ EC) E) as CC. rewrite (to_model_constrs _ _ _ _ EC), app_nil_r in CC. split; auto.
  assert (HO : resolves fd (m_offset cm)) by apply PL. assert (HW : well_formed cm) by apply PL.
  destruct (C22_merge_energy _ _ _ _ _ _ _ fd HW HR HO E) as (HT & T & _ & HE). split; auto. rewrite HE. f_equal.
  assert (TQ : m_mtype cm = Qubo) by apply PL.
  destruct (m_mtype m) eqn:ET; cbn [as_binary].
  - destruct HT as [[X _]|[_ CV]]; [congruence|]. unfold convert_mtype, bind, get in CV. rewrite TQ in CV.
    rewrite (to_ising_energy _ _ _ _ fd a CV); try apply PL.
    rewrite (to_model_energy _ _ _ _ fd (to_binary a) EC HC (PhysicalProofs.spin_to_binary a LA)). f_equal. eapply to_model_shift; eauto.
  - destruct HT as [[_ ->]|[X _]]; [|congruence]. rewrite (to_model_energy _ _ _ _ fd a EC HC LA). ring.
Qed.

(** Adding a constraint, or merging the model its to_model returns, gives the solvers the
    same coefficients and offset. *)
Theorem C111_same : forall ec ev evo k c cm cm' m m1 m2 fd e f e' f' n1 n2 p q, reachable m -> aligned m -> Forall constr_ok (dvals (m_constrs m)) -> constr_ok c ->
  ~ In (c_label c) (dkeys (m_constrs m)) ->
  add_constraint (Some c) m = (m1, Ok tt) -> to_model ec c = (cm, Ok tt) -> merge ev evo k m cm = (m2, cm', Ok tt) ->
  to_physical e f fd m1 = (n1, Ok p) -> to_physical e' f' fd m2 = (n2, Ok q) -> same_coefficients p q /\ p_offset p = p_offset q.
Proof.
  intros ec ev evo k c cm cm' m m1 m2 fd e f e' f' n1 n2 p q RM AM CM CC NI E1 EC E2 P1 P2.
  assert (C1 : m_constrs m1 = m_constrs m ++ [(c_label c, c)]) by (inversion E1; subst; cbn [m_constrs with_constrs]; apply dset_keys_new; auto).
  assert (R1 : reachable m1) by (replace m1 with (fst (do_op ev (fun _ => ev) (OAddConstraint (Some c)) m)) by (cbn [do_op]; rewrite E1; reflexivity); constructor; auto).
  assert (A1 : aligned m1) by (inversion E1; subst; exact AM).
  assert (K1 : Forall constr_ok (dvals (m_constrs m1))) by (rewrite C1, dvals_app; apply Forall_app; split; [auto|constructor; auto]).
  assert (T1 : m_mtype m1 = m_mtype m /\ m_offset m1 = m_offset m /\ forall a, energy fd a m1 = energy fd a m) by (inversion E1; subst; auto). destruct T1 as (T1 & O1 & N1).
  assert (R2 : reachable m2) by (replace m2 with (fst (fst (merge ev evo k m cm))) by (rewrite E2; reflexivity); constructor; auto; eapply to_model_reachable; eauto).
  assert (A2 : aligned m2) by (exact (proj1 (al_merge _ _ _ _ _ _ _ _ E2 AM (al_to_model _ _ _ _ EC)))).
  assert (HO : resolves fd (m_offset m)) by (rewrite <- O1; exact (proj2 (physical_resolved _ _ _ _ _ _ (proj1 A1) P1))).
  assert (BH := fun a => by_hand_energy ec ev evo k c cm m m2 cm' fd a CC EC E2 HO).
  destruct (BH (fun _ => 1%Qc)) as (C2 & T2 & _). { destruct (m_mtype m); intros l; auto. }
  assert (K2 : Forall constr_ok (dvals (m_constrs m2))) by (rewrite C2; auto).
  destruct (C105_coefficients _ _ _ _ _ _ _ _ _ _ _ _ 0%Qc R1 (proj1 A1) P1 R2 (proj1 A2) P2) as [H1 H2]; [congruence| |split; auto; rewrite H2; ring].
  intros a LA. rewrite (physical_value _ _ _ _ _ _ a (proj1 A1) K1 P1 LA), (physical_value _ _ _ _ _ _ a (proj1 A2) K2 P2) by (rewrite T2, <- T1; exact LA).
  rewrite T1 in LA. destruct (BH a LA) as (_ & _ & EN). unfold objective, shift. rewrite T1, T2, C1, C2, N1, EN, dvals_app, penalties_app. fold (as_binary (m_mtype m) a).
  destruct (m_mtype m); cbn [as_binary]; [rewrite map_app, qsum_app|]; unfold penalties; cbn; ring.
Qed.
(** Doing both counts the penalty twice. *)
Theorem C111_both : forall ec ev evo k c cm cm' m m1 m2 fd, reachable m -> constr_ok c -> ~ In (c_label c) (dkeys (m_constrs m)) -> resolves fd (m_offset m) ->
  add_constraint (Some c) m = (m1, Ok tt) -> to_model ec c = (cm, Ok tt) -> merge ev evo k m1 cm = (m2, cm', Ok tt) ->
  exists d, forall a, lawful (m_mtype m) a -> objective fd m2 a = (objective fd m a + qz 2 * penalty (as_binary (m_mtype m) a) c + d)%Qc.
Proof.
  intros ec ev evo k c cm cm' m m1 m2 fd RM CC NI HO E1 EC E2.
  assert (C1 : m_constrs m1 = m_constrs m ++ [(c_label c, c)]) by (inversion E1; subst; cbn [m_constrs with_constrs]; apply dset_keys_new; auto).
  assert (T1 : m_mtype m1 = m_mtype m /\ m_offset m1 = m_offset m /\ forall a, energy fd a m1 = energy fd a m) by (inversion E1; subst; auto). destruct T1 as (T1 & O1 & N1).
  exists (match m_mtype m with Ising => ising_shift c | Qubo => 0%Qc end). intros a LA.
  destruct (by_hand_energy ec ev evo k c cm m1 m2 cm' fd a CC EC E2) as (C2 & T2 & EN); [congruence|congruence|].
  unfold objective. rewrite T2, C2, C1, EN, T1, N1, dvals_app, penalties_app. fold (as_binary (m_mtype m) a). unfold penalties at 2. cbn [dvals map snd qsum].
  replace (qz 2) with (1 + 1)%Qc by (apply Qc_is_canon; reflexivity). ring.
Qed.

(** ** Examples *)
Definition sum_a : lmodel := run_ops
  [OVariables (VName "x") (ShTuple [ShInt 3]); OAdd (TVar (spn "x" 0)) (NStr "") (num 3) (num 1) AtNone TsNone;
   OAddConstraint (Some (NHot [spn "x" 0; spn "x" 1] 1 "one" (qz 2)))] (new_model Ising).
Definition sum_b : lmodel := run_ops
  [OVariables (VName "x") (ShTuple [ShInt 4]); OAdd (TVar (spn "x" 0)) (NStr "") (num 5) (num 1) AtNone TsNone; OAdd (PropsInteractions.pair (spn "x" 0) (spn "x" 3)) (NStr "") (num 1) (num 1) AtNone TsNone] (new_model Ising).
Definition sum_c : lmodel := run_ops
  [OVariables (VName "y") (ShTuple [ShInt 2]); OAdd (TVar (spn "y" 0)) (NStr "") (num 7) (num 1) AtNone TsNone;
   OAddConstraint (Some (ZeroOrOne [spn "y" 0; spn "y" 1] "zo" (qz 4)))] (new_model Ising).
Definition sum_q : lmodel := run_ops
  [OVariables (VName "y") (ShTuple [ShInt 2]); OAdd (TVar (bin "y" 0)) (NStr "") (num 7) (num 1) AtNone TsNone;
   OAddConstraint (Some (ZeroOrOne [bin "y" 0; bin "y" 1] "zo" (qz 4)))] (new_model Qubo).
Definition sum_ab : lmodel := fst (fst (merge env0 env0 0 sum_a sum_b)).
Definition sum_bc : lmodel := fst (fst (merge env0 env0 0 sum_b sum_c)).
Example C110_hyps : (forall m, In m [sum_a; sum_b; sum_c; sum_q] -> reachable m /\ aligned m /\ well_formed m /\ unit_scales m /\ resolved [] m /\ Forall constr_ok (dvals (m_constrs m))) /\
  m_mtype sum_a = Ising /\ m_mtype sum_b = Ising /\ m_mtype sum_c = Ising /\ m_mtype sum_q = Qubo /\
  exists ab ba bc abc abc' m1 o1 m2 o2, merge env0 env0 0 sum_a sum_b = (ab, sum_b, Ok tt) /\ merge env0 env0 0 sum_b sum_a = (ba, sum_a, Ok tt) /\
   merge env0 env0 0 ab sum_c = (abc, sum_c, Ok tt) /\ merge env0 env0 0 sum_b sum_c = (bc, sum_c, Ok tt) /\ merge env0 env0 0 sum_a bc = (abc', bc, Ok tt) /\
   merge env0 env0 0 sum_a sum_q = (m1, o1, Ok tt) /\ merge env0 env0 0 sum_q sum_a = (m2, o2, Ok tt) /\
   okb (to_physical env0 evs0 [] ab) = true /\ okb (to_physical env0 evs0 [] ba) = true /\ okb (to_physical env0 evs0 [] abc) = true /\ okb (to_physical env0 evs0 [] abc') = true /\
   okb (to_physical env0 evs0 [] sum_a) = true /\ okb (to_physical env0 evs0 [] sum_b) = true.
Proof.
  split; [|do 4 (split; [reflexivity|])].
  - assert (HB : forall m, alignedb m = true -> wfb m = true -> resolvedb [] m = true -> history m -> aligned m /\ well_formed m /\ resolved [] m /\ reachable m).
    { intros m H1 H2 H3 H4. split; [apply alignedb_ok; auto|]. split; [apply wfb_ok; auto|]. split; [apply resolvedb_ok; auto|]. apply PropsReach.history_reachable; auto. }
    intros m HI. simpl in HI. destruct HI as [<-|[<-|[<-|[<-|[]]]]];
      (match goal with |- reachable ?m /\ _ => destruct (HB m) as (H1 & H2 & H3 & H4); [vm_compute; reflexivity|vm_compute; reflexivity|vm_compute; reflexivity|apply run_history; constructor|] end; split; auto; split; auto; split; auto; split;
       [intros r HI _; simpl in HI; repeat (destruct HI as [<-|HI]; [apply (f_equal CNum), Qc_is_canon; reflexivity|]); destruct HI|split; auto]).
    all: try (constructor; [|constructor]). all: try (apply nodupb_ok; vm_compute; reflexivity). all: try constructor.
    all: apply nodupb_ok; vm_compute; reflexivity.
  - exists sum_ab, (fst (fst (merge env0 env0 0 sum_b sum_a))), sum_bc, (fst (fst (merge env0 env0 0 sum_ab sum_c))), (fst (fst (merge env0 env0 0 sum_a sum_bc))),
      (fst (fst (merge env0 env0 0 sum_a sum_q))), (snd (fst (merge env0 env0 0 sum_a sum_q))), (fst (fst (merge env0 env0 0 sum_q sum_a))), (snd (fst (merge env0 env0 0 sum_q sum_a))).
    do 12 (split; [vm_compute; reflexivity|]). vm_compute. reflexivity.
Qed.

(** One-hot constraints on a QUBO and an Ising model. *)
Definition hand_c (t : mtype) : constr := match t with Ising => NHot [spn "x" 0; spn "x" 1; spn "x" 2] 1 "hand" (qz 3) | Qubo => Equality [bin "y" 0] [bin "y" 1] "hand" (qz 3) end.
Definition hand_m (t : mtype) : lmodel := match t with Ising => sum_a | Qubo => sum_q end.
Example C111_hyps : forall t, constr_ok (hand_c t) /\ ~ In (c_label (hand_c t)) (dkeys (m_constrs (hand_m t))) /\ m_mtype (hand_m t) = t /\ reachable (hand_m t) /\ aligned (hand_m t) /\
  Forall constr_ok (dvals (m_constrs (hand_m t))) /\
  exists m1 cm m2 cm' n1 n2 p q m3 cm2, add_constraint (Some (hand_c t)) (hand_m t) = (m1, Ok tt) /\ to_model env0 (hand_c t) = (cm, Ok tt) /\ merge env0 env0 0 (hand_m t) cm = (m2, cm', Ok tt) /\
  to_physical env0 evs0 [] m1 = (n1, Ok p) /\ to_physical env0 evs0 [] m2 = (n2, Ok q) /\ merge env0 env0 0 m1 cm = (m3, cm2, Ok tt).
Proof.
  assert (HX := proj1 C110_hyps). intros t.
  split. { destruct t; [apply nodupb_ok; vm_compute; reflexivity|split; apply nodupb_ok; vm_compute; reflexivity]. }
  split. { destruct t; cbn; intuition discriminate. }
  split; [destruct t; reflexivity|].
  assert (HM : In (hand_m t) [sum_a; sum_b; sum_c; sum_q]) by (destruct t; simpl; auto). destruct (HX _ HM) as (H1 & H2 & _ & _ & _ & H3). do 3 (split; [auto|]).
  set (cm := fst (to_model env0 (hand_c t))). set (m1 := fst (add_constraint (Some (hand_c t)) (hand_m t))). set (x := merge env0 env0 0 (hand_m t) cm). set (y := merge env0 env0 0 m1 cm).
  destruct (ok_parts (to_physical env0 evs0 [] m1)) as [p EP]; [destruct t; vm_compute; reflexivity|].
  destruct (ok_parts (to_physical env0 evs0 [] (fst (fst x)))) as [q EQ]; [destruct t; vm_compute; reflexivity|].
  exists m1, cm, (fst (fst x)), (snd (fst x)). eexists. eexists. exists p, q, (fst (fst y)), (snd (fst y)).
  split; [reflexivity|]. split; [destruct t; vm_compute; reflexivity|]. split; [destruct t; vm_compute; reflexivity|]. split; [exact EP|]. split; [exact EQ|]. destruct t; vm_compute; reflexivity.
Qed.
Print Assumptions C110_objective.
Print Assumptions C110_sum.
Print Assumptions C110_commutes.
Print Assumptions C110_associates.
Print Assumptions C110_either_type.
Print Assumptions C110_both_accepted.
Print Assumptions C111_same.
Print Assumptions C111_both.
