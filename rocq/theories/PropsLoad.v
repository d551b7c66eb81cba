(** * PropsLoad: C153 - the loads from_pyqubo refuses, and what they leave behind. *)
From Verif Require Import PyBase PyLemmas Numbers Constraint LogicalModel Spec LogicalProofs EnergyProofs InteractionProofs Samples
  PropsInteractions PropsState PropsDeclare PropsPyqubo PropsErrors.
Local Open Scope string_scope.
Local Open Scope list_scope.

(** ** Specification *)

(** The label belongs to no declared array; it belongs to one, but its index is outside the shape. *)
Definition undeclared (m : lmodel) (pq : pqmodel) (l : string) : Prop :=
  forall n idx a, dget l (pq_struct pq) = Some (n, idx) -> dget n (m_vars m) <> Some a.
Definition outside (m : lmodel) (pq : pqmodel) (l : string) : Prop :=
  exists n idx a, dget l (pq_struct pq) = Some (n, idx) /\ dget n (m_vars m) = Some a /\ ~ inside idx (a_shape a).
(** The labels are used with as many indices as their arrays have dimensions (the
    model of from_pyqubo simplifies the other case). *)
Definition fully_indexed (m : lmodel) (pq : pqmodel) : Prop :=
  forall l n idx a, dget l (pq_struct pq) = Some (n, idx) -> dget n (m_vars m) = Some a -> length idx = length (a_shape a).

(** What can be wrong with one term, when the interactions of the model are called [used]. *)
Definition term_problems (m : lmodel) (pq : pqmodel) (used : list string) (k : string * string) : list (Prop * exn) :=
  [ (undeclared m pq (fst k), KeyError);
    (outside m pq (fst k), IndexError);
    (undeclared m pq (snd k), KeyError);
    (outside m pq (snd k), IndexError);
    (In (term_name k) used, ValueError) ].
(** The terms are taken in order; each one taken uses up a name. *)
Inductive load_verdict (m : lmodel) (pq : pqmodel) (used : list string) : list ((string * string) * coef) -> option exn -> Prop :=
| all_loaded : load_verdict m pq used [] None
| load_refused t rest e : verdict (term_problems m pq used (fst t)) (Some e) -> load_verdict m pq used (t :: rest) (Some e)
| load_next t rest o : verdict (term_problems m pq used (fst t)) None ->
    load_verdict m pq (used ++ [term_name (fst t)]) rest o -> load_verdict m pq used (t :: rest) o.

(** What loading does to a coefficient of the argument: placeholder coefficients are negated in place. *)
Definition negated (c : coef) : coef := if is_num c then c else cneg c.

(** ** Proofs *)
Lemma lookup_cases m pq l : own_names m ->
  (undeclared m pq l /\ pq_lookup m pq l = Err KeyError) \/
  (~ undeclared m pq l /\ outside m pq l /\ pq_lookup m pq l = Err IndexError) \/
  (~ undeclared m pq l /\ ~ outside m pq l /\ exists v, pq_lookup m pq l = Ok v).
Proof.
  intros HO. unfold pq_lookup, undeclared, outside. destruct (dget l (pq_struct pq)) as [[n idx]|] eqn:E.
  2:{ left. split; [discriminate|reflexivity]. }
  destruct (dget n (m_vars m)) as [a|] eqn:EA.
  2:{ left. split; [|reflexivity]. intros n' idx' a' H. injection H as <- <-. congruence. }
  right. assert (HU : ~ forall n0 idx0 a0, Some (n, idx) = Some (n0, idx0) -> dget n0 (m_vars m) <> Some a0).
  { intros H. exact (H n idx a eq_refl EA). }
  destruct (HO _ _ EA) as (sh & vt & EC). destruct (create_declares _ _ _ _ EC) as (HS & H1 & H2 & _).
  assert (HD : inside idx sh \/ ~ inside idx sh).
  { destruct (flat_pos (map Z.to_nat sh) idx) eqn:EP; [left; apply inside_nat; eapply flat_pos_inside; eauto|right].
    intros HI. apply inside_nat in HI. destruct (flat_pos_some _ _ HI) as [p Hp]. congruence. }
  destruct HD as [HI|HI].
  - right. split; [exact HU|]. split; [|eexists; apply H1; exact HI].
    intros (n' & idx' & a' & A & B & C). injection A as <- <-. rewrite EA in B. injection B as <-. apply C. rewrite HS. exact HI.
  - left. split; [exact HU|]. split; [|apply H2; exact HI]. exists n, idx, a. rewrite HS. auto.
Qed.
Lemma term_denotes k0 k1 t0 t1 : v_label t0 = k0 -> v_label t1 = k1 ->
  exists i, denotes (if String.eqb k0 k1 then TVar t0 else TTuple [EVar t0; EVar t1]) i (term_name (k0, k1)).
Proof.
  intros L0 L1. unfold term_name. cbn [fst snd]. destruct (String.eqb_spec k0 k1) as [HE|HN].
  - exists (I1 t0). rewrite <- L0. constructor.
  - destruct (String.ltb k0 k1) eqn:EL.
    + exists (I2 t0 t1). rewrite <- L0, <- L1. constructor. rewrite L0, L1; auto.
    + exists (I2 t1 t0). rewrite <- L0, <- L1. constructor. rewrite L0, L1. rewrite (ltb_total k0 k1) in EL; auto.
      apply negb_false_iff; auto.
Qed.
(** One term: refused, with nothing changed, or loaded under its default name. *)
Lemma step_cases ev m pq k c : structured pq -> own_names m -> aligned m ->
  (exists e c', verdict (term_problems m pq (names m) k) (Some e) /\ pq_step ev m pq (k, c) = (m, c', Err e) /\ (c' = c \/ c' = negated c)) \/
  (exists m1, verdict (term_problems m pq (names m) k) None /\ pq_step ev m pq (k, c) = (m1, negated c, Ok tt) /\
     names m1 = names m ++ [term_name k] /\ aligned m1 /\ m_vars m1 = m_vars m /\ m_offset m1 = m_offset m).
Proof.
  intros HS HO HA. destruct k as [k0 k1]. unfold pq_step, term_problems. cbn [fst snd].
  destruct (lookup_cases m pq k0 HO) as [(U0 & E0)|[(U0 & O0 & E0)|(U0 & O0 & t0 & E0)]]; rewrite E0.
  { left. exists KeyError, c. split; [now here|auto]. }
  { left. exists IndexError, c. split; [next; [auto|]; now here|auto]. }
  destruct (lookup_cases m pq k1 HO) as [(U1 & E1)|[(U1 & O1 & E1)|(U1 & O1 & t1 & E1)]]; rewrite E1.
  { left. exists KeyError, c. split; [do 2 (next; [auto|]); now here|auto]. }
  { left. exists IndexError, c. split; [do 3 (next; [auto|]); now here|auto]. }
  pose proof (lookup_label _ _ _ _ HS HO E0) as L0. pose proof (lookup_label _ _ _ _ HS HO E1) as L1.
  destruct (term_denotes k0 k1 t0 t1 L0 L1) as [i HD]. set (tgt := if String.eqb k0 k1 then TVar t0 else TTuple [EVar t0; EVar t1]) in *.
  assert (WF : attrs_wf AtNone) by (intros d H; discriminate).
  destruct (in_dec string_dec (term_name (k0, k1)) (names m)) as [HI|HI].
  - left. destruct (add_split ev tgt (NStr "") (AC (cneg c)) (AC (CNum 1%Qc)) AtNone TsNone m) as [(e' & E' & _)|(c'&s'&q&inf&nm'&d&[A1 A2 A3 A4 A5 A6 A7 A8]&E')].
    + exists e', (negated c). rewrite E'. split; [|auto].
      assert (HE : e' = ValueError); [|subst; do 4 (next; [auto|]); now here].
      assert (HV : verdict (add_problems tgt (NStr "") (AC (cneg c)) (AC (CNum 1%Qc)) AtNone TsNone m) (Some e')).
      { apply (C139_add ev tgt (NStr "") (AC (cneg c)) (AC (CNum 1%Qc)) AtNone TsNone m HA WF). rewrite E'. reflexivity. }
      assert (HV' : verdict (add_problems tgt (NStr "") (AC (cneg c)) (AC (CNum 1%Qc)) AtNone TsNone m) (Some ValueError)).
      { assert (IT : is_target tgt /\ ~ no_target tgt /\ ~ twice tgt).
        { pose proof (proj1 (denotes_info _ _ _) HD) as EI. destruct (info_dec tgt) as [[_ H]|[(_ & _ & H)|(A & B & _)]]; try congruence.
          split; [exact A|]. split; [|exact B]. destruct A as [[v ->]|(x & y & ->)]; intros [H|[H|H]]; discriminate. }
        destruct IT as (IT & NT & TW). next; [exact NT|]. do 4 (next; [discriminate|]). next; [tauto|]. next; [exact TW|].
        next; [intros [H _]; apply H; left; reflexivity|]. here. exists i, (term_name (k0, k1)), (term_name (k0, k1)). split; [exact HD|].
        split; [left; auto|exact HI]. }
      pose proof (verdict_fun _ _ _ HV HV') as H. injection H as ->. reflexivity.
    + exfalso. apply A8. clear - A5 A6 HD HI. apply denotes_info in HD. rewrite HD in A5. injection A5 as <-. cbn in A6. injection A6 as <-. exact HI.
  - right. destruct (proj2 (C03_succeeds_iff ev tgt (NStr "") (AC (cneg c)) (AC (CNum 1%Qc)) AtNone TsNone m HA WF)) as [m1 EA].
    { exists (cneg c), (CNum 1%Qc), i, (term_name (k0, k1)), (term_name (k0, k1)). do 4 (split; [try reflexivity; discriminate|]). split; auto. split; auto. left. auto. }
    exists m1. rewrite EA. split; [do 5 (next; [auto|]); constructor|]. split; [reflexivity|].
    destruct (C03_effect _ _ _ _ _ _ _ _ _ HA WF EA) as (c' & s' & i' & dn & nm & _ & _ & HD' & HN & _ & ER & SR & AL & _).
    assert (EN : nm = term_name (k0, k1)).
    { destruct HN as [[_ ->]|[HN HNE]]; [|inversion HN; congruence]. apply denotes_info in HD, HD'. congruence. }
    split; [unfold names; rewrite ER, map_app, <- EN; reflexivity|]. split; [exact AL|]. destruct SR as (? & HV & ? & HOF & ?). split; congruence.
Qed.

(** The problems of a term depend on the declared arrays and the used names only. *)
Lemma problems_vars m m' pq used k o : m_vars m' = m_vars m -> verdict (term_problems m' pq used k) o -> verdict (term_problems m pq used k) o.
Proof. intros H. unfold term_problems, undeclared, outside. rewrite H. auto. Qed.
Lemma own_vars m m' : m_vars m' = m_vars m -> own_names m -> own_names m'.
Proof. intros H HO n a. rewrite H. apply HO. Qed.

(** The loop: all of it, or a refusal at a term after the terms before it were loaded. *)
Lemma loop_cases ev pq l : forall m, structured pq -> own_names m -> aligned m ->
  exists m' l' r, pq_loop ev m pq l = (m', l', r) /\ load_verdict m pq (names m) l (raised (m', r)) /\
    m_vars m' = m_vars m /\ m_offset m' = m_offset m /\ aligned m' /\
    (forall e, r = Err e -> exists before t after c',
       l = before ++ t :: after /\ pq_loop ev m pq before = (m', map (fun t => (fst t, negated (snd t))) before, Ok tt) /\
       names m' = names m ++ map (fun t => term_name (fst t)) before /\
       l' = map (fun t => (fst t, negated (snd t))) before ++ (fst t, c') :: after /\ (c' = snd t \/ c' = negated (snd t)) /\
       verdict (term_problems m' pq (names m') (fst t)) (Some e)).
Proof.
  induction l as [|[k c] l IH]; intros m HS HO HA.
  - exists m, [], (Ok tt). cbn [pq_loop]. split; [reflexivity|]. split; [constructor|]. do 3 (split; [auto|]). discriminate.
  - cbn [pq_loop]. destruct (step_cases ev m pq k c HS HO HA) as [(e & c' & HV & E & HC)|(m1 & HV & E & HN & HA1 & HV1 & HOF)]; rewrite E.
    + exists m, ((k, c') :: l), (Err e). split; [reflexivity|]. split; [apply load_refused; exact HV|]. do 3 (split; [auto|]).
      intros e0 H. injection H as <-. exists [], (k, c), l, c'. cbn [app map pq_loop fst snd]. rewrite app_nil_r. repeat (split; [auto|]). exact HV.
    + destruct (IH m1 HS (own_vars _ _ HV1 HO) HA1) as (m' & l' & r & EL & HL & H1 & H2 & H3 & H4). rewrite EL.
      exists m', ((k, negated c) :: l'), r. split; [reflexivity|]. split.
      { apply load_next; [exact HV|]. cbn [fst]. rewrite <- HN. clear - HL HV1. revert HL. generalize (names m1) (raised (m', r)). clear r.
        induction l as [|t l IH]; intros u o H; inversion H; subst; [constructor| |].
        - apply load_refused. eapply problems_vars; eauto.
        - apply load_next; [eapply problems_vars; eauto|]. apply IH. auto. }
      split; [congruence|]. split; [congruence|]. split; [exact H3|].
      intros e Er. destruct (H4 e Er) as (before & t & after & c' & -> & EB & HN' & -> & HC & HX).
      exists ((k, c) :: before), t, after, c'. split; [reflexivity|]. cbn [pq_loop app map fst snd]. rewrite E, EB. split; [reflexivity|].
      split; [rewrite HN', HN, <- app_assoc; reflexivity|]. split; [reflexivity|]. split; [exact HC|exact HX].
Qed.
Lemma load_verdict_fun m pq l : forall used o o', load_verdict m pq used l o -> load_verdict m pq used l o' -> o = o'.
Proof.
  induction l as [|t l IH]; intros used o o' H H'; inversion H; inversion H'; subst; auto; try (eapply IH; eauto; fail);
  match goal with A : verdict _ (Some _), B : verdict _ _ |- _ => pose proof (verdict_fun _ _ _ A B); congruence end.
Qed.

(** ** C153 *)

(** Which exception, if any. *)
Theorem C153_verdict : forall ev m pq, structured pq -> own_names m -> aligned m -> fully_indexed m pq -> forall o,
  load_verdict m pq (names m) (pq_terms pq) o <-> raised (fst (fst (from_pyqubo ev m pq)), snd (from_pyqubo ev m pq)) = o.
Proof.
  intros ev m pq HS HO HA _ o. destruct (loop_cases ev pq (pq_terms pq) m HS HO HA) as (m' & l' & r & E & HL & _).
  assert (ER : raised (fst (fst (from_pyqubo ev m pq)), snd (from_pyqubo ev m pq)) = raised (m', r)).
  { unfold from_pyqubo. rewrite E. destruct r as [[]|e]; reflexivity. }
  rewrite ER. split; [intros H; eapply load_verdict_fun; eauto|intros <-; exact HL].
Qed.

(** What a refused load leaves: the interactions of the terms before the refused one,
    the old offset, and an argument with the placeholder coefficients of those terms negated. *)
Theorem C153_left : forall ev m pq m' pq' e, structured pq -> own_names m -> aligned m -> fully_indexed m pq ->
  from_pyqubo ev m pq = (m', pq', Err e) ->
  exists before t after c', pq_terms pq = before ++ t :: after /\
    verdict (term_problems m pq (names m ++ map (fun t => term_name (fst t)) before) (fst t)) (Some e) /\
    (forall fd x, binary x -> energy fd x m' = (energy fd x m + qubo_terms fd x before)%Qc) /\
    m_vars m' = m_vars m /\ m_offset m' = m_offset m /\ aligned m' /\
    names m' = names m ++ map (fun t => term_name (fst t)) before /\
    pq_terms pq' = map (fun t => (fst t, negated (snd t))) before ++ (fst t, c') :: after /\
    (c' = snd t \/ c' = negated (snd t)) /\ pq_struct pq' = pq_struct pq /\ pq_offset pq' = pq_offset pq.
Proof.
  intros ev m pq m' pq' e HS HO HA _ E. unfold from_pyqubo in E.
  destruct (loop_cases ev pq (pq_terms pq) m HS HO HA) as (m1 & l1 & r & EL & _ & HV & HOF & HA1 & HL). rewrite EL in E.
  destruct r as [[]|e']; [discriminate|]. injection E as <- <- <-.
  destruct (HL _ eq_refl) as (before & t & after & c' & HT & EB & HN & HL' & HC & HX). exists before, t, after, c'.
  split; [exact HT|]. split; [rewrite <- HN; eapply problems_vars; eauto|]. split; [|cbn [pq_terms pq_struct pq_offset]; auto 10].
  intros fd x HB. destruct (loop_ok _ _ _ _ _ _ HS HO EB) as (new & HCR & _ & HE). specialize (HE fd x HB).
  rewrite (core_energy fd x _ _ HCR). rewrite !energy_csum. cbn [with_rows m_rows m_offset]. rewrite csum_app, HE. ring.
Qed.

(** A load that was refused after its first term cannot be repeated: whatever is
    declared in between, the second call is refused at the first term because its
    interaction is there already, and nothing changes any more. *)
Theorem C153_retry : forall ev m pq m' pq' e, structured pq -> own_names m -> aligned m -> fully_indexed m pq ->
  from_pyqubo ev m pq = (m', pq', Err e) -> names m' <> names m ->
  forall ev' m'', own_names m'' -> aligned m'' -> fully_indexed m'' pq ->
    (forall n a, dget n (m_vars m') = Some a -> dget n (m_vars m'') = Some a) -> incl (names m') (names m'') ->
    exists pq'', from_pyqubo ev' m'' pq' = (m'', pq'', Err ValueError).
Proof.
  intros ev m pq m' pq' e HS HO HA HF E HNE ev' m'' HO2 HA2 _ HV2 HI.
  destruct (C153_left _ _ _ _ _ _ HS HO HA HF E) as (before & t & after & c' & HT & _ & _ & HV & _ & _ & HN & HT' & _ & HS' & _).
  destruct before as [|[k c] before]; [cbn [map] in HN; rewrite app_nil_r in HN; contradiction|]. cbn [map app fst snd] in *.
  assert (HP : verdict (term_problems m pq (names m) k) None).
  { destruct (loop_cases ev pq (pq_terms pq) m HS HO HA) as (m1 & l1 & r & EL & _ & _ & _ & _ & HL). unfold from_pyqubo in E. rewrite EL in E.
    destruct r as [[]|e']; [discriminate|]. rewrite HT in EL. cbn [pq_loop] in EL.
    destruct (step_cases ev m pq k c HS HO HA) as [(e0 & c0 & HV0 & E0 & _)|(m2 & HV0 & _)]; [|exact HV0]. exfalso.
    rewrite E0 in EL. injection EL as <- <- <-. injection E as <- <- <-. apply HNE. reflexivity. }
  assert (HS2 : structured pq') by (unfold structured; rewrite HS'; exact HS).
  unfold from_pyqubo. rewrite HT'. cbn [pq_loop]. unfold term_problems in HP.
  inversion HP as [| |? ? ? ? U0 HP1]; subst. inversion HP1 as [| |? ? ? ? O0 HP2]; subst. inversion HP2 as [| |? ? ? ? U1 HP3]; subst. inversion HP3 as [| |? ? ? ? O1 HP4]; subst.
  assert (HK : forall l, ~ undeclared m pq l -> ~ outside m pq l -> ~ undeclared m'' pq' l /\ ~ outside m'' pq' l).
  { intros l U O. unfold undeclared, outside in *. rewrite HS'. destruct (dget l (pq_struct pq)) as [[n idx]|]; [|exfalso; apply U; discriminate].
    destruct (dget n (m_vars m)) as [a|] eqn:EA.
    2:{ exfalso. apply U. intros n' idx' a' H. injection H as <- <-. congruence. }
    pose proof (HV2 n a) as HG. rewrite HV in HG. specialize (HG EA). split.
    - intros H. exact (H n idx a eq_refl HG).
    - intros (n' & idx' & a' & A & B & C). injection A as <- <-. rewrite HG in B. injection B as <-. apply O. exists n, idx, a. auto. }
  destruct (HK _ U0 O0) as [U0' O0']. destruct (HK _ U1 O1) as [U1' O1'].
  destruct (step_cases ev' m'' pq' k (negated c) HS2 HO2 HA2) as [(e0 & c0 & HV0 & E0 & _)|(m2 & HV0 & _)].
  - rewrite E0. assert (HE : Some e0 = Some ValueError).
    { refine (verdict_fun _ _ _ HV0 _). do 4 (next; [assumption|]). here. apply HI. rewrite HN. apply in_or_app. right. left. reflexivity. }
    injection HE as ->. eexists. reflexivity.
  - exfalso. assert (HE : None = Some ValueError); [|discriminate].
    refine (verdict_fun _ _ _ HV0 _). do 4 (next; [assumption|]). here. apply HI. rewrite HN. apply in_or_app. right. left. reflexivity.
Qed.

(** Non-vacuity: a compiled QUBO over q[0], q[1] and r[0] and a model in which only q is
    declared: the third term is refused, the first two stay. After declaring r the same
    call is refused at its first term. *)
Definition pq_three : pqmodel :=
  mkPq [(("q[0]", "q[0]"), CNum (qz 2)); (("q[0]", "q[1]"), CPh "A"); (("q[1]", "r[0]"), CNum (qz 3))]
    [("q[0]", ("q", [0])); ("q[1]", ("q", [1])); ("r[0]", ("r", [0]))] (CNum (qz 4)).
Example C153_hyps : structured pq_three /\ own_names fresh_q /\ aligned fresh_q /\ fully_indexed fresh_q pq_three /\
  exists m' pq', from_pyqubo env0 fresh_q pq_three = (m', pq', Err KeyError) /\ length (names m') = 2 /\
    exists m'', variables (VName "r") (ShTuple [ShInt 1]) m' = (m'', Ok tt) /\
      exists pq'', from_pyqubo env0 m'' pq' = (m'', pq'', Err ValueError).
Proof.
  split; [|split; [exact fresh_own|split; [apply alignedb_ok; reflexivity|split]]].
  - intros l n idx. cbn. repeat (match goal with |- context [String.eqb l ?s] => destruct (String.eqb_spec l s) as [->|] end; [intros E; injection E as <- <-; reflexivity|]). discriminate.
  - intros l n idx a. cbn. repeat (match goal with |- context [String.eqb l ?s] => destruct (String.eqb_spec l s) as [->|] end; [intros E; injection E as <- <-; cbn; intros H; try discriminate; injection H as <-; reflexivity|]). discriminate.
  - do 2 eexists. split; [vm_compute; reflexivity|]. split; [reflexivity|]. eexists. split; [vm_compute; reflexivity|]. eexists. vm_compute. reflexivity.
Qed.
Print Assumptions C153_verdict.
Print Assumptions C153_left.
Print Assumptions C153_retry.
