(** * PropsFill: C130 values for placeholders may be given early or late, C131 one model for several values. *)
From Verif Require Import PyBase PyLemmas Numbers Constraint LogicalModel Spec LogicalProofs EnergyProofs ConvertProofs ConstraintProofs MergeProofs PhysicalProofs ToPhysicalProofs Indep Samples Physical History PropsHistory
  PropsInteractions PropsPhysical PropsAlike PropsConverts FillProofs PropsOrder.
Local Open Scope string_scope.
Local Open Scope list_scope.

(** ** C130: early or late *)

(** The feed gives every placeholder of [fd] the same value as [fd]. *)
Definition includes (fd' fd : feed) : Prop := forall p q, dget p fd = Some q -> dget p fd' = Some q.
Lemma ceval_ext fd fd' c : (forall p, dget p fd = dget p fd') -> ceval fd c = ceval fd' c.
Proof. intros H. induction c as [q|p|a IHa b IHb|a IHa b IHb]; cbn [ceval]; auto; rewrite IHa, IHb; reflexivity. Qed.
Lemma agg_ext fd fd' l : (forall p, dget p fd = dget p fd') -> forall g, agg_rows fd g l = agg_rows fd' g l.
Proof.
  intros H. induction l as [|r l IH]; intros g; [reflexivity|]. cbn [agg_rows]. assert (A : agg_row fd g r = agg_row fd' g r) by (unfold agg_row; rewrite (ceval_ext fd fd' _ H); reflexivity).
  rewrite A. destruct (agg_row fd' g r); auto.
Qed.
(** Only the values matter, not the order or repetitions of the feed. *)
Theorem C130_feed : forall fd fd' ev evs m, (forall p, dget p fd = dget p fd') -> to_physical ev evs fd m = to_physical ev evs fd' m.
Proof.
  intros fd fd' ev evs m H. unfold to_physical. destruct (merge_constrs ev evs 0 (dvals (m_constrs m)) m) as [m1 [u|e]]; [|reflexivity]. destruct (visited m1); [|reflexivity].
  rewrite (agg_ext fd fd' _ H), (ceval_ext fd fd' _ H). reflexivity.
Qed.
Lemma dget_both (fd fd' : feed) p : dget p (fd ++ fd') = match dget p fd with Some q => Some q | None => dget p fd' end.
Proof. induction fd as [|[k v] fd IH]; [reflexivity|]. cbn [dget app]. destruct (eqb p k); auto. Qed.
Lemma includes_app fd fd' p : includes fd' fd -> dget p (fd ++ fd') = dget p fd'.
Proof. intros H. rewrite dget_both. destruct (dget p fd) as [q|] eqn:E; [symmetry; apply H; exact E|reflexivity]. Qed.

(** to_physical of the model with the values, with the remaining values, and of the model with all of them: the same physical model or the same exception, and again a model and its filled version. *)
Theorem C130_physical : forall fd fd' ev evs m m' r,
  to_physical ev evs (fd ++ fd') m = (m', r) -> to_physical ev evs fd' (fill_model fd m) = (fill_model fd m', r).
Proof. intros fd fd' ev evs m m' r E. rewrite physical_fill, E. reflexivity. Qed.
(** Any other call, where the numbers in the arguments are filled in as well. *)
Theorem C130_call : forall fd ev evs o m m', (forall fd', o = OPhysical fd' -> includes fd' fd) ->
  do_op ev evs o m = (m', Ok tt) -> do_op ev evs (fill_op fd o) (fill_model fd m) = (fill_model fd m', Ok tt).
Proof.
  intros fd ev evs o m m' HP. destruct o; cbn [do_op fill_op]; intros E.
  - exact (ex_ho fd _ _ _ (ex_variables fd n sh) _ _ _ E).
  - exact (ex_ho fd _ _ _ (ex_append fd n sh) _ _ _ E).
  - exact (ex_ho fd _ _ _ (ex_add fd ev t n co sc a ts) _ _ _ E).
  - exact (ho_update fd ev t n co sc a ts _ _ _ E).
  - exact (ex_ho fd _ _ _ (ex_remove fd t n) _ _ _ E).
  - exact (ex_ho fd _ _ _ (ex_delete fd t) _ _ _ E).
  - exact (ex_ho fd _ _ _ (ex_fix fd ev t v) _ _ _ E).
  - exact (ex_ho fd _ _ _ (ex_add_constraint fd c) _ _ _ E).
  - exact (ex_ho fd _ _ _ (ex_remove_constraint fd l) _ _ _ E).
  - exact (ex_ho fd _ _ _ (ex_offset fd c) _ _ _ E).
  - destruct (pyqubo_fill fd ev m pq) as [pq2 X]. rewrite X. destruct (from_pyqubo ev m pq) as [[m1 pq1] r]. cbn [fst snd]. injection E as <- ->. reflexivity.
  - exact (ho_to_ising fd ev _ _ _ E).
  - exact (ho_to_qubo fd ev _ _ _ E).
  - assert (X := physical_fill fd ev evs fd0 m). rewrite (C130_feed (fd ++ fd0) fd0 ev evs m) in X by (intros p; apply includes_app; apply HP; reflexivity). rewrite X.
    destruct (to_physical ev evs fd0 m) as [m1 [p|e]]; cbn [fst snd]; [|discriminate]. injection E as <-. reflexivity.
Qed.
Theorem C130_merge : forall fd ev evo k m o m' o',
  merge ev evo k m o = (m', o', Ok tt) -> merge ev evo k (fill_model fd m) (fill_model fd o) = (fill_model fd m', fill_model fd o', Ok tt).
Proof. intros. apply merge_fill. assumption. Qed.
(** Except for update_interaction and the type conversion, which refuse placeholders, the filled call also raises exactly when the call does. *)
Theorem C130_exceptions : forall fd ev evs o m m' r, (forall fd', o = OPhysical fd' -> includes fd' fd) ->
  (forall t n co sc a ts, o <> OUpdate t n co sc a ts) -> o <> OIsing -> o <> OQubo ->
  do_op ev evs o m = (m', r) -> do_op ev evs (fill_op fd o) (fill_model fd m) = (fill_model fd m', r).
Proof.
  intros fd ev evs o m m' r HP HU HI HQ E.
  assert (K : forall f g : LM unit, ex fd (fun x => x) f g -> f m = (m', r) -> g (fill_model fd m) = (fill_model fd m', r)).
  { intros f g X EF. rewrite (X m), EF. cbn [fst snd]. destruct r; reflexivity. }
  destruct o; cbn [do_op fill_op] in *; try congruence.
  - exact (K _ _ (ex_variables fd n sh) E).
  - exact (K _ _ (ex_append fd n sh) E).
  - exact (K _ _ (ex_add fd ev t n co sc a ts) E).
  - exact (K _ _ (ex_remove fd t n) E).
  - exact (K _ _ (ex_delete fd t) E).
  - exact (K _ _ (ex_fix fd ev t v) E).
  - exact (K _ _ (ex_add_constraint fd c) E).
  - exact (K _ _ (ex_remove_constraint fd l) E).
  - exact (K _ _ (ex_offset fd c) E).
  - destruct (pyqubo_fill fd ev m pq) as [pq2 X]. rewrite X. destruct (from_pyqubo ev m pq) as [[m1 pq1] x]. cbn [fst snd]. injection E as <- <-. reflexivity.
  - assert (X := physical_fill fd ev evs fd0 m). rewrite (C130_feed (fd ++ fd0) fd0 ev evs m) in X by (intros p; apply includes_app; apply HP; reflexivity). rewrite X.
    destruct (to_physical ev evs fd0 m) as [m1 [p|e]]; cbn [fst snd]; injection E as <- <-; reflexivity.
Qed.
(** A whole program: entering the values [fd] from the start, or passing them to to_physical at the end. *)
Definition fill_all (fd : feed) (l : list (env * (nat -> env) * op)) : list (env * (nat -> env) * op) := map (fun x => (fst x, fill_op fd (snd x))) l.
Theorem C130_program : forall fd fd' l t m ev evs m' r, (forall e es fd0, In (e, es, OPhysical fd0) l -> includes fd0 fd) ->
  run l (new_model t) = Some m -> to_physical ev evs (fd ++ fd') m = (m', r) ->
  exists n n', run (fill_all fd l) (new_model t) = Some n /\ to_physical ev evs fd' n = (n', r).
Proof.
  intros fd fd' l t m ev evs m' r HP E T.
  assert (K : forall l m0, (forall e es fd0, In (e, es, OPhysical fd0) l -> includes fd0 fd) -> forall m, run l m0 = Some m -> run (fill_all fd l) (fill_model fd m0) = Some (fill_model fd m)).
  { clear. induction l as [|[[ev evs] o] l IH]; intros m0 HP m E; [injection E as <-; reflexivity|]. cbn [run fill_all map fst snd] in *.
    destruct (do_op ev evs o m0) as [m1 [[]|e]] eqn:EO; [|discriminate].
    rewrite (C130_call fd ev evs o m0 m1); [|intros fd' ->; apply (HP ev evs); left; reflexivity|exact EO]. apply IH; auto. intros e es fd0 HI. apply (HP e es). right. exact HI. }
  exists (fill_model fd m), (fill_model fd m'). split; [exact (K l (new_model t) HP m E)|]. apply C130_physical. exact T.
Qed.

(** ** C131: several values, one model *)

(** The removed interactions that are still stored have names of their own: no constraint generates such a name. *)
Definition own_names (m : lmodel) : Prop := forall evs cms r cm, cmodels evs 0 (m_mtype m) (dvals (m_constrs m)) = Ok cms ->
  In r (m_rows m) -> r_removed r = true -> In cm cms -> ~ In (r_name r) (names cm).
(** The model after to_physical with some values, any number of times, at any times. *)
Inductive swept : lmodel -> lmodel -> Prop :=
| sw_none m : swept m m
| sw_more ev evs fd m m1 m2 p : to_physical ev evs fd m = (m1, Ok p) -> swept m1 m2 -> swept m m2.
Lemma swept_step ev evs fd m m1 p : aligned m -> names_unique m -> own_names m -> to_physical ev evs fd m = (m1, Ok p) ->
  purged m p m1 /\ names_unique m1 /\ own_names m1 /\ m_mtype m1 = m_mtype m /\ m_constrs m1 = m_constrs m.
Proof.
  intros HA HU HO E. destruct (to_physical_ok _ _ _ _ _ _ (proj1 HA) E) as (cms & HC & HR & HPE).
  destruct (C11_frame _ _ _ _ _ _ cms HA HU HC (fun r cm H1 H2 H3 => HO evs cms r cm HC H1 H2 H3) E) as (F1&F2&F3&F4&F5&F6&F7&F8&F9&F10&F11&F12).
  split; [constructor; auto; unfold frame2, frame; simpl; congruence|]. split; auto. split; [|split; auto].
  intros evs' cms' r cm _ HI HX _. exfalso. rewrite F9 in HI. apply in_map_iff in HI. destruct HI as (r0 & <- & HI). apply filter_In in HI. destruct HI as [_ HI]. cbn in HX. rewrite HX in HI. discriminate.
Qed.
(** to_physical with the values [fd] gives the same physical model (the same coefficients in the same order, the same indices) before and after any number of calls with other values. *)
Theorem C131_sweep : forall m m1, swept m m1 -> aligned m -> names_unique m -> own_names m -> forall ev evs ev' evs' fd m2 p m3 q,
  to_physical ev evs fd m = (m2, Ok p) -> to_physical ev' evs' fd m1 = (m3, Ok q) -> p = q.
Proof.
  intros m m1 SW. induction SW as [m|ev0 evs0 fd0 m ma mb p0 E0 SW IH]; intros HA HU HO ev evs ev' evs' fd m2 p m3 q E1 E2.
  - destruct (to_physical_ok _ _ _ _ _ _ (proj1 HA) E1) as (c1 & HC1 & _ & ->). destruct (to_physical_ok _ _ _ _ _ _ (proj1 HA) E2) as (c2 & HC2 & _ & ->).
    destruct (rows_same _ _ (cmodels_indep _ _ _ _ _ _ _ _ HC1 HC2)) as [HE HV]. unfold phys, all_rows. rewrite !fold_left_app.
    rewrite (fold2 eqv (add_lin fd) (add_lin fd) _ _ (fun d a b H => eqv_add_lin fd d a b H) HE), (fold2 eqv (add_quad fd) (add_quad fd) _ _ (fun d a b H => eqv_add_quad fd d a b H) HE), (HV fd). reflexivity.
  - destruct (swept_step _ _ _ _ _ _ HA HU HO E0) as (PG & U1 & O1 & T1 & C1). pose proof (pg_al _ _ _ PG) as A1.
    assert (R1 : resolved fd m) by (destruct (to_physical_ok _ _ _ _ _ _ (proj1 HA) E1) as (? & _ & X & _); exact X).
    (* the same call right after the first one *)
    destruct (to_physical_ok _ _ _ _ _ _ (proj1 HA) E0) as (c0 & HC0 & _). rewrite <- T1, <- C1 in HC0.
    assert (R2 : resolved fd ma).
    { destruct PG as [PR PF _ _]. unfold frame2, frame in PF; simpl in PF. inversion PF. split; [|match goal with H : m_offset _ = m_offset _ |- _ => rewrite H end; apply R1].
      intros r HI HX. rewrite PR in HI. apply in_map_iff in HI. destruct HI as (r0 & <- & HI). apply filter_In in HI. destruct HI as [HI HK]. apply (proj1 R1 r0 HI). exact HX. }
    destruct (C09_to_physical_succeeds ev0 evs0 fd ma c0 A1 U1 R2 HC0 (fun r cm H1 H2 H3 => O1 evs0 c0 r cm HC0 H1 H2 H3)) as (mm & pp & EM).
    transitivity pp; [|exact (IH A1 U1 O1 _ _ _ _ _ _ _ _ _ EM E2)].
    destruct (to_physical_ok _ _ _ _ _ _ (proj1 HA) E1) as (c1 & HC1 & _ & ->). destruct (to_physical_ok _ _ _ _ _ _ (proj1 A1) EM) as (c2 & HC2 & _ & ->).
    rewrite T1, C1 in HC2. symmetry. exact (phys_again fd m ma p0 c1 c2 PG (cmodels_indep _ _ _ _ _ _ _ _ HC1 HC2)).
Qed.
(** In particular the later call does return: missing values are the only difference an earlier call could make, and it makes none. *)
Theorem C131_returns : forall m m1, swept m m1 -> aligned m -> names_unique m -> own_names m -> forall ev evs fd m2 p,
  to_physical ev evs fd m = (m2, Ok p) -> exists m3, to_physical ev evs fd m1 = (m3, Ok p).
Proof.
  intros m m1 SW HA HU HO ev evs fd m2 p E.
  assert (K : forall m m1, swept m m1 -> aligned m -> names_unique m -> own_names m -> resolved fd m -> forall cms, cmodels evs 0 (m_mtype m) (dvals (m_constrs m)) = Ok cms -> exists m3 q, to_physical ev evs fd m1 = (m3, Ok q)).
  { clear. intros m m1 SW. induction SW as [m|ev0 evs0 fd0 m ma mb p0 E0 SW IH]; intros HA HU HO HR cms HC.
    - exact (C09_to_physical_succeeds ev evs fd m cms HA HU HR HC (fun r cm H1 H2 H3 => HO evs cms r cm HC H1 H2 H3)).
    - destruct (swept_step _ _ _ _ _ _ HA HU HO E0) as (PG & U1 & O1 & T1 & C1). apply (IH (pg_al _ _ _ PG) U1 O1) with cms; [|rewrite T1, C1; exact HC].
      destruct PG as [PR PF _ _]. unfold frame2, frame in PF; simpl in PF. inversion PF. split; [|match goal with H : m_offset _ = m_offset _ |- _ => rewrite H end; apply HR].
      intros r HI HX. rewrite PR in HI. apply in_map_iff in HI. destruct HI as (r0 & <- & HI). apply filter_In in HI. destruct HI as [HI HK]. apply (proj1 HR r0 HI). exact HX. }
  destruct (to_physical_ok _ _ _ _ _ _ (proj1 HA) E) as (cms & HC & HR & _). destruct (K m m1 SW HA HU HO HR cms HC) as (m3 & q & E3).
  exists m3. rewrite (C131_sweep m m1 SW HA HU HO _ _ _ _ _ _ _ _ _ E E3). exact E3.
Qed.

(** ** The hypotheses can be met *)
Definition tuned : list (env * (nat -> env) * op) := map (fun o => (env0, evs0, o))
  [OVariables (VName "x") (ShTuple [ShInt 3]);
   OAdd (TVar (spn "x" 0)) (NStr "") (AC (CMul (CNum (qz 2)) (CPh "lambda"))) (AC (CPh "mu")) AtNone TsNone;
   OAdd (TTuple [EVar (spn "x" 1); EVar (spn "x" 0)]) (NStr "") (AC (CPh "mu")) (num 3) AtNone TsNone;
   OAdd (TVar (spn "x" 2)) (NStr "gone") (num 6) (num 1) AtNone TsNone;
   ORemove TNone (NStr "gone");
   OPhysical [("mu", qz 1); ("lambda", qz 3)];
   OUpdate (TVar (spn "x" 2)) (NStr "") (Some (num 4)) None AtNone TsNone;
   OFix (TVar (spn "x" 1)) (qz (-1));
   OAddConstraint (Some (NHot [spn "x" 0; spn "x" 2] 1 "one" (qz 10)));
   OOffset (CPh "lambda")].
Example C130_hyps : (forall e es fd0, In (e, es, OPhysical fd0) tuned -> includes fd0 [("lambda", qz 3)]) /\ exists m m' p, run tuned (new_model Ising) = Some m /\ to_physical env0 evs0 ([("lambda", qz 3)] ++ [("mu", qz 5)]) m = (m', Ok p) /\ p_linear p <> [] /\ p_quad p <> [] /\ run (fill_all [("lambda", qz 3)] tuned) (new_model Ising) <> Some m.
Proof.
  split.
  - intros e es fd0 HI. unfold tuned in HI. apply in_map_iff in HI. destruct HI as (o & E & HI). injection E as _ _ ->. cbn [In] in HI.
    repeat (destruct HI as [HI|HI]; [try discriminate HI|]); [|contradiction]. injection HI as <-. intros p q. cbn. destruct (String.eqb p "lambda") eqn:EL; [|discriminate].
    apply String.eqb_eq in EL. subst p. intros E2. exact E2.
  - destruct (run tuned (new_model Ising)) as [m|] eqn:E; [|apply (f_equal (fun x => match x with Some _ => true | None => false end)) in E; vm_compute in E; discriminate E].
    assert (EM : m = match run tuned (new_model Ising) with Some x => x | None => new_model Ising end) by (rewrite E; reflexivity).
    destruct (ok_physical_ex (to_physical env0 evs0 ([("lambda", qz 3)] ++ [("mu", qz 5)]) m)) as (m' & p & EP); [rewrite EM; vm_compute; reflexivity|]. exists m, m', p. split; [reflexivity|]. split; [exact EP|].
    assert (EL : match snd (to_physical env0 evs0 ([("lambda", qz 3)] ++ [("mu", qz 5)]) m) with Ok p => match p_linear p, p_quad p with [], _ | _, [] => false | _, _ => true end | Err _ => false end = true) by (rewrite EM; vm_compute; reflexivity).
    rewrite EP in EL. cbn [snd] in EL. split; [intros X; rewrite X in EL; discriminate EL|]. split; [intros X; rewrite X in EL; destruct (p_linear p); discriminate EL|].
    intros X. apply (f_equal (fun z => match z with Some m => match m_offset m with CNum _ => true | _ => false end | None => true end)) in X. rewrite EM in X. vm_compute in X. discriminate X.
Qed.
Example C131_hyps : aligned qubo_model /\ names_unique qubo_model /\ own_names qubo_model /\ (exists r, In r (m_rows qubo_model) /\ r_removed r = true) /\ length (m_constrs qubo_model) = 2  /\ (exists m1, swept qubo_model m1 /\ m_rows m1 <> m_rows qubo_model) /\ exists m2 p, to_physical env0 evs0 [("lambda", qz 8)] qubo_model = (m2, Ok p).
Proof.
  split; [apply alignedb_ok; vm_compute; reflexivity|]. split; [apply wfb_ok; vm_compute; reflexivity|]. split; [|split; [|split; [|split]]].
  - intros evs cms r cm HC HI HX HM C. destruct (cmodels_ok evs (m_mtype qubo_model) (dvals (m_constrs qubo_model))) with (k := 0) as (cms' & HC' & HN).
    + assert (E : dvals (m_constrs qubo_model) = [NHot [bin "q" 0; bin "q" 1; bin "q" 2] 1 "one" (qz 10); Equality [bin "q" 0] [bin "q" 3] "same" (qz 4)]) by (vm_compute; reflexivity).
      rewrite E. constructor; [|constructor; [|constructor]]; (split; [repeat constructor; cbn; intuition discriminate | repeat constructor]).
    + intros ET. vm_compute in ET. discriminate ET.
    + rewrite HC in HC'. injection HC' as <-. specialize (HN cm _ HM C).
      assert (HB : forallb (fun r => negb (r_removed r) || negb (has_char "("%char (r_name r))) (m_rows qubo_model) = true) by (vm_compute; reflexivity).
      rewrite forallb_forall in HB. specialize (HB r HI). rewrite HX, HN in HB. discriminate.
  - assert (HB : existsb r_removed (m_rows qubo_model) = true) by (vm_compute; reflexivity). apply existsb_exists in HB. exact HB.
  - vm_compute; reflexivity.
  - destruct (ok_physical_ex (to_physical env0 evs0 feed0 qubo_model)) as (m1 & p1 & E1); [vm_compute; reflexivity|]. exists m1. split; [exact (sw_more _ _ _ _ _ _ _ E1 (sw_none m1))|].
    intros X. apply (f_equal fst) in E1. cbn [fst] in E1. subst m1. apply (f_equal (@length row)) in X. vm_compute in X. discriminate X.
  - apply ok_physical_ex. vm_compute. reflexivity.
Qed.
Print Assumptions C130_feed.
Print Assumptions C130_physical.
Print Assumptions C130_call.
Print Assumptions C130_merge.
Print Assumptions C130_exceptions.
Print Assumptions C130_program.
Print Assumptions C131_sweep.
Print Assumptions C131_returns.
