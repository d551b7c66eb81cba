(** * ConstraintProofs: the models built by constraints. *)
From Verif Require Import PyBase PyLemmas Constraint LogicalModel Spec LogicalProofs EnergyProofs ConvertProofs.
Open Scope list_scope.

(** ** Models built by plain add_interaction calls *)
Record built (m : lmodel) : Prop := {
  bl_names : names_unique m;
  bl_rows : Forall (fun r => key_ok r /\ active r /\ r_scale r = CNum 1%Qc /\ exists y, r_coef r = CNum y) (m_rows m);
  bl_frame : frame m = frame (new_model Qubo);
  bl_off : m_offset m = CNum 0%Qc;
  bl_cols : m_cols m = []; bl_attrs : m_attrs m = []; bl_len : m_len m = length (m_rows m) }.

Lemma built_new : built (new_model Qubo).
Proof. constructor; simpl; auto; constructor. Qed.

Lemma built_aligned m : built m -> aligned m.
Proof.
  intros [? ? ? ? HC HA HL]. unfold aligned. rewrite HC, HA, HL. repeat split; auto; constructor.
Qed.
Lemma built_wf m : built m -> well_formed m.
Proof. intros B; split; [apply B|]. eapply Forall_impl; [|apply B]. intros r Hr; apply Hr. Qed.
Lemma built_unit m : built m -> unit_scales m.
Proof.
  intros B r HI HA. pose proof (bl_rows m B) as F. rewrite Forall_forall in F. apply F; auto.
Qed.

Lemma interaction_info_key_ok t inf : interaction_info t = Ok inf ->
  forall nm c s q, key_ok (new_row nm inf c s q).
Proof.
  intros E nm c s q. unfold interaction_info in E.
  destruct t as [|v|l|b]; try discriminate.
  - inversion E; subst. split; simpl; auto.
  - destruct l as [|[x|] [|[y|] [|]]]; try discriminate.
    destruct (String.eqb_spec (v_label x) (v_label y)); [discriminate|].
    destruct (String.ltb (v_label x) (v_label y)) eqn:EL; inversion E; subst; split; simpl; auto.
    rewrite ltb_total in EL by auto. apply negb_false_iff in EL. auto.
Qed.

(** add with no attributes on a built model. *)
Lemma add_built ev t name q m m' u :
  add_interaction ev t name (AC (CNum q)) (AC (CNum 1%Qc)) AtNone TsNone m = (m', Ok u) ->
  built m ->
  exists inf nm, interaction_info t = Ok inf /\ add_name name (in_name inf) = Ok nm /\ ~ In nm (names m) /\
    m_rows m' = m_rows m ++ [new_row nm inf (CNum q) (CNum 1%Qc) (e_now ev)] /\ built m'.
Proof.
  intros E B.
  destruct (add_split ev t name (AC (CNum q)) (AC (CNum 1%Qc)) AtNone TsNone m) as [(e & E' & _)|(c&s&qq&inf&nm&d&HA&E')]; [congruence|].
  rewrite E' in E. destruct HA as [A1 A2 A3 A4 A5 A6 A7 A8].
  inversion A2; subst c. inversion A3; subst s. simpl in A4; inversion A4; subst qq. simpl in A7; inversion A7; subst d.
  unfold add_body in E. cbv [bind modify] in E.
  unfold expand_attrs in E. cbn [m_attrs with_rows] in E. rewrite (bl_attrs m B) in E. cbn in E.
  inversion E; subst m' u; clear E.
  exists inf, nm. split; [auto|]. split; [auto|]. split; [auto|]. cbn. split; [auto|].
  destruct B as [B1 B2 B3 B4 B5 B6 B7].
  constructor; simpl; auto.
  - unfold names_unique, names in *; simpl. rewrite map_app; simpl. apply NoDup_snoc; auto.
  - apply Forall_app; split; auto. constructor; auto. split.
    + eapply interaction_info_key_ok; eauto.
    + repeat split; simpl; eauto.
  - rewrite B7, app_length; simpl; lia.
Qed.
(** ... and it succeeds for a legal target and a fresh, non-empty name. *)
Lemma add_built_ok ev t inf nm q m :
  built m -> t_truthy t = true -> interaction_info t = Ok inf -> nm <> ""%string -> ~ In nm (names m) ->
  exists m', add_interaction ev t (NStr nm) (AC (CNum q)) (AC (CNum 1%Qc)) AtNone TsNone m = (m', Ok tt) /\
    m_rows m' = m_rows m ++ [new_row nm inf (CNum q) (CNum 1%Qc) (e_now ev)] /\ built m'.
Proof.
  intros B HT HI NE HN.
  destruct (add_split ev t (NStr nm) (AC (CNum q)) (AC (CNum 1%Qc)) AtNone TsNone m) as [(e & E' & HX)|(c&s&qq&i&n&d&HA&E')].
  - exfalso. apply (HX (CNum q) (CNum 1%Qc) (e_now ev) inf nm []).
    constructor; auto. unfold add_name. apply String.eqb_neq in NE. simpl. rewrite NE. reflexivity.
  - destruct HA as [A1 A2 A3 A4 A5 A6 A7 A8].
    simpl in A7; inversion A7; subst d.
    assert (EX : exists m', add_interaction ev t (NStr nm) (AC (CNum q)) (AC (CNum 1%Qc)) AtNone TsNone m = (m', Ok tt)).
    { rewrite E'. unfold add_body. cbv [bind modify]. unfold expand_attrs. cbn [m_attrs with_rows].
      rewrite (bl_attrs m B). cbn. eauto. }
    destruct EX as [m' EX]. exists m'. split; auto.
    destruct (add_built _ _ _ _ _ _ _ EX B) as (inf' & nm' & H1 & H2 & H3 & H4 & H5).
    rewrite HI in H1; inversion H1; subst inf'.
    unfold add_name in H2. apply String.eqb_neq in NE. simpl in H2. rewrite NE in H2. inversion H2; subst nm'.
    auto.
Qed.

(** ** Sums over pairs *)
Definition xsum (x : assignment) (vs : list var) (f : var -> Qc) : Qc := qsum (map f vs).
Definition pairs_of (x : assignment) (vs : list var) (v : var) : Qc :=
  qsum (map (fun w => if String.ltb (v_label v) (v_label w) then (x (v_label v) * x (v_label w))%Qc else 0%Qc) vs).
Definition pairs (x : assignment) (vs : list var) : Qc := qsum (map (pairs_of x vs) vs).
Definition squares (x : assignment) (vs : list var) : Qc :=
  qsum (map (fun v => x (v_label v) * x (v_label v))%Qc vs).
Definition cross (x : assignment) (v1 v2 : list var) : Qc :=
  qsum (map (fun v => qsum (map (fun w => x (v_label v) * x (v_label w))%Qc v2)) v1).

Lemma qsum_swap {A B} (f : A -> B -> Qc) la lb :
  qsum (map (fun a => qsum (map (fun b => f a b) lb)) la) =
  qsum (map (fun b => qsum (map (fun a => f a b) la)) lb).
Proof.
  induction la as [|a la IH]; simpl.
  - symmetry. apply qsum_map_zero; auto.
  - rewrite IH, <- qsum_map_add. apply qsum_map_ext; auto.
Qed.
Lemma cross_hot x v1 v2 : cross x v1 v2 = (hot x v1 * hot x v2)%Qc.
Proof.
  unfold cross, hot. induction v1 as [|v v1 IH]; simpl; [ring|].
  rewrite IH, (qsum_map_mul (x (v_label v)) (fun w => x (v_label w)) v2). ring.
Qed.
Lemma qsum_single (vs : list var) (v : var) (f : var -> Qc) :
  NoDup (map v_label vs) -> In v vs ->
  qsum (map (fun w => if String.eqb (v_label v) (v_label w) then f w else 0%Qc) vs) = f v.
Proof.
  induction vs as [|w vs IH]; simpl; intros ND HI; [tauto|].
  inversion ND as [|? ? NI ND']; subst. destruct HI as [->|HI].
  - rewrite String.eqb_refl. rewrite qsum_map_zero; [ring|].
    intros y Hy. destruct (String.eqb_spec (v_label v) (v_label y)); auto.
    exfalso; apply NI. rewrite e. apply in_map; auto.
  - destruct (String.eqb_spec (v_label v) (v_label w)).
    + exfalso; apply NI. rewrite <- e. apply in_map; auto.
    + rewrite IH by auto. ring.
Qed.

Lemma hot_squared x vs : NoDup (map v_label vs) ->
  (hot x vs * hot x vs = squares x vs + qz 2 * pairs x vs)%Qc.
Proof.
  intros ND. rewrite <- cross_hot. unfold cross.
  transitivity (qsum (map (fun v =>
     pairs_of x vs v
     + qsum (map (fun w => if String.ltb (v_label w) (v_label v) then (x (v_label w) * x (v_label v))%Qc else 0%Qc) vs)
     + x (v_label v) * x (v_label v))%Qc vs)).
  - apply qsum_map_ext. intros v HI.
    unfold pairs_of. rewrite <- qsum_map_add.
    rewrite <- (qsum_single vs v (fun w => x (v_label v) * x (v_label w))%Qc ND HI).
    rewrite <- qsum_map_add. apply qsum_map_ext. intros w _.
    destruct (String.eqb_spec (v_label v) (v_label w)) as [e|n].
    + rewrite e, ltb_irrefl. ring.
    + rewrite (ltb_total _ _ n). destruct (String.ltb (v_label w) (v_label v)); simpl; ring.
  - rewrite !qsum_map_add.
    rewrite (qsum_swap (fun v w => if String.ltb (v_label w) (v_label v) then (x (v_label w) * x (v_label v))%Qc else 0%Qc)).
    rewrite qc2.
    match goal with |- (?a + ?b + ?c = _)%Qc =>
      change a with (pairs x vs); change b with (pairs x vs); change c with (squares x vs) end.
    ring.
Qed.
Lemma squares_binary x vs : binary x -> squares x vs = hot x vs.
Proof.
  intros HB. unfold squares, hot. apply qsum_map_ext. intros v _.
  destruct (HB (v_label v)) as [->| ->]; ring.
Qed.

(** ** The loops of to_model *)
Definition cs fd x m := csum fd x (m_rows m).

Lemma cadd1_step ev l q v m m' u : cadd1 ev l q v m = (m', Ok u) -> built m ->
  built m' /\ names m' = names m ++ [(v_label v +++ " (" +++ l +++ ")")%string] /\ NoDup (names m') /\
  (forall fd x, cs fd x m' = (cs fd x m + q * x (v_label v))%Qc).
Proof.
  intros E B. destruct (add_built _ _ _ _ _ _ _ E B) as (inf & nm & H1 & H2 & H3 & H4 & H5).
  inversion H1; subst inf. split; auto.
  assert (EN : nm = (v_label v +++ " (" +++ l +++ ")")%string).
  { unfold add_name in H2. destruct (n_truthy (NStr _)) eqn:ET; inversion H2; auto.
    simpl in ET. apply negb_false_iff in ET. apply String.eqb_eq in ET.
    apply (f_equal String.length) in ET. rewrite !length_append_s in ET. simpl in ET. lia. }
  split. { unfold names. rewrite H4, map_app. simpl. rewrite EN. auto. }
  split; [apply H5|].
  intros fd x. unfold cs. rewrite H4, csum_app, csum_cons, csum_nil. unfold contribution; simpl.
  rewrite !value_num. ring.
Qed.
Lemma cadd2_step ev l q v w m m' u : cadd2 ev l q v w m = (m', Ok u) -> built m ->
  built m' /\ v_label v <> v_label w /\
  names m' = names m ++ [(v_label v +++ "*" +++ v_label w +++ " (" +++ l +++ ")")%string] /\
  (forall fd x, cs fd x m' = (cs fd x m + q * (x (v_label v) * x (v_label w)))%Qc).
Proof.
  intros E B. destruct (add_built _ _ _ _ _ _ _ E B) as (inf & nm & H1 & H2 & H3 & H4 & H5).
  assert (EN : nm = (v_label v +++ "*" +++ v_label w +++ " (" +++ l +++ ")")%string).
  { unfold add_name in H2. destruct (n_truthy (NStr _)) eqn:ET; inversion H2; auto.
    simpl in ET. apply negb_false_iff in ET. apply String.eqb_eq in ET.
    apply (f_equal String.length) in ET. rewrite !length_append_s in ET. simpl in ET. lia. }
  unfold interaction_info in H1.
  destruct (String.eqb_spec (v_label v) (v_label w)) as [e|n]; [discriminate|].
  split; auto. split; auto.
  split. { unfold names. rewrite H4, map_app. simpl. rewrite EN. auto. }
  intros fd x. unfold cs. rewrite H4, csum_app, csum_cons, csum_nil.
  destruct (String.ltb (v_label v) (v_label w)); inversion H1; subst inf;
  unfold contribution; simpl; rewrite !value_num; ring.
Qed.

(** A loop whose every step preserves [built] and adds a known amount. *)
Lemma adding_loop {A} (f : A -> LM unit) (g : feed -> assignment -> A -> Qc) l :
  (forall a m m' u, f a m = (m', Ok u) -> built m -> built m' /\
      forall fd x, cs fd x m' = (cs fd x m + g fd x a)%Qc) ->
  forall m m' u, mfor l f m = (m', Ok u) -> built m -> built m' /\
    forall fd x, cs fd x m' = (cs fd x m + qsum (map (g fd x) l))%Qc.
Proof.
  intros HF. induction l as [|a l IH]; intros m m' u E B; simpl in *.
  - minv. split; auto. intros; ring.
  - apply bind_ok in E. destruct E as (m1 & u1 & E1 & E).
    destruct (HF _ _ _ _ E1 B) as [B1 V1]. destruct (IH _ _ _ E B1) as [B2 V2].
    split; auto. intros fd x. rewrite V2, V1. ring.
Qed.

Tactic Notation "adding_tac" constr(t) constr(m) constr(m') constr(u) "as" simple_intropattern(p) :=
  match type of t with ?A -> _ => let HS := fresh in assert (HS : A);
    [cbv beta | destruct (t HS m m' u ltac:(eassumption) ltac:(first [assumption|exact built_new])) as p; clear HS] end.

Lemma cadd_pairs_of_step ev l q vs v m m' u : cadd_pairs_of ev l q vs v m = (m', Ok u) -> built m ->
  built m' /\ forall fd x, cs fd x m' = (cs fd x m + q * pairs_of x vs v)%Qc.
Proof.
  intros E B. unfold cadd_pairs_of in E.
  adding_tac (adding_loop (fun w => if String.ltb (v_label v) (v_label w) then cadd2 ev l q v w else ret tt) (fun fd x w => q * (if String.ltb (v_label v) (v_label w) then (x (v_label v) * x (v_label w)) else 0))%Qc vs) (m) (m') (u) as [B' V].
  - intros w m1 m2 u1 E1 B1. destruct (String.ltb (v_label v) (v_label w)).
    + apply cadd2_step in E1; auto. destruct E1 as (X1 & _ & _ & X2). auto.
    + inversion E1; subst. split; auto. intros; ring.
  - split; auto. intros fd x. rewrite V. unfold pairs_of. rewrite <- qsum_map_mul. reflexivity.
Qed.

(** Names only grow, so the labels of the 1-body loop are distinct. *)
Lemma grow_add ev t n co sc a ts m m' u : add_interaction ev t n co sc a ts m = (m', Ok u) ->
  exists x, names m' = names m ++ [x].
Proof.
  intros E. apply add_ok_core in E. destruct E as (c&s&q&inf&nm&d&_&EC). exists nm.
  unfold names. rewrite (core_rows _ _ EC). simpl. rewrite map_app. reflexivity.
Qed.
Lemma grow_loop {A} (f : A -> LM unit) l :
  (forall a m m' u, f a m = (m', Ok u) -> exists ns, names m' = names m ++ ns) ->
  forall m m' u, mfor l f m = (m', Ok u) -> exists ns, names m' = names m ++ ns.
Proof.
  intros HF. induction l as [|a l IH]; intros m m' u E; simpl in *.
  - minv. exists []; rewrite app_nil_r; auto.
  - apply bind_ok in E. destruct E as (m1 & u1 & E1 & E).
    destruct (HF _ _ _ _ E1) as [n1 H1]. destruct (IH _ _ _ E) as [n2 H2].
    exists (n1 ++ n2). rewrite H2, H1, app_assoc; auto.
Qed.
Lemma cadd_pairs_grow ev l q vs v m m' u : cadd_pairs_of ev l q vs v m = (m', Ok u) ->
  exists ns, names m' = names m ++ ns.
Proof.
  apply grow_loop. intros w m1 m2 u1 E. destruct (String.ltb (v_label v) (v_label w)).
  - apply grow_add in E. destruct E; eauto.
  - inversion E; subst. exists []; rewrite app_nil_r; auto.
Qed.

(** If a loop adds "label (l)" for each of its variables and only adds
    otherwise, the labels are distinct. *)
Lemma loop_labels_distinct ev l q (f : var -> LM unit) vs :
  (forall a m m' u, f a m = (m', Ok u) -> exists ns, names m' = names m ++ ns) ->
  (forall a m m' u, f a m = (m', Ok u) -> built m -> built m') ->
  forall m m' u, mfor vs (fun v => cadd1 ev l q v ;;; f v) m = (m', Ok u) -> built m ->
   NoDup (map v_label vs) /\
   forall v, In v vs -> ~ In (v_label v +++ " (" +++ l +++ ")")%string (names m).
Proof.
  intros HG HB. induction vs as [|v vs IH]; intros m m' u E B; simpl in *.
  - split; [constructor|tauto].
  - apply bind_ok in E. destruct E as (m1 & u1 & E1 & E).
    apply bind_ok in E1. destruct E1 as (m2 & u2 & E2 & E1).
    apply cadd1_step in E2; auto. destruct E2 as (B2 & N2 & ND2 & _).
    destruct (HG _ _ _ _ E1) as [ns N1]. pose proof (HB _ _ _ _ E1 B2) as B1.
    destruct (IH _ _ _ E B1) as [ND HI]. split.
    + constructor; auto. intros HX. apply in_map_iff in HX. destruct HX as (w & EW & HW).
      apply (HI w HW). rewrite N1, N2, EW. rewrite !in_app_iff. simpl. auto.
    + intros w [<-|HW].
      * rewrite N2 in ND2. apply NoDup_snoc in ND2. tauto.
      * intros HX. apply (HI w HW). rewrite N1, N2. rewrite !in_app_iff. auto.
Qed.

(** Penalty models: what a successful to_model returns. *)
Lemma nhot_built ev vs n l s cm u : to_model ev (NHot vs n l s) = (cm, Ok u) ->
  built cm /\ NoDup (map v_label vs) /\
  forall fd x, cs fd x cm = (- s * ((1 - qz 2 * qz n) * hot x vs + qz 2 * pairs x vs))%Qc.
Proof.
  intros E. simpl in E.
  set (q1 := (- (1) * s * (1 - qz 2 * qz n))%Qc) in *. set (q2 := (- qz 2 * s)%Qc) in *.
  adding_tac (adding_loop (fun v => cadd1 ev l q1 v ;;; cadd_pairs_of ev l q2 vs v)
     (fun fd x v => q1 * x (v_label v) + q2 * pairs_of x vs v)%Qc vs) (new_model Qubo) (cm) (u) as [B V].
  - intros v m m' u1 E1 B1. apply bind_ok in E1. destruct E1 as (m2 & u2 & E2 & E1).
    apply cadd1_step in E2; auto. destruct E2 as (B2 & _ & _ & V2).
    apply cadd_pairs_of_step in E1; auto. destruct E1 as [B3 V3]. split; auto.
    intros fd x. rewrite V3, V2. ring.
  - split; auto. split.
    + eapply (loop_labels_distinct ev l q1 (cadd_pairs_of ev l q2 vs)); [| |exact E|apply built_new].
      * intros; eapply cadd_pairs_grow; eauto.
      * intros a m m' u0 Ea Bm. eapply cadd_pairs_of_step; eauto.
    + intros fd x. rewrite V. change (cs fd x (new_model Qubo)) with 0%Qc.
      rewrite qsum_map_add, (qsum_map_mul q1 (fun v => x (v_label v))), (qsum_map_mul q2 (pairs_of x vs)).
      fold (hot x vs) (pairs x vs). unfold q1, q2. ring.
Qed.
Lemma zero_one_built ev vs l s cm u : to_model ev (ZeroOrOne vs l s) = (cm, Ok u) ->
  built cm /\ forall fd x, cs fd x cm = (- s * (qz 2 * pairs x vs))%Qc.
Proof.
  intros E. simpl in E. set (q2 := (- qz 2 * s)%Qc) in *.
  adding_tac (adding_loop (fun v => cadd_pairs_of ev l q2 vs v)
     (fun fd x v => q2 * pairs_of x vs v)%Qc vs) (new_model Qubo) (cm) (u) as [B V].
  - intros v m m' u1 E1 B1. eapply cadd_pairs_of_step; eauto.
  - split; auto. intros fd x. rewrite V. change (cs fd x (new_model Qubo)) with 0%Qc.
    rewrite (qsum_map_mul q2 (pairs_of x vs)). fold (pairs x vs). unfold q2. ring.
Qed.
(** [un] is the union in any iteration order. *)
Definition equality_model ev (un v1 v2 : list var) l s : lmodel * res unit :=
  (mfor un (fun v => cadd1 ev l (- (1) * s)%Qc v) ;;;
   mfor v1 (fun v => cadd_pairs_of ev l (- qz 2 * s)%Qc v1 v) ;;;
   mfor v2 (fun v => cadd_pairs_of ev l (- qz 2 * s)%Qc v2 v) ;;;
   mfor v1 (fun v => mfor v2 (fun w => cadd2 ev l (qz 2 * s)%Qc v w))) (new_model Qubo).

Lemma equality_built ev un v1 v2 l s cm u : equality_model ev un v1 v2 l s = (cm, Ok u) ->
  built cm /\ NoDup (map v_label un) /\
  (forall v w, In v v1 -> In w v2 -> v_label v <> v_label w) /\
  forall fd x, cs fd x cm =
    (- s * (hot x un + qz 2 * pairs x v1 + qz 2 * pairs x v2 - qz 2 * (hot x v1 * hot x v2)))%Qc.
Proof.
  intros E. unfold equality_model in E. set (q2 := (- qz 2 * s)%Qc) in *. set (q1 := (- (1) * s)%Qc) in *.
  apply bind_ok in E. destruct E as (m1 & u1 & E1 & E).
  apply bind_ok in E. destruct E as (m2 & u2 & E2 & E).
  apply bind_ok in E. destruct E as (m3 & u3 & E3 & E).
  adding_tac (adding_loop (fun v => cadd1 ev l q1 v) (fun fd x v => q1 * x (v_label v))%Qc un) (new_model Qubo) (m1) (u1) as [B1 V1].
  { intros v m m' u' E' B'. apply cadd1_step in E'; auto. tauto. }
  assert (PB : forall vs m m' u', mfor vs (fun v => cadd_pairs_of ev l q2 vs v) m = (m', Ok u') -> built m ->
     built m' /\ forall fd x, cs fd x m' = (cs fd x m + q2 * pairs x vs)%Qc).
  { intros vs m m' u' E' B'.
    adding_tac (adding_loop (fun v => cadd_pairs_of ev l q2 vs v) (fun fd x v => q2 * pairs_of x vs v)%Qc vs) (m) (m') (u') as [BB VV].
    - intros; eapply cadd_pairs_of_step; eauto.
    - split; auto. intros fd x. rewrite VV. rewrite (qsum_map_mul q2 (pairs_of x vs)). reflexivity. }
  destruct (PB _ _ _ _ E2 B1) as [B2 V2]. destruct (PB _ _ _ _ E3 B2) as [B3 V3].
  assert (CB : forall v m m' u', mfor v2 (fun w => cadd2 ev l (qz 2 * s)%Qc v w) m = (m', Ok u') -> built m ->
     built m' /\ forall fd x, cs fd x m' = (cs fd x m + qsum (map (fun w => qz 2 * s * (x (v_label v) * x (v_label w))) v2))%Qc).
  { intros v m m' u' E' B'.
    apply (adding_loop (fun w => cadd2 ev l (qz 2 * s)%Qc v w) (fun fd x w => qz 2 * s * (x (v_label v) * x (v_label w)))%Qc v2) with (u := u'); auto.
    intros w ma mb ub Ea Ba. apply cadd2_step in Ea; auto. tauto. }
  adding_tac (adding_loop (fun v => mfor v2 (fun w => cadd2 ev l (qz 2 * s)%Qc v w))
     (fun fd x v => qsum (map (fun w => qz 2 * s * (x (v_label v) * x (v_label w))) v2))%Qc v1) (m3) (cm) (u) as [B4 V4].
  { intros; eapply CB; eauto. }
  split; auto. split; [|split].
  - eapply (loop_labels_distinct ev l q1 (fun _ => ret tt) un); [| | |apply built_new].
    + intros a m m' u' E'; inversion E'; subst. exists []; rewrite app_nil_r; auto.
    + intros a m m' u' E' B'; inversion E'; subst; auto.
    + instantiate (1 := u1). instantiate (1 := m1). rewrite <- E1.
      clear. generalize (new_model Qubo). induction un as [|v un IH]; intros m; simpl; auto.
      unfold bind, ret. destruct (cadd1 ev l q1 v m) as [m' [?|?]]; auto.
  - clear -E B3 CB. revert m3 E B3. induction v1 as [|a v1 IH]; intros m3 E B3 v w Hv Hw; simpl in *; [tauto|].
    apply bind_ok in E. destruct E as (m4 & u4 & E4 & E).
    destruct (CB _ _ _ _ E4 B3) as [B4 _]. destruct Hv as [<-|Hv]; [|eapply IH; eauto].
    clear -E4 B3 Hw. revert m3 E4 B3. induction v2 as [|b v2 IH]; intros m3 E4 B3; simpl in *; [tauto|].
    apply bind_ok in E4. destruct E4 as (m5 & u5 & E5 & E4).
    apply cadd2_step in E5; auto. destruct E5 as (B5 & NE & _). destruct Hw as [<-|Hw]; auto.
    eapply IH; eauto.
  - intros fd x. rewrite V4, V3, V2, V1. change (cs fd x (new_model Qubo)) with 0%Qc.
    assert (EC : qsum (map (fun v => qsum (map (fun w => qz 2 * s * (x (v_label v) * x (v_label w)))%Qc v2)) v1)
       = (qz 2 * s * cross x v1 v2)%Qc).
    { unfold cross. rewrite <- qsum_map_mul. apply qsum_map_ext. intros v _. rewrite qsum_map_mul. reflexivity. }
    rewrite EC, cross_hot, (qsum_map_mul q1 (fun v => x (v_label v)) un).
    fold (hot x un). unfold q1, q2. ring.
Qed.

(** ** Energies *)
Lemma built_energy fd x m : built m -> energy fd x m = (- cs fd x m)%Qc.
Proof. intros B. rewrite energy_csum, (bl_off m B), value_num. unfold cs. ring. Qed.

Lemma to_set_spec acc l : NoDup acc -> NoDup (to_set acc l) /\ forall v, In v (to_set acc l) <-> In v acc \/ In v l.
Proof.
  revert acc; induction l as [|x l IH]; intros acc ND; simpl; [tauto|].
  destruct (mem x acc) eqn:E.
  - apply mem_in in E. destruct (IH acc ND) as [A B]. split; auto. intros v. rewrite B. intuition (subst; auto).
  - apply mem_nin in E. destruct (IH (acc ++ [x])) as [A B].
    + apply NoDup_snoc; auto.
    + split; auto. intros v. rewrite B, in_app_iff. simpl. tauto.
Qed.
Lemma to_set_disjoint acc l : NoDup acc -> NoDup l -> (forall v, In v acc -> ~ In v l) -> to_set acc l = acc ++ l.
Proof.
  revert acc; induction l as [|x l IH]; intros acc ND1 ND2 HD; simpl; [rewrite app_nil_r; auto|].
  inversion ND2; subst. destruct (mem x acc) eqn:E.
  - apply mem_in in E. exfalso; apply (HD x); simpl; auto.
  - apply mem_nin in E. rewrite IH; auto.
    + rewrite <- app_assoc; auto.
    + apply NoDup_snoc; auto.
    + intros v HI. apply in_app_iff in HI. simpl in HI. intros HV. destruct HI as [HI|[->|[]]].
      * apply (HD v HI); simpl; auto.
      * contradiction.
Qed.

Lemma hot_app x a b : hot x (a ++ b) = (hot x a + hot x b)%Qc.
Proof. unfold hot. rewrite map_app, qsum_app; auto. Qed.
Lemma hot_perm x a b : Permutation a b -> hot x a = hot x b.
Proof. intros HP. unfold hot. apply qsum_perm. apply Permutation_map; auto. Qed.


Lemma nhot_energy ev vs n l s cm u fd x : to_model ev (NHot vs n l s) = (cm, Ok u) -> binary x ->
  energy fd x cm = penalty x (NHot vs n l s).
Proof.
  intros E HB. destruct (nhot_built _ _ _ _ _ _ _ E) as (B & ND & V).
  rewrite (built_energy _ _ _ B), V. simpl.
  pose proof (hot_squared x vs ND) as HS. rewrite (squares_binary x vs HB) in HS.
  set (h := hot x vs) in *. set (p := pairs x vs) in *.
  assert (HP : (qz 2 * p = h * h - h)%Qc) by (rewrite HS; ring).
  transitivity (s * (h - qz 2 * qz n * h + qz 2 * p))%Qc; [ring|]. rewrite HP, qc2. ring.
Qed.
Lemma zero_one_energy ev vs l s cm u fd x : to_model ev (ZeroOrOne vs l s) = (cm, Ok u) -> binary x ->
  NoDup (map v_label vs) -> energy fd x cm = penalty x (ZeroOrOne vs l s).
Proof.
  intros E HB ND. destruct (zero_one_built _ _ _ _ _ _ E) as (B & V).
  rewrite (built_energy _ _ _ B), V. simpl.
  pose proof (hot_squared x vs ND) as HS. rewrite (squares_binary x vs HB) in HS.
  set (h := hot x vs) in *. set (p := pairs x vs) in *.
  assert (HP : (qz 2 * p = h * h - h)%Qc) by (rewrite HS; ring).
  transitivity (s * (qz 2 * p))%Qc; [ring|]. rewrite HP. ring.
Qed.
Lemma equality_energy ev un v1 v2 l s cm u fd x : equality_model ev un v1 v2 l s = (cm, Ok u) -> binary x ->
  NoDup v1 -> NoDup v2 -> Permutation un (set_union v1 v2) ->
  energy fd x cm = penalty x (Equality v1 v2 l s).
Proof.
  intros E HB N1 N2 HP. destruct (equality_built _ _ _ _ _ _ _ _ E) as (B & ND & HD & V).
  rewrite (built_energy _ _ _ B), V. simpl.
  assert (EU : set_union v1 v2 = v1 ++ v2).
  { apply to_set_disjoint; auto. intros v Hv Hw. apply (HD v v Hv Hw); auto. }
  rewrite EU in HP.
  assert (NDU : NoDup (map v_label (v1 ++ v2))).
  { eapply Permutation_NoDup; [|exact ND]. apply Permutation_map; auto. }
  rewrite map_app in NDU. apply NoDup_app_iff in NDU. destruct NDU as (D1 & D2 & _).
  rewrite (hot_perm x _ _ HP), hot_app.
  pose proof (hot_squared x v1 D1) as H1. rewrite (squares_binary x v1 HB) in H1.
  pose proof (hot_squared x v2 D2) as H2. rewrite (squares_binary x v2 HB) in H2.
  set (h1 := hot x v1) in *. set (h2 := hot x v2) in *.
  set (p1 := pairs x v1) in *. set (p2 := pairs x v2) in *.
  transitivity (s * ((h1 + qz 2 * p1) + (h2 + qz 2 * p2) - qz 2 * (h1 * h2)))%Qc; [ring|].
  rewrite <- H1, <- H2, qc2. ring.
Qed.

Lemma to_model_energy ev c cm u fd x : to_model ev c = (cm, Ok u) -> constr_ok c -> binary x ->
  energy fd x cm = penalty x c.
Proof.
  intros E HC HB. destruct c as [vs n l s|vs l s|v1 v2 l s].
  - eapply nhot_energy; eauto.
  - eapply zero_one_energy; eauto. apply HC.
  - destruct HC. eapply (equality_energy ev (set_union v1 v2)); eauto.
Qed.
Lemma to_model_built ev c cm u : to_model ev c = (cm, Ok u) -> built cm.
Proof.
  intros E. destruct c as [vs n l s|vs l s|v1 v2 l s].
  - eapply nhot_built; eauto.
  - eapply zero_one_built; eauto.
  - eapply (equality_built ev (set_union v1 v2)); eauto.
Qed.


Definition nm1 (l : string) (v : var) : string := (v_label v +++ " (" +++ l +++ ")")%string.
Definition nm2 (l : string) (v w : var) : string := (v_label v +++ "*" +++ v_label w +++ " (" +++ l +++ ")")%string.
Lemma nm1_inj l v w : nm1 l v = nm1 l w -> v_label v = v_label w.
Proof. unfold nm1. apply append_inj_r. Qed.
Lemma nm2_inj l v w v' w' : has_char "*"%char (v_label v) = false -> has_char "*"%char (v_label v') = false ->
  nm2 l v w = nm2 l v' w' -> v_label v = v_label v' /\ v_label w = v_label w'.
Proof.
  intros H1 H2 E. unfold nm2 in E.
  apply (split_first_sep "*"%char) in E; auto. destruct E as [E1 E2]. apply append_inj_r in E2. auto.
Qed.
Lemma nm12 l v a b : has_char "*"%char (v_label v) = false -> nm1 l v <> nm2 l a b.
Proof.
  intros HV E. unfold nm1, nm2 in E.
  assert (E' : ((v_label v) +++ (" (" +++ l +++ ")") = (v_label a +++ "*" +++ v_label b) +++ (" (" +++ l +++ ")"))%string).
  { rewrite E. rewrite !append_assoc_s. reflexivity. }
  apply append_inj_r in E'. rewrite E', has_char_app in HV. simpl in HV.
  rewrite orb_true_r in HV. discriminate.
Qed.
Lemma nm1_ne l v : nm1 l v <> ""%string.
Proof. intros E. apply (f_equal String.length) in E. unfold nm1 in E. rewrite !length_append_s in E. simpl in E. lia. Qed.
Lemma nm2_ne l v w : nm2 l v w <> ""%string.
Proof. intros E. apply (f_equal String.length) in E. unfold nm2 in E. rewrite !length_append_s in E. simpl in E. lia. Qed.

Lemma cadd1_ok ev l q v m : built m -> ~ In (nm1 l v) (names m) ->
  exists m', cadd1 ev l q v m = (m', Ok tt) /\ built m' /\ names m' = names m ++ [nm1 l v].
Proof.
  intros B HN. destruct (add_built_ok ev (TVar v) (mkInfo (I1 v) (K1 (v_label v)) (v_label v)) (nm1 l v) q m)
    as (m' & E & R & B'); auto using nm1_ne.
  exists m'. split; auto. split; auto. unfold names. rewrite R, map_app. auto.
Qed.
Lemma cadd2_ok ev l q v w m : built m -> v_label v <> v_label w -> ~ In (nm2 l v w) (names m) ->
  exists m', cadd2 ev l q v w m = (m', Ok tt) /\ built m' /\ names m' = names m ++ [nm2 l v w].
Proof.
  intros B NE HN.
  destruct (interaction_info (TTuple [EVar v; EVar w])) as [inf|e] eqn:EI.
  2:{ simpl in EI. destruct (String.eqb_spec (v_label v) (v_label w)); [contradiction|].
      destruct (String.ltb (v_label v) (v_label w)); discriminate. }
  destruct (add_built_ok ev (TTuple [EVar v; EVar w]) inf (nm2 l v w) q m)
    as (m' & E & R & B'); auto using nm2_ne.
  exists m'. split; auto. split; auto. unfold names. rewrite R, map_app. auto.
Qed.

(** A loop succeeds when each step succeeds on models without the names it adds. *)
Lemma fresh_loop {A} (f : A -> LM unit) (ns : A -> list string) l :
  (forall a m, In a l -> built m -> (forall x, In x (ns a) -> ~ In x (names m)) ->
     exists m', f a m = (m', Ok tt) /\ built m' /\ names m' = names m ++ ns a) ->
  forall m, built m -> NoDup (flat_map ns l) -> (forall x, In x (flat_map ns l) -> ~ In x (names m)) ->
  exists m', mfor l f m = (m', Ok tt) /\ built m' /\ names m' = names m ++ flat_map ns l.
Proof.
  induction l as [|a l IH]; intros HF m B ND HN; simpl in *.
  - exists m. rewrite app_nil_r. split; [reflexivity|auto].
  - apply NoDup_app_iff in ND. destruct ND as (D1 & D2 & D3).
    destruct (HF a m (or_introl eq_refl) B) as (m1 & E1 & B1 & N1).
    { intros x Hx; apply HN. apply in_app_iff; auto. }
    destruct (IH (fun b m Hb => HF b m (or_intror Hb)) m1 B1 D2) as (m2 & E2 & B2 & N2).
    { intros x Hx. rewrite N1, in_app_iff. intros [Hy|Hy].
      - apply (HN x); auto. apply in_app_iff; auto.
      - apply (D3 x); auto. }
    exists m2. unfold bind. rewrite E1. split; auto. split; auto. rewrite N2, N1, app_assoc; auto.
Qed.

Definition pair_names l (vs : list var) (v : var) : list string :=
  flat_map (fun w => if String.ltb (v_label v) (v_label w) then [nm2 l v w] else []) vs.

Lemma NoDup_flat_map {A B} (f : A -> list B) l :
  NoDup l -> (forall a, In a l -> NoDup (f a)) ->
  (forall a b x, In a l -> In b l -> In x (f a) -> In x (f b) -> a = b) -> NoDup (flat_map f l).
Proof.
  induction l as [|a l IH]; simpl; intros ND HF HD; [constructor|].
  inversion ND; subst. apply NoDup_app_iff. split; [auto|]. split; [apply IH; auto; intros; eapply HD; eauto|].
  intros x Hx Hy. apply in_flat_map in Hy. destruct Hy as (b & Hb & Hy).
  assert (a = b) by (eapply HD; eauto). subst. contradiction.
Qed.
Lemma in_pair_names l vs v x : In x (pair_names l vs v) <->
  exists w, In w vs /\ String.ltb (v_label v) (v_label w) = true /\ x = nm2 l v w.
Proof.
  unfold pair_names. rewrite in_flat_map. split.
  - intros (w & Hw & Hx). destruct (String.ltb _ _) eqn:E; simpl in Hx; [|tauto]. destruct Hx as [<-|[]]. eauto.
  - intros (w & Hw & E & ->). exists w. rewrite E. simpl. auto.
Qed.
Lemma label_inj_of_nodup (vs : list var) a b : NoDup (map v_label vs) -> In a vs -> In b vs ->
  v_label a = v_label b -> a = b.
Proof.
  induction vs as [|x vs IH]; simpl; intros ND Ha Hb E; [tauto|]. inversion ND; subst.
  destruct Ha as [<-|Ha], Hb as [<-|Hb]; auto.
  - exfalso; apply H1. rewrite E. apply in_map; auto.
  - exfalso; apply H1. rewrite <- E. apply in_map; auto.
Qed.
Lemma starfree_in vs v : starfree vs -> In v vs -> has_char "*"%char (v_label v) = false.
Proof. intros S HI. unfold starfree in S. rewrite Forall_forall in S. apply S; auto. Qed.

Lemma pair_names_nodup1 l vs v : NoDup (map v_label vs) -> starfree vs -> In v vs -> NoDup (pair_names l vs v).
Proof.
  intros ND SF HV. apply NoDup_flat_map.
  - eapply NoDup_map_inv; eauto.
  - intros a Ha. destruct (String.ltb _ _); repeat constructor. simpl; tauto.
  - intros a b x Ha Hb Hx Hy. destruct (String.ltb (v_label v) (v_label a)); simpl in Hx; [|tauto].
    destruct (String.ltb (v_label v) (v_label b)); simpl in Hy; [|tauto].
    destruct Hx as [<-|[]], Hy as [E|[]]. apply nm2_inj in E; eauto using starfree_in.
    destruct E as [_ E]. symmetry in E. eapply label_inj_of_nodup; eauto.
Qed.
Lemma pair_names_nodup l vs : NoDup (map v_label vs) -> starfree vs -> NoDup (flat_map (pair_names l vs) vs).
Proof.
  intros ND SF. apply NoDup_flat_map.
  - eapply NoDup_map_inv; eauto.
  - intros; apply pair_names_nodup1; auto.
  - intros a b x Ha Hb Hx Hy. apply in_pair_names in Hx, Hy.
    destruct Hx as (w & Hw & _ & ->), Hy as (w' & Hw' & _ & E).
    apply nm2_inj in E; eauto using starfree_in. destruct E as [E _]. eapply label_inj_of_nodup; eauto.
Qed.
Lemma cadd_pairs_of_ok ev l q vs v m : NoDup (map v_label vs) -> starfree vs -> In v vs -> built m ->
  (forall x, In x (pair_names l vs v) -> ~ In x (names m)) ->
  exists m', cadd_pairs_of ev l q vs v m = (m', Ok tt) /\ built m' /\ names m' = names m ++ pair_names l vs v.
Proof.
  intros ND SF HV B HN. unfold cadd_pairs_of.
  apply (fresh_loop (fun w => if String.ltb (v_label v) (v_label w) then cadd2 ev l q v w else ret tt)
           (fun w => if String.ltb (v_label v) (v_label w) then [nm2 l v w] else [])); auto.
  - intros w m1 _ B1 H1. destruct (String.ltb (v_label v) (v_label w)) eqn:EL.
    + apply cadd2_ok; auto. intros E. rewrite E, ltb_irrefl in EL; discriminate.
      apply H1; simpl; auto.
    + exists m1. rewrite app_nil_r. split; [reflexivity|auto].
  - apply pair_names_nodup1; auto.
Qed.

Lemma to_model_nhot_succeeds ev vs n l s : NoDup (map v_label vs) -> starfree vs ->
  exists cm, to_model ev (NHot vs n l s) = (cm, Ok tt).
Proof.
  intros ND SF. simpl. set (q1 := (- (1) * s * _)%Qc). set (q2 := (- qz 2 * s)%Qc).
  assert (HL : forall us, incl us vs -> NoDup us -> forall m, built m ->
     (forall v, In v us -> ~ In (nm1 l v) (names m) /\ forall x, In x (pair_names l vs v) -> ~ In x (names m)) ->
     exists m', mfor us (fun v => cadd1 ev l q1 v ;;; cadd_pairs_of ev l q2 vs v) m = (m', Ok tt)).
  { induction us as [|v us IH]; intros HI NU m B HF; simpl.
    - eexists; reflexivity.
    - inversion NU; subst. assert (HV : In v vs) by (apply HI; simpl; auto).
      destruct (HF v (or_introl eq_refl)) as [F1 F2].
      destruct (cadd1_ok ev l q1 v m B F1) as (m1 & E1 & B1 & N1).
      destruct (cadd_pairs_of_ok ev l q2 vs v m1 ND SF HV B1) as (m2 & E2 & B2 & N2).
      { intros x Hx. rewrite N1, in_app_iff. intros [Hy|[<-|[]]].
        - apply (F2 x Hx Hy).
        - apply in_pair_names in Hx. destruct Hx as (w & _ & _ & E). eapply nm12; [|exact E].
          eapply starfree_in; eauto. }
      destruct (IH (fun a Ha => HI a (or_intror Ha)) H2 m2 B2) as (m3 & E3).
      { intros w Hw. assert (HWv : In w vs) by (apply HI; simpl; auto).
        destruct (HF w (or_intror Hw)) as [G1 G2].
        assert (NEL : v_label w <> v_label v).
        { intros E. apply H1. rewrite <- (label_inj_of_nodup vs w v); auto. }
        split.
        - rewrite N2, N1, !in_app_iff. intros [[Hy|[E|[]]]|Hy].
          + auto.
          + apply nm1_inj in E. congruence.
          + apply in_pair_names in Hy. destruct Hy as (z & _ & _ & E). eapply nm12; [|exact E]. eapply starfree_in; eauto.
        - intros x Hx. rewrite N2, N1, !in_app_iff. intros [[Hy|[<-|[]]]|Hy].
          + apply (G2 x Hx Hy).
          + apply in_pair_names in Hx. destruct Hx as (z & _ & _ & E). eapply nm12; [|exact E]. eapply starfree_in; eauto.
          + apply in_pair_names in Hx, Hy. destruct Hx as (z & _ & _ & ->), Hy as (z' & _ & _ & E).
            apply nm2_inj in E; eauto using starfree_in. tauto. }
      exists m3. unfold bind. rewrite E1, E2. exact E3. }
  apply HL; auto using built_new, incl_refl. eapply NoDup_map_inv; eauto.
Qed.
Lemma to_model_zero_one_succeeds ev vs l s : NoDup (map v_label vs) -> starfree vs ->
  exists cm, to_model ev (ZeroOrOne vs l s) = (cm, Ok tt).
Proof.
  intros ND SF. simpl. set (q2 := (- qz 2 * s)%Qc).
  assert (HL : forall us, incl us vs -> NoDup us -> forall m, built m ->
     (forall v, In v us -> forall x, In x (pair_names l vs v) -> ~ In x (names m)) ->
     exists m', mfor us (fun v => cadd_pairs_of ev l q2 vs v) m = (m', Ok tt)).
  { induction us as [|v us IH]; intros HI NU m1 B1 HF; simpl.
    - eexists; reflexivity.
    - inversion NU; subst. assert (HV : In v vs) by (apply HI; simpl; auto).
      pose proof (HF v (or_introl eq_refl)) as F2.
      destruct (cadd_pairs_of_ok ev l q2 vs v m1 ND SF HV B1 F2) as (m2 & E2 & B2 & N2).
      destruct (IH (fun a Ha => HI a (or_intror Ha)) H2 m2 B2) as (m3 & E3).
      { intros w Hw. assert (HWv : In w vs) by (apply HI; simpl; auto).
        pose proof (HF w (or_intror Hw)) as G2.
        assert (NEL : v_label w <> v_label v).
        { intros E. apply H1. rewrite <- (label_inj_of_nodup vs w v); auto. }
        intros x Hx. rewrite N2, !in_app_iff. intros [Hy|Hy].
        + apply (G2 x Hx Hy).
        + apply in_pair_names in Hx, Hy. destruct Hx as (z & _ & _ & ->), Hy as (z' & _ & _ & E).
          apply nm2_inj in E; eauto using starfree_in. tauto. }
      exists m3. unfold bind. rewrite E2. exact E3. }
  apply HL; auto using built_new, incl_refl. eapply NoDup_map_inv; eauto.
Qed.

Definition cross_names l (v2 : list var) (v : var) : list string := map (nm2 l v) v2.
Lemma NoDup_map_inj {A B} (f : A -> B) l : (forall a b, In a l -> In b l -> f a = f b -> a = b) -> NoDup l -> NoDup (map f l).
Proof.
  induction l as [|a l IH]; simpl; intros HI ND; [constructor|]. inversion ND; subst. constructor.
  - intros HX. apply in_map_iff in HX. destruct HX as (b & E & Hb). apply H1.
    rewrite (HI a b); auto.
  - apply IH; auto.
Qed.

(** Each phase of Equality.to_model, as a list of added names. *)
Lemma pairs_phase ev l q vs m : NoDup (map v_label vs) -> starfree vs -> built m ->
  (forall x, In x (flat_map (pair_names l vs) vs) -> ~ In x (names m)) ->
  exists m', mfor vs (fun v => cadd_pairs_of ev l q vs v) m = (m', Ok tt) /\ built m' /\
    names m' = names m ++ flat_map (pair_names l vs) vs.
Proof.
  intros ND SF B HF. apply fresh_loop; auto.
  - intros a m1 Ha B1 H1. apply cadd_pairs_of_ok; auto.
  - apply pair_names_nodup; auto.
Qed.

Lemma equality_succeeds ev un v1 v2 l s :
  NoDup (map v_label un) -> (forall v, In v un <-> In v v1 \/ In v v2) -> starfree un ->
  NoDup (map v_label v1) -> NoDup (map v_label v2) ->
  (forall v w, In v v1 -> In w v2 -> v_label v <> v_label w) ->
  exists cm, equality_model ev un v1 v2 l s = (cm, Ok tt).
Proof.
  intros NU HU SU N1 N2 HD.
  assert (S1 : starfree v1). { apply Forall_forall. intros v Hv. apply (starfree_in un); auto. apply HU; auto. }
  assert (S2 : starfree v2). { apply Forall_forall. intros v Hv. apply (starfree_in un); auto. apply HU; auto. }
  unfold equality_model.
  destruct (fresh_loop (fun v => cadd1 ev l (- (1) * s)%Qc v) (fun v => [nm1 l v]) un) with (m := new_model Qubo) as (m1 & E1 & B1 & M1).
  - intros a m _ B H. apply cadd1_ok; auto. apply H; simpl; auto.
  - apply built_new.
  - assert (EM : flat_map (fun v => [nm1 l v]) un = map (nm1 l) un) by (clear; induction un; simpl; congruence).
    rewrite EM. apply NoDup_map_inj.
    + intros a b Ha Hb E. apply nm1_inj in E. apply (label_inj_of_nodup un); auto.
    + eapply NoDup_map_inv; eauto.
  - simpl; tauto.
  - simpl in M1.
    assert (F1 : forall v w, ~ In (nm2 l v w) (names m1)).
    { intros v w HX. rewrite M1 in HX. apply in_flat_map in HX. destruct HX as (z & Hz & [E|[]]).
      eapply nm12; [|exact E]. apply (starfree_in un); auto. }
    destruct (pairs_phase ev l (- qz 2 * s)%Qc v1 m1 N1 S1 B1) as (m2 & E2 & B2 & M2).
    { intros x Hx. apply in_flat_map in Hx. destruct Hx as (v & _ & Hx). apply in_pair_names in Hx.
      destruct Hx as (w & _ & _ & ->). apply F1. }
    destruct (pairs_phase ev l (- qz 2 * s)%Qc v2 m2 N2 S2 B2) as (m3 & E3 & B3 & M3).
    { intros x Hx. apply in_flat_map in Hx. destruct Hx as (v & Hv & Hx). apply in_pair_names in Hx.
      destruct Hx as (w & _ & _ & ->). rewrite M2, in_app_iff. intros [Hy|Hy]; [eapply F1; eauto|].
      apply in_flat_map in Hy. destruct Hy as (a & Ha & Hy). apply in_pair_names in Hy.
      destruct Hy as (b & _ & _ & E). apply nm2_inj in E; [|solve [apply (starfree_in v1); auto|apply (starfree_in v2); auto]..]. destruct E as [E _].
      apply (HD a v); auto. }
    destruct (fresh_loop (fun v => mfor v2 (fun w => cadd2 ev l (qz 2 * s)%Qc v w)) (cross_names l v2) v1) with (m := m3) as (m4 & E4 & B4 & M4); auto.
    + intros a m Ha B HF.
      destruct (fresh_loop (fun w => cadd2 ev l (qz 2 * s)%Qc a w) (fun w => [nm2 l a w]) v2) with (m := m) as (m5 & E5 & B5 & M5); [|exact B| | |].
      * intros w m6 Hw B6 H6. apply cadd2_ok; auto. apply H6; simpl; auto.
      * assert (EM : flat_map (fun w => [nm2 l a w]) v2 = map (nm2 l a) v2) by (clear; induction v2; simpl; congruence).
        rewrite EM. apply NoDup_map_inj.
        -- intros x y Hx Hy E. apply nm2_inj in E; [|solve [apply (starfree_in v1); auto|apply (starfree_in v2); auto]..]. destruct E as [_ E].
           apply (label_inj_of_nodup v2); auto.
        -- eapply NoDup_map_inv; eauto.
      * intros x Hx. apply in_flat_map in Hx. destruct Hx as (w & Hw & [<-|[]]). apply HF.
        unfold cross_names. apply in_map; auto.
      * exists m5. split; [exact E5|]. split; [exact B5|exact M5].
    + apply NoDup_flat_map.
      * eapply NoDup_map_inv; eauto.
      * intros a Ha. unfold cross_names. apply NoDup_map_inj.
        -- intros x y Hx Hy E. apply nm2_inj in E; [|solve [apply (starfree_in v1); auto|apply (starfree_in v2); auto]..]. destruct E as [_ E].
           apply (label_inj_of_nodup v2); auto.
        -- eapply NoDup_map_inv; eauto.
      * intros a b x Ha Hb Hx Hy. unfold cross_names in *. apply in_map_iff in Hx, Hy.
        destruct Hx as (w & <- & _), Hy as (w' & E & _). apply nm2_inj in E; [|solve [apply (starfree_in v1); auto|apply (starfree_in v2); auto]..].
        destruct E as [E _]. symmetry in E. apply (label_inj_of_nodup v1); auto.
    + intros x Hx. apply in_flat_map in Hx. destruct Hx as (v & Hv & Hx). unfold cross_names in Hx.
      apply in_map_iff in Hx. destruct Hx as (w & <- & Hw). rewrite M3, M2, !in_app_iff.
      intros [[Hy|Hy]|Hy]; [eapply F1; eauto| |].
      * apply in_flat_map in Hy. destruct Hy as (a & Ha & Hy). apply in_pair_names in Hy.
        destruct Hy as (b & Hb & _ & E). apply nm2_inj in E; [|solve [apply (starfree_in v1); auto|apply (starfree_in v2); auto]..]. destruct E as [_ E].
        apply (HD b w); auto.
      * apply in_flat_map in Hy. destruct Hy as (a & Ha & Hy). apply in_pair_names in Hy.
        destruct Hy as (b & Hb & _ & E). apply nm2_inj in E; [|solve [apply (starfree_in v1); auto|apply (starfree_in v2); auto]..]. destruct E as [E _].
        apply (HD v a); auto.
    + exists m4. unfold bind. rewrite E1, E2, E3. exact E4.
Qed.

Lemma to_model_equality_succeeds ev v1 v2 l s :
  NoDup (map v_label (v1 ++ v2)) -> starfree (v1 ++ v2) ->
  exists cm, to_model ev (Equality v1 v2 l s) = (cm, Ok tt).
Proof.
  intros ND SF. rewrite map_app in ND. pose proof ND as ND0. apply NoDup_app_iff in ND. destruct ND as (N1 & N2 & N3).
  assert (HD : forall v w, In v v1 -> In w v2 -> v_label v <> v_label w).
  { intros v w Hv Hw E. apply (N3 (v_label v)); [|rewrite E]; apply in_map; auto. }
  assert (EU : set_union v1 v2 = v1 ++ v2).
  { apply to_set_disjoint; [eapply NoDup_map_inv; eauto|eapply NoDup_map_inv; eauto|].
    intros v Hv Hw. apply (HD v v); auto. }
  change (to_model ev (Equality v1 v2 l s)) with (equality_model ev (set_union v1 v2) v1 v2 l s).
  rewrite EU. apply equality_succeeds; auto.
  - rewrite map_app; auto.
  - intros v. apply in_app_iff.
Qed.

Lemma to_model_succeeds ev c : NoDup (all_labels_of c) ->
  Forall (fun l => has_char "*"%char l = false) (all_labels_of c) ->
  exists cm, to_model ev c = (cm, Ok tt).
Proof.
  intros ND SF. destruct c as [vs n l s|vs l s|v1 v2 l s]; simpl in ND, SF; rewrite Forall_map in SF.
  - apply to_model_nhot_succeeds; auto.
  - apply to_model_zero_one_succeeds; auto.
  - apply to_model_equality_succeeds; auto.
Qed.
