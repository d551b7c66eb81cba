(** * PropsInteractions: C02-C08, C35, C36 - adding, updating, removing. *)
From Verif Require Import PyBase PyLemmas Constraint LogicalModel Spec LogicalProofs EnergyProofs ConvertProofs
  ConstraintProofs MergeProofs PhysicalProofs ToPhysicalProofs InteractionProofs Samples PropsPhysical.
Open Scope list_scope.

(** ** Targets *)
Lemma denotes_info t i dn : denotes t i dn <-> interaction_info t = Ok (mkInfo i (inter_key i) dn).
Proof.
  split.
  - intros H; inversion H; subst; simpl; auto.
    + destruct (String.eqb (v_label x) (v_label y)) eqn:E; [apply String.eqb_eq in E; rewrite E, ltb_irrefl in H0; discriminate|].
      rewrite H0. reflexivity.
    + destruct (String.eqb (v_label x) (v_label y)) eqn:E; [apply String.eqb_eq in E; rewrite E, ltb_irrefl in H0; discriminate|].
      rewrite (ltb_asym _ _ H0). reflexivity.
  - destruct t as [|v|[|a [|b [|? ?]]]|]; simpl; try discriminate.
    + intros H; inversion H; subst. constructor.
    + destruct a, b; discriminate ||
      destruct (String.eqb (v_label v) (v_label v0)) eqn:E; [discriminate|]. apply String.eqb_neq in E.
      destruct (String.ltb (v_label v) (v_label v0)) eqn:L; intros H; inversion H; subst; constructor; auto.
      rewrite (ltb_total _ _ E) in L. apply negb_false_iff in L; auto.
Qed.
Lemma info_denotes t inf : interaction_info t = Ok inf -> denotes t (in_inter inf) (in_name inf) /\ in_key inf = inter_key (in_inter inf).
Proof.
  intros H. assert (HK : in_key inf = inter_key (in_inter inf)).
  { destruct (interaction_info_key_ok t inf H ""%string (CNum 0) (CNum 0) 0%Qc) as [A _]. exact A. }
  split; auto. apply denotes_info. rewrite H. f_equal. destruct inf; simpl in *; subst; auto.
Qed.
Lemma denotes_truthy t i dn : denotes t i dn -> t_truthy t = true.
Proof. intros H; inversion H; auto. Qed.
Lemma add_name_spec n dn nm : add_name n dn = Ok nm <-> stored_name n dn nm.
Proof.
  unfold add_name, stored_name. destruct n as [s| |b]; simpl.
  - destruct (String.eqb s "") eqn:E; simpl.
    + apply String.eqb_eq in E; subst. split; [intros H; inversion H; auto|]. intros [[_ ->]|[H N]]; auto. inversion H; subst; contradiction.
    + apply String.eqb_neq in E. split; [intros H; inversion H; subst; auto|]. intros [[? _]|[H _]]; congruence.
  - split; [discriminate|]. intros [[? _]|[? _]]; discriminate.
  - destruct b; simpl; (split; [intros H; inversion H; subst; auto; try discriminate|]).
    + intros [[? _]|[? _]]; discriminate.
    + intros [[_ ->]|[? _]]; [auto|discriminate].
Qed.
Lemma internal_name_spec t n m nm : internal_name t n m = (m, Ok nm) <-> refers t n nm /\ In nm (names m).
Proof.
  unfold internal_name, refers. cbv [bind guard lift get ret raise].
  split.
  - intros E. destruct (t_truthy t || n_truthy n) eqn:E1; [|discriminate].
    destruct (negb (t_truthy t && n_truthy n)) eqn:E2; [|discriminate].
    unfold opt_info in E. destruct (t_is_none t) eqn:TN.
    + destruct t; try discriminate. simpl in *. rewrite E1 in E. destruct n as [s| |b]; try discriminate.
      destruct (has_name m s) eqn:HS; [|discriminate]. inversion E; subst. split; [right; repeat split; auto|apply mem_in; auto].
      intros ->; discriminate.
    + destruct (interaction_info t) as [inf|] eqn:EI; [|discriminate].
      destruct (n_truthy n) eqn:EN.
      * exfalso. destruct (t_truthy t) eqn:ET; [discriminate|].
        destruct (info_denotes _ _ EI) as [HD _]. rewrite (denotes_truthy _ _ _ HD) in ET. discriminate.
      * destruct (has_name m (in_name inf)) eqn:HS; [|discriminate]. inversion E; subst.
        split; [left; split; auto; exists (in_inter inf); apply info_denotes; auto|apply mem_in; auto].
  - intros [[[HN [i HD]]|(HT & HE & HN)] HI].
    + rewrite (denotes_truthy _ _ _ HD), HN. simpl.
      assert (EO : opt_info t = Ok (Some (mkInfo i (inter_key i) nm))).
      { unfold opt_info. rewrite (proj1 (denotes_info _ _ _) HD). inversion HD; reflexivity. }
      rewrite EO. simpl. apply mem_in in HI. unfold has_name. rewrite HI. reflexivity.
    + subst. simpl. apply String.eqb_neq in HN. rewrite HN. simpl. apply mem_in in HI. unfold has_name. rewrite HI. reflexivity.
Qed.

(** ** C02 *)

Theorem C02_add_atomic : forall ev t n co sc a ts m m' e,
  aligned m -> attrs_wf a ->
  add_interaction ev t n co sc a ts m = (m', Err e) -> m' = m.
Proof.
  intros ev t n co sc a ts m m' e HA HW E.
  destruct (add_split ev t n co sc a ts m) as [(e' & E' & _)|(c&s&q&i&nm&d&[A1 A2 A3 A4 A5 A6 A7 A8]&E')].
  - rewrite E in E'; inversion E'; auto.
  - exfalso. destruct (add_body_aligned nm i c s q d m HA) as (z & Ez & _); [|congruence].
    destruct a; simpl in A7; inversion A7; subst; [constructor|]. apply (HW d); auto.
Qed.
Theorem C02_update_atomic : forall ev t n co sc a ts m m' e,
  aligned m -> attrs_wf a ->
  update_interaction ev t n co sc a ts m = (m', Err e) -> m' = m.
Proof.
  intros ev t n co sc a ts m m' e HA HW E.
  destruct (update_split ev t n co sc a ts m) as [(e' & E')|(c&s&d&q&[U1 U2 U3 U4]&[(nm&l1&x&l2&_&ER&HX&HN&HR&E')|(_&_&E')])].
  - rewrite E in E'; inversion E'; auto.
  - exfalso. subst nm. destruct (update_at_rect m l1 x l2 c s d q (aligned_rect _ HA) ER HN) as (z & Ez & _); [|congruence].
    intros d0 ->. destruct a; simpl in U3; inversion U3; subst. apply HW; auto.
  - rewrite E in E'. unfold as_add in E'. symmetry in E'. eapply C02_add_atomic; [exact HA| |exact E']. intros d0; discriminate.
Qed.
Theorem C02_remove_atomic : forall t n m m' e, remove_interaction t n m = (m', Err e) -> m' = m.
Proof. intros t n m m' e E. apply remove_cases in E. destruct E as [(e' & _ & ->)|[HX _]]; [auto|discriminate]. Qed.
Example C02_hyps : exists m', aligned ising_model /\
  add_interaction env0 (TVar (spn "x" 0)) (NStr "gone") (num 1) (num 1) (AtDict [("weight", ANan); ("new", ANan)]%string) TsNone ising_model = (m', Err ValueError) /\
  attrs_wf (AtDict [("weight", ANan); ("new", ANan)]%string) /\
  update_interaction env0 TNone (NStr "gone") None None AtNone TsNone ising_model = (m', Err ValueError).
Proof.
  exists ising_model. split; [apply ising_al|]. split; [reflexivity|]. split; [|reflexivity].
  intros d E; inversion E; subst. apply nodupb_ok; reflexivity.
Qed.

(** ** C03 *)

Definition ts_given (ev : env) (ts : tsarg) : Qc := match ts with TsNum q => q | _ => e_now ev end.

Lemma given_attr a d k : check_attrs a = Ok d -> NoDup (dkeys d) ->
  match given a k with
  | Some v => exists k', k = attr_key k' /\ dget k' d = Some v
  | None => forall k', In k' (dkeys d) -> k <> attr_key k' end.
Proof.
  intros E ND. destruct a; simpl in E; inversion E; subst; simpl; [intros k' []|].
  destruct (find _ d) as [[k' v]|] eqn:EF.
  - apply find_some in EF. destruct EF as [HI HE]. apply String.eqb_eq in HE. exists k'. split; auto.
    apply in_dget; auto.
  - intros k' HI. apply in_map_iff in HI. destruct HI as ([k2 v] & <- & HI).
    pose proof (find_none _ _ EF _ HI) as HX. simpl in HX. apply String.eqb_neq in HX. exact HX.
Qed.
(** When it succeeds: exactly when the arguments are well-typed and the name is
    not in use (names of removed interactions are in use). *)
Theorem C03_succeeds_iff : forall ev t n co sc a ts m, aligned m -> attrs_wf a ->
  (exists m', add_interaction ev t n co sc a ts m = (m', Ok tt)) <->
  (exists c s i dn nm, co = AC c /\ sc = AC s /\ a <> AtBad /\ ts <> TsBad /\
     denotes t i dn /\ stored_name n dn nm /\ ~ In nm (names m)).
Proof.
  intros ev t n co sc a ts m HA HW. split.
  - intros [m' E]. destruct (add_ok_core _ _ _ _ _ _ _ _ _ _ E) as (c&s&q&i&nm&d&[A1 A2 A3 A4 A5 A6 A7 A8]&_).
    exists c, s, (in_inter i), (in_name i), nm. do 2 (split; [auto|]).
    split; [intros ->; discriminate|]. split; [intros ->; discriminate|].
    split; [apply info_denotes; auto|]. split; [apply add_name_spec; auto|auto].
  - intros (c & s & i & dn & nm & -> & -> & NA & NT & HD & HS & HN).
    destruct (add_split ev t n (AC c) (AC s) a ts m) as [(e' & E' & HX)|(c'&s'&q&inf&nm'&d&[A1 A2 A3 A4 A5 A6 A7 A8]&E')].
    + exfalso. apply (HX c s (ts_given ev ts) (mkInfo i (inter_key i) dn) nm (match a with AtDict d => d | _ => [] end)).
      constructor; auto.
      * eapply denotes_truthy; eauto.
      * destruct ts; simpl; auto. contradiction.
      * apply denotes_info; auto.
      * apply add_name_spec; auto.
      * destruct a; simpl; auto. contradiction.
    + destruct (add_body_aligned nm' inf c' s' q d m HA) as (z & Ez & _); [|eexists; rewrite E'; eauto].
      destruct a; simpl in A7; inversion A7; subst; [constructor|]. apply (HW d); auto.
Qed.
(** What it does when it succeeds. *)
Theorem C03_effect : forall ev t n co sc a ts m m', aligned m -> attrs_wf a ->
  add_interaction ev t n co sc a ts m = (m', Ok tt) ->
  exists c s i dn nm, co = AC c /\ sc = AC s /\ denotes t i dn /\ stored_name n dn nm /\ ~ In nm (names m) /\
    m_rows m' = m_rows m ++ [mkRow nm (inter_key i) i c s (Some (ts_given ev ts)) true false] /\
    same_rest m m' /\ aligned m' /\
    (forall j k, j < length (m_rows m) -> attr_val m' j k = attr_val m j k) /\
    (forall k, attr_val m' (length (m_rows m)) k = match given a k with Some v => v | None => ANan end).
Proof.
  intros ev t n co sc a ts m m' HA HW E.
  destruct (add_split ev t n co sc a ts m) as [(e' & E' & HX)|(c&s&q&inf&nm&d&[A1 A2 A3 A4 A5 A6 A7 A8]&E')]; [congruence|].
  assert (ND : NoDup (dkeys d)).
  { destruct a; simpl in A7; inversion A7; subst; [constructor|]. apply (HW d); auto. }
  destruct (add_body_aligned nm inf c s q d m HA ND) as (z & Ez & C & AL & LZ & V1 & V2 & V3).
  rewrite E', Ez in E. inversion E; subst z. destruct (info_denotes _ _ A5) as [HD HK].
  exists c, s, (in_inter inf), (in_name inf), nm. do 2 (split; [auto|]). split; [auto|]. split; [apply add_name_spec; auto|].
  split; [auto|]. split.
  { rewrite (core_rows _ _ C). simpl. unfold new_row. rewrite HK. f_equal. f_equal. f_equal.
    unfold ts_now in A4. destruct ts; inversion A4; reflexivity. }
  split; [unfold core in C; simpl in C; inversion C; repeat split; auto|]. split; [auto|].
  destruct HA as (HL & _). rewrite <- HL. split; [intros j k Hj; apply V1; lia|].
  intros k. pose proof (given_attr a d k A7 ND) as HG. destruct (given a k) as [v|].
  - destruct HG as (k' & -> & HG). apply V2; auto.
  - apply V3; auto.
Qed.
Example C03_hyps : let a := AtDict [("new", ANum (qz 1))]%string in
  aligned ising_model /\ attrs_wf a /\
  exists m', add_interaction env0 (TTuple [EVar (spn "x" 2); EVar (spn "x" 0)]) (NStr "") (AC (CPh "mu")) (num 2) a TsNone ising_model = (m', Ok tt) /\
    exists r, nth_error (m_rows m') 5 = Some r /\ r_name r = "x[0]*x[2]"%string.
Proof.
  split; [apply ising_al|]. split; [intros d E; inversion E; apply nodupb_ok; reflexivity|].
  eexists. split; [apply okb_ok; reflexivity|].
  eexists. split; [reflexivity|reflexivity].
Qed.

(** ** C04 *)

(** The interaction [x] after an update that passed [co], [sc], timestamp [ts]. *)
Definition updated (co sc : option carg) (ts : tsarg) (x x' : row) : Prop :=
  r_name x' = r_name x /\ r_key x' = r_key x /\ r_inter x' = r_inter x /\ r_removed x' = r_removed x /\ r_dirty x' = true /\
  (match co with None => r_coef x' = r_coef x | Some a => exists q, a = AC (CNum q) /\ r_coef x' = CNum q end) /\
  (match sc with None => r_scale x' = r_scale x | Some a => exists q, a = AC (CNum q) /\ r_scale x' = CNum q end) /\
  r_ts x' = (match ts with TsNum q => Some q | _ => None end).
Lemma check_opt_num_inv co c : check_opt_num co = Ok c ->
  match co with None => c = None | Some a => exists q, a = AC (CNum q) /\ c = Some (CNum q) end.
Proof.
  destruct co as [a|]; simpl; [|congruence]. destruct a as [[q| | |]|]; simpl; try discriminate.
  intros H; inversion H; eauto.
Qed.
Lemma upd_fields_updated co sc a ts c s d q x : upd_args co sc a ts c s d q -> updated co sc ts x (upd_fields c s q x).
Proof.
  intros [U1 U2 U3 U4]. apply check_opt_num_inv in U1, U2.
  assert (HQ : q = match ts with TsNum q => Some q | _ => None end) by (destruct ts; simpl in U4; inversion U4; auto).
  unfold updated, upd_fields. destruct co as [ca|], sc as [sa|]; repeat match goal with H : exists _, _ |- _ => destruct H as (? & -> & ->) | H : _ = None |- _ => rewrite H end;
    simpl; repeat split; eauto.
Qed.
(** An update of an existing interaction changes that interaction only, and of
    it only what was asked. *)
Theorem C04_update : forall ev t n co sc a ts m m' nm, aligned m -> attrs_wf a ->
  refers t n nm -> In nm (names m) ->
  update_interaction ev t n co sc a ts m = (m', Ok tt) ->
  exists l1 x x' l2, m_rows m = l1 ++ x :: l2 /\ r_name x = nm /\ ~ In nm (map r_name l1) /\ active x /\
    m_rows m' = l1 ++ x' :: l2 /\ updated co sc ts x x' /\ same_rest m m' /\ m_attrs m' = m_attrs m /\
    (forall j k, j <> length l1 -> attr_val m' j k = attr_val m j k) /\
    (forall k, attr_val m' (length l1) k = match given a k with Some v => v | None => attr_val m (length l1) k end).
Proof.
  intros ev t n co sc a ts m m' nm HA HW HRef HIn E.
  pose proof (proj2 (internal_name_spec t n m nm) (conj HRef HIn)) as EIN.
  destruct (update_split ev t n co sc a ts m) as [(e' & E')|(c&s&d&q&U&[(nm'&l1&x&l2&EI&ER&HX&HN&HR&E')|(NT&(inf&EI&HH)&E')])].
  - congruence.
  - rewrite EIN in EI. inversion EI; subst nm'. pose proof U as [U1 U2 U3 U4].
    assert (ND : forall d0, d = Some d0 -> NoDup (dkeys d0)).
    { intros d0 ->. destruct a; simpl in U3; inversion U3; subst. apply HW; auto. }
    subst nm. destruct (update_at_rect m l1 x l2 c s d q (aligned_rect _ HA) ER HN ND) as (z & Ez & R & C & L & A & V1 & V2 & V3 & _).
    rewrite E', Ez in E. inversion E; subst z.
    exists l1, x, (upd_fields c s q x), l2. do 3 (split; [auto|]). split; [exact HR|].
    split; [rewrite (core_rows _ _ C); reflexivity|]. split; [eapply upd_fields_updated; eauto|].
    split; [unfold core in C; simpl in C; inversion C; repeat split; auto|]. split; [auto|]. split; [auto|].
    intros k. set (d0 := match d with Some d0 => d0 | None => [] end) in *.
    assert (HG : match given a k with
      | Some v => exists k', k = attr_key k' /\ dget k' d0 = Some v
      | None => forall k', In k' (dkeys d0) -> k <> attr_key k' end).
    { apply given_attr.
      - unfold d0. destruct a; simpl in *; inversion U3; reflexivity.
      - unfold d0. destruct d; [auto|constructor]. }
    destruct (given a k) as [v|]; [destruct HG as (k' & -> & HG); apply V2; auto|apply V3; auto].
  - exfalso. unfold has_name in HH. apply mem_nin in HH. apply HH.
    destruct HRef as [[_ [i HD]]|(-> & -> & HNE)].
    + apply denotes_info in HD. rewrite EI in HD. inversion HD; subst; auto.
    + simpl in EI. discriminate.
Qed.
(** It succeeds on every active interaction, for well-typed arguments. *)
Theorem C04_update_succeeds : forall ev t n co sc a ts m nm l1 x l2, aligned m -> attrs_wf a ->
  refers t n nm -> m_rows m = l1 ++ x :: l2 -> r_name x = nm -> ~ In nm (map r_name l1) -> active x ->
  (forall c, co = Some c -> exists q, c = AC (CNum q)) -> (forall c, sc = Some c -> exists q, c = AC (CNum q)) ->
  a <> AtBad -> ts <> TsBad ->
  exists m', update_interaction ev t n co sc a ts m = (m', Ok tt).
Proof.
  intros ev t n co sc a ts m nm l1 x l2 HA HW HRef ER HX HN HAx HC HS NA NT.
  assert (U : exists c s d q, upd_args co sc a ts c s d q).
  { destruct co as [c|]; [destruct (HC c eq_refl) as [q1 ->]|]; (destruct sc as [s|]; [destruct (HS s eq_refl) as [q2 ->]|]);
    (destruct a; [| |contradiction]); (destruct ts; [| |contradiction]);
    do 4 eexists; constructor; reflexivity. }
  destruct U as (c & s & d & q & [U1 U2 U3 U4]).
  assert (EU : update_interaction ev t n co sc a ts m = update_at nm c s d q m).
  { assert (HR : is_removed m nm = Ok false) by (rewrite <- HX; rewrite (is_removed_mid m l1 x l2 ER); [rewrite HAx; auto|congruence]).
    assert (HH : has_name m nm = true) by (rewrite <- HX; eapply has_name_mid; eauto).
    unfold update_interaction. cbv [bind guard lift get ret raise]. rewrite U1, U2, U3, U4.
    destruct HRef as [[HNT [i HD]]|(-> & -> & HNE)].
    - rewrite (denotes_truthy _ _ _ HD), HNT. simpl.
      assert (EO : opt_info t = Ok (Some (mkInfo i (inter_key i) nm))).
      { unfold opt_info. rewrite (proj1 (denotes_info _ _ _) HD). inversion HD; reflexivity. }
      rewrite EO. simpl. rewrite HH, HR. reflexivity.
    - simpl. apply String.eqb_neq in HNE. rewrite HNE. simpl. rewrite HH, HR. reflexivity. }
  subst nm. destruct (update_at_rect m l1 x l2 c s d q (aligned_rect _ HA) ER HN) as (z & Ez & _).
  { intros d0 ->. destruct a; simpl in U3; inversion U3; subst. apply HW; auto. }
  exists z. rewrite EU. auto.
Qed.
(** An update whose target names no interaction yet adds one (its attributes
    argument is ignored). *)
Theorem C04_update_adds : forall ev t n co sc a ts m m' i nm, n_truthy n = false -> denotes t i nm -> ~ In nm (names m) ->
  update_interaction ev t n co sc a ts m = (m', Ok tt) ->
  exists r, core m' = core (with_rows (m_rows m ++ [r]) m) /\ r_name r = nm /\ r_inter r = i /\ r_key r = inter_key i /\ active r /\
    r_dirty r = true /\ r_ts r = Some (ts_given ev ts) /\
    (match co with None => r_coef r = CNum 0%Qc | Some a => exists q, a = AC (CNum q) /\ r_coef r = CNum q end) /\
    (match sc with None => r_scale r = CNum 1%Qc | Some a => exists q, a = AC (CNum q) /\ r_scale r = CNum q end).
Proof.
  intros ev t n co sc a ts m m' i nm NT HD HN E.
  destruct (update_split ev t n co sc a ts m) as [(e' & E')|(c&s&d&q&[U1 U2 U3 U4]&[(nm'&l1&x&l2&EI&ER&HX&_&HR&E')|(_&(inf&EI&HH)&E')])].
  - congruence.
  - exfalso. apply internal_name_spec in EI. destruct EI as [HR' HI']. 
    destruct HR' as [[_ [i' HD']]|(-> & _ & _)]; [|inversion HD].
    apply denotes_info in HD, HD'. rewrite HD in HD'. inversion HD'; subst. contradiction.
  - rewrite E' in E. unfold as_add in E. destruct (add_ok_core _ _ _ _ _ _ _ _ _ _ E) as (c1&s1&q1&i1&nm1&d1&[A1 A2 A3 A4 A5 A6 A7 A8]&C).
    apply denotes_info in HD. rewrite HD in A5, EI. inversion A5; subst i1. inversion EI; subst inf. simpl in A6. inversion A6; subst nm1.
    apply check_opt_num_inv in U1, U2. inversion A2; inversion A3; subst.
    exists (new_row nm (mkInfo i (inter_key i) nm) (match c with Some c0 => c0 | None => CNum 0%Qc end) (match s with Some s0 => s0 | None => CNum 1%Qc end) q1).
    split; [exact C|]. simpl. do 5 (split; [reflexivity|]).
    split; [destruct ts; simpl in U4; inversion U4; subst; simpl in A4; inversion A4; subst; auto|].
    split; [destruct co; [destruct U1 as (q0 & -> & ->); eauto|rewrite U1; auto]|destruct sc; [destruct U2 as (q0 & -> & ->); eauto|rewrite U2; auto]].
Qed.
Example C04_hyps : aligned ising_model /\ refers (TTuple [EVar (spn "x" 2); EVar (spn "x" 1)]) (NStr "") "x[1]*x[2]" /\
  In "x[1]*x[2]"%string (names ising_model) /\
  exists m', update_interaction env0 (TTuple [EVar (spn "x" 2); EVar (spn "x" 1)]) (NStr "") (Some (num 8)) None
    (AtDict [("weight", ANum (qz 2))]%string) (TsNum (qz 60)) ising_model = (m', Ok tt).
Proof.
  split; [apply ising_al|]. split; [left; split; [reflexivity|eexists; apply denotes_swap; reflexivity]|].
  split; [vm_compute; auto 10|]. apply okb_ex. reflexivity.
Qed.

(** ** C05 *)

(** Full statement: an update that does not pass a timestamp records the time of
    the call. The code records the time at which the module was imported. *)
Theorem C05_refuted : exists ev m m' x', e_now ev <> e_import ev /\
  update_interaction ev TNone (NStr "x[0]") (Some (num 2)) None AtNone (update_default_ts ev) m = (m', Ok tt) /\
  nth_error (m_rows m') 0 = Some x' /\ r_name x' = "x[0]"%string /\ r_ts x' = Some (e_import ev) /\ r_ts x' <> Some (e_now ev).
Proof.
  exists env0, ising_model. eexists. eexists. split; [intros H; apply (f_equal this) in H; vm_compute in H; discriminate|].
  split; [apply okb_ok; reflexivity|]. split; [reflexivity|]. split; [reflexivity|]. split; [reflexivity|].
  intros H. injection H as H. discriminate.
Qed.
Theorem C05_import_time_partial : forall ev t n co sc a m m' nm, aligned m -> attrs_wf a ->
  refers t n nm -> In nm (names m) ->
  update_interaction ev t n co sc a (update_default_ts ev) m = (m', Ok tt) ->
  exists l1 x l2, m_rows m' = l1 ++ x :: l2 /\ length l1 < length (m_rows m) /\ r_name x = nm /\ r_ts x = Some (e_import ev).
Proof.
  intros ev t n co sc a m m' nm HA HW HR HI E.
  destruct (C04_update _ _ _ _ _ _ _ _ _ _ HA HW HR HI E) as (l1&x&x'&l2&R1&R2&R3&R4&R5&R6&_).
  exists l1, x', l2. split; auto. split; [rewrite R1, app_length; simpl; lia|].
  destruct R6 as (U1&_&_&_&_&_&_&U8). split; [congruence|]. exact U8.
Qed.
(** A timestamp that is passed is recorded. *)
Theorem C05_given_timestamp : forall ev t n co sc a q m m' nm, aligned m -> attrs_wf a ->
  refers t n nm -> In nm (names m) ->
  update_interaction ev t n co sc a (TsNum q) m = (m', Ok tt) ->
  exists l1 x l2, m_rows m' = l1 ++ x :: l2 /\ length l1 < length (m_rows m) /\ r_name x = nm /\ r_ts x = Some q.
Proof.
  intros ev t n co sc a q m m' nm HA HW HR HI E.
  destruct (C04_update _ _ _ _ _ _ _ _ _ _ HA HW HR HI E) as (l1&x&x'&l2&R1&R2&R3&R4&R5&R6&_).
  exists l1, x', l2. split; auto. split; [rewrite R1, app_length; simpl; lia|].
  destruct R6 as (U1&_&_&_&_&_&_&U8). split; [congruence|]. exact U8.
Qed.
Example C05_hyps : aligned ising_model /\ attrs_wf AtNone /\ refers TNone (NStr "again") "again" /\ In "again"%string (names ising_model) /\
  exists m', update_interaction env0 TNone (NStr "again") (Some (num 8)) None AtNone (update_default_ts env0) ising_model = (m', Ok tt).
Proof.
  split; [apply ising_al|]. split; [intros d; discriminate|]. split; [right; repeat split; discriminate|].
  split; [vm_compute; auto 10|]. apply okb_ex. reflexivity.
Qed.

(** ** C06 *)

(** When it succeeds. *)
Theorem C06_succeeds_iff : forall t n m,
  (exists m', remove_interaction t n m = (m', Ok tt)) <-> (exists nm, refers t n nm /\ In nm (names m)).
Proof.
  intros t n m. split.
  - intros [m' E]. apply remove_cases in E. destruct E as [(e & HX & _)|(_&nm&l1&x&l2&EI&_)]; [discriminate|].
    exists nm. apply internal_name_spec; auto.
  - intros (nm & H). apply internal_name_spec in H. destruct (has_name_split m nm) as (l1&x&l2&E1&E2&E3).
    { apply internal_name_has in H; auto. }
    unfold remove_interaction. exists (with_rows (l1 ++ rm x :: l2) m).
    unfold bind at 1. rewrite H. rewrite <- E2. apply remove_body_eq; auto. congruence.
Qed.
(** Exactly the named interaction is marked removed (and pending); everything
    else is unchanged, and it no longer contributes to the energy. *)
Theorem C06_effect : forall t n m m', remove_interaction t n m = (m', Ok tt) ->
  exists nm l1 x l2, refers t n nm /\ m_rows m = l1 ++ x :: l2 /\ r_name x = nm /\ ~ In nm (map r_name l1) /\
    m' = with_rows (l1 ++ set_dirty true (set_removed true x) :: l2) m /\
    forall fd s, energy fd s m' = (energy fd s m + contribution fd s x)%Qc.
Proof.
  intros t n m m' E. apply remove_cases in E. destruct E as [(e & HX & _)|(_&nm&l1&x&l2&EI&ER&EN&HN&->)]; [discriminate|].
  exists nm, l1, x, l2. split; [eapply (proj1 (internal_name_spec t n m nm)); eauto|]. do 4 (split; [auto|]).
  intros fd s. rewrite !energy_csum. simpl. rewrite ER, !csum_app, !csum_cons, contribution_rm. ring.
Qed.
(** Removing twice is removing once. *)
Theorem C06_idempotent : forall t n m m', remove_interaction t n m = (m', Ok tt) ->
  remove_interaction t n m' = (m', Ok tt).
Proof.
  intros t n m m' E. apply remove_cases in E. destruct E as [(e & HX & _)|(_&nm&l1&x&l2&EI&ER&EN&HN&->)]; [discriminate|].
  assert (EI' : internal_name t n (with_rows (l1 ++ rm x :: l2) m) = (with_rows (l1 ++ rm x :: l2) m, Ok nm)).
  { apply internal_name_spec. apply internal_name_spec in EI. destruct EI as [A B]. split; auto.
    unfold names in *. simpl. rewrite ER in B. rewrite !map_app in *. simpl in *. auto. }
  unfold remove_interaction, bind at 1. rewrite EI'. subst nm.
  change (r_name x) with (r_name (rm x)). rewrite (remove_body_eq _ l1 (rm x) l2); auto.
Qed.
(** Until purged, the name can be neither added nor updated. *)
Theorem C06_pending : forall m nm l1 x l2, m_rows m = l1 ++ x :: l2 -> r_name x = nm -> ~ In nm (map r_name l1) -> r_removed x = true ->
  (forall ev t n c s a ts i dn, denotes t i dn -> stored_name n dn nm -> a <> AtBad -> ts <> TsBad ->
     add_interaction ev t n (AC c) (AC s) a ts m = (m, Err ValueError)) /\
  (forall ev t n co sc a ts, refers t n nm -> 
     (forall c, co = Some c -> exists q, c = AC (CNum q)) -> (forall c, sc = Some c -> exists q, c = AC (CNum q)) ->
     a <> AtBad -> ts <> TsBad ->
     update_interaction ev t n co sc a ts m = (m, Err ValueError)).
Proof.
  intros m nm l1 x l2 ER HX HN HR.
  assert (HH : has_name m nm = true) by (rewrite <- HX; eapply has_name_mid; eauto).
  split.
  - intros ev t n c s a ts i dn HD HS HA HT. unfold add_interaction. cbv [bind guard lift get ret raise].
    rewrite (denotes_truthy _ _ _ HD). simpl.
    destruct a; simpl; try contradiction; destruct ts; simpl; try contradiction;
    rewrite (proj1 (denotes_info _ _ _) HD); simpl; rewrite (proj2 (add_name_spec _ _ _) HS); rewrite HH; reflexivity.
  - intros ev t n co sc a ts HRef HC HS HA HT.
    assert (HR' : is_removed m nm = Ok true) by (rewrite <- HX; rewrite (is_removed_mid m l1 x l2 ER); congruence).
    unfold update_interaction. cbv [bind guard lift get ret raise].
    assert (U1 : exists c, check_opt_num co = Ok c) by (destruct co as [c|]; [destruct (HC c eq_refl) as [q ->]|]; simpl; eauto).
    assert (U2 : exists c, check_opt_num sc = Ok c) by (destruct sc as [c|]; [destruct (HS c eq_refl) as [q ->]|]; simpl; eauto).
    assert (U3 : exists c, check_opt_attrs a = Ok c) by (destruct a; simpl; eauto; contradiction).
    assert (U4 : exists c, check_opt_ts ts = Ok c) by (destruct ts; simpl; eauto; contradiction).
    destruct U1 as [? ->], U2 as [? ->], U3 as [? ->], U4 as [? ->].
    destruct HRef as [[HNT [i HD]]|(-> & -> & HNE)].
    + rewrite (denotes_truthy _ _ _ HD), HNT. simpl.
      assert (EO : opt_info t = Ok (Some (mkInfo i (inter_key i) nm))).
      { unfold opt_info. rewrite (proj1 (denotes_info _ _ _) HD). inversion HD; reflexivity. }
      rewrite EO. simpl. rewrite HH, HR'. reflexivity.
    + simpl. apply String.eqb_neq in HNE. rewrite HNE. simpl. rewrite HH, HR'. reflexivity.
Qed.
(** After a successful to_physical the removed names are free again. *)
Theorem C06_purged : forall ev evs fd m m' p cms nm,
  aligned m -> names_unique m ->
  cmodels evs 0 (m_mtype m) (dvals (m_constrs m)) = Ok cms ->
  (forall r cm, In r (m_rows m) -> r_removed r = true -> In cm cms -> ~ In (r_name r) (names cm)) ->
  to_physical ev evs fd m = (m', Ok p) ->
  (exists r, In r (m_rows m) /\ r_name r = nm /\ r_removed r = true) ->
  ~ In nm (names m') /\
  forall ev t n c s a ts i dn, denotes t i dn -> stored_name n dn nm -> a <> AtBad -> ts <> TsBad -> attrs_wf a ->
    exists m'', add_interaction ev t n (AC c) (AC s) a ts m' = (m'', Ok tt).
Proof.
  intros ev evs fd m m' p cms nm HA HU EC HP E (r & HI & HN & HR).
  destruct (C11_frame _ _ _ _ _ _ _ HA HU EC HP E) as (_&_&_&_&_&_&_&_&ER&_&AL&NU).
  assert (HF : ~ In nm (names m')).
  { unfold names. rewrite ER, map_map. simpl. intros H. apply in_map_iff in H. destruct H as (r2 & E2 & H2).
    apply filter_In in H2. destruct H2 as [H2 A2].
    assert (r2 = r).
    { clear - HU HI H2 HN E2. unfold names_unique, names in HU.
      assert (HE : r_name r2 = r_name r) by congruence. revert HU HI H2 HE. generalize (m_rows m).
      induction l as [|y l IH]; intros ND I1 I2 HE; [destruct I1|]. inversion ND; subst.
      destruct I1 as [->|I1], I2 as [->|I2]; auto.
      - exfalso. apply H1. rewrite <- HE. apply in_map; auto.
      - exfalso. apply H1. rewrite HE. apply in_map; auto. }
    subst r2. rewrite HR in A2. discriminate. }
  split; [auto|]. intros. apply C03_succeeds_iff; auto.
  exists c, s, i, dn, nm. repeat split; auto.
Qed.
Example C06_hyps : exists m' m2 p, 
  remove_interaction (TTuple [EVar (spn "x" 2); EVar (spn "x" 1)]) (NStr "") ising_model = (m', Ok tt) /\
  aligned m' /\ names_unique m' /\ (exists r, In r (m_rows m') /\ r_name r = "x[1]*x[2]"%string /\ r_removed r = true) /\
  to_physical env0 evs0 feed0 m' = (m2, Ok p) /\
  (exists m3, add_interaction env0 (TTuple [EVar (spn "x" 1); EVar (spn "x" 2)]) (NStr "") (num 1) (num 1) AtNone TsNone m2 = (m3, Ok tt)).
Proof.
  pose (m' := fst (remove_interaction (TTuple [EVar (spn "x" 2); EVar (spn "x" 1)]) (NStr "") ising_model)).
  assert (E : remove_interaction (TTuple [EVar (spn "x" 2); EVar (spn "x" 1)]) (NStr "") ising_model = (m', Ok tt)) by (apply okb_ok; reflexivity).
  assert (HA : aligned m') by (apply alignedb_ok; reflexivity).
  assert (HU : names_unique m') by (apply nodupb_ok; reflexivity).
  assert (HX : exists r, In r (m_rows m') /\ r_name r = "x[1]*x[2]"%string /\ r_removed r = true).
  { eexists. split; [do 3 right; left; reflexivity|]. split; reflexivity. }
  destruct (to_physical env0 evs0 feed0 m') as [m2 [p|e]] eqn:EP.
  - exists m', m2, p. do 5 (split; [auto|]).
    destruct (C06_purged env0 evs0 feed0 m' m2 p [] "x[1]*x[2]"%string HA HU eq_refl (fun r cm _ _ (H : In cm []) => match H with end) EP HX) as [_ HADD].
    eapply HADD; [apply denotes_pair; reflexivity|left; split; reflexivity|discriminate|discriminate|intros d HD; discriminate HD].
  - exfalso. assert (HB : okb (to_physical env0 evs0 feed0 m') = true) by reflexivity. rewrite EP in HB. discriminate.
Qed.

(** ** C07 *)

Definition pair (x y : var) : target := TTuple [EVar x; EVar y].
Lemma info_sym x y : v_label x <> v_label y -> interaction_info (pair x y) = interaction_info (pair y x).
Proof.
  intros N. simpl. apply String.eqb_neq in N as N1. rewrite N1. rewrite String.eqb_sym in N1. rewrite N1.
  rewrite (ltb_total _ _ N). destruct (String.ltb (v_label y) (v_label x)); reflexivity.
Qed.
Theorem C07_pair_unordered : forall x y, v_label x <> v_label y ->
  forall m,
  (forall ev n c s a ts, add_interaction ev (pair x y) n c s a ts m = add_interaction ev (pair y x) n c s a ts m) /\
  (forall ev n c s a ts, update_interaction ev (pair x y) n c s a ts m = update_interaction ev (pair y x) n c s a ts m) /\
  (forall n, remove_interaction (pair x y) n m = remove_interaction (pair y x) n m) /\
  (forall n, get_attributes (pair x y) n m = get_attributes (pair y x) n m) /\
  (forall n k, get_attribute (pair x y) n k m = get_attribute (pair y x) n k m).
Proof.
  intros x y N m. pose proof (info_sym x y N) as HI.
  assert (HA : forall m ev n c s a ts, add_interaction ev (pair x y) n c s a ts m = add_interaction ev (pair y x) n c s a ts m).
  { intros m0 ev n c s a ts. unfold add_interaction. rewrite HI. reflexivity. }
  assert (HO : opt_info (pair x y) = opt_info (pair y x)) by (unfold opt_info; rewrite HI; reflexivity).
  assert (HN : forall m n, internal_name (pair x y) n m = internal_name (pair y x) n m).
  { intros m0 n. unfold internal_name. rewrite HO. reflexivity. }
  assert (HG : forall m n, get_attributes (pair x y) n m = get_attributes (pair y x) n m).
  { intros m0 n. unfold get_attributes, bind at 1. rewrite HN. reflexivity. }
  split; [auto|]. split.
  { intros ev n c s a ts. unfold update_interaction. rewrite HO. simpl t_truthy. cbv [bind guard lift get ret raise].
    destruct (true || n_truthy n); [|reflexivity]. destruct (negb (true && n_truthy n)); [|reflexivity].
    destruct (check_opt_num c); [|reflexivity]. destruct (check_opt_num s); [|reflexivity].
    destruct (check_opt_attrs a); [|reflexivity]. destruct (check_opt_ts ts); [|reflexivity].
    destruct (opt_info (pair y x)) as [o|]; [|reflexivity]. destruct (n_truthy n); [reflexivity|].
    destruct o as [inf|]; [|reflexivity]. destruct (has_name m (in_name inf)); [reflexivity|]. apply HA. }
  split. { intros n. unfold remove_interaction, bind at 1. rewrite HN. reflexivity. }
  split; [auto|]. intros n k. unfold get_attribute. destruct k; [|reflexivity]. unfold bind. rewrite HG. reflexivity.
Qed.
Example C07_hyps : v_label (spn "x" 10) <> v_label (spn "x" 9). Proof. discriminate. Qed.

(** ** C08 *)

(** The interaction a target denotes is a set of labels. *)
Definition labels_of (i : inter) : list string :=
  match i with I1 v => [v_label v] | I2 v w => [v_label v; v_label w] end.
Definition plain_labels (i : inter) : Prop := Forall (fun l => has_char "*"%char l = false) (labels_of i).
Theorem C08_default_name_injective : forall t1 t2 i1 i2 n1 n2,
  denotes t1 i1 n1 -> denotes t2 i2 n2 -> plain_labels i1 -> plain_labels i2 ->
  (n1 = n2 <-> (forall l, In l (labels_of i1) <-> In l (labels_of i2))).
Proof.
  assert (LT : forall a b, String.ltb a b = true -> a <> b).
  { intros a b H ->. rewrite ltb_irrefl in H. discriminate. }
  assert (HK : forall t i n, denotes t i n -> (exists v, i = I1 v /\ n = v_label v) \/
     (exists v w, i = I2 v w /\ n = (v_label v +++ "*" +++ v_label w)%string /\ String.ltb (v_label v) (v_label w) = true)).
  { intros t i n H; inversion H; subst; [left|right|right]; eauto 7. }
  intros t1 t2 i1 i2 n1 n2 D1 D2 P1 P2. apply HK in D1, D2.
  destruct D1 as [(v1 & -> & ->)|(v1 & w1 & -> & -> & L1)], D2 as [(v2 & -> & ->)|(v2 & w2 & -> & -> & L2)]; simpl.
  - split; [intros -> l; tauto|]. intros H. destruct (proj1 (H (v_label v1)) (or_introl eq_refl)) as [HX|[]]. auto.
  - split.
    + intros E. exfalso. inversion P1 as [|? ? HS _]. rewrite E, has_char_app in HS. simpl in HS. rewrite orb_true_r in HS. discriminate.
    + intros H. exfalso. apply (LT _ _ L2).
      destruct (proj2 (H (v_label v2)) (or_introl eq_refl)) as [HX|[]], (proj2 (H (v_label w2)) (or_intror (or_introl eq_refl))) as [HY|[]]. congruence.
  - split.
    + intros E. exfalso. inversion P2 as [|? ? HS _]. rewrite <- E, has_char_app in HS. simpl in HS. rewrite orb_true_r in HS. discriminate.
    + intros H. exfalso. apply (LT _ _ L1).
      destruct (proj1 (H (v_label v1)) (or_introl eq_refl)) as [HX|[]], (proj1 (H (v_label w1)) (or_intror (or_introl eq_refl))) as [HY|[]]. congruence.
  - inversion P1 as [|? ? A1 A2]; subst. inversion P2 as [|? ? B1 B2]; subst. split.
    + intros E. apply split_first_sep in E; auto. destruct E as [-> ->]. tauto.
    + intros H.
      assert (HE : v_label v1 = v_label v2 /\ v_label w1 = v_label w2).
      { pose proof (LT _ _ L1) as N1. pose proof (LT _ _ L2) as N2.
        destruct (proj1 (H (v_label v1)) (or_introl eq_refl)) as [HX|[HX|[]]],
                 (proj1 (H (v_label w1)) (or_intror (or_introl eq_refl))) as [HY|[HY|[]]]; try (split; congruence).
        exfalso. rewrite <- HX, <- HY in L1. rewrite (ltb_asym _ _ L2) in L1. discriminate. }
      destruct HE as [-> ->]. reflexivity.
Qed.
(** Hence such default names never collide on add. *)
Example C08_hyps : denotes (pair (spn "x" 1) (spn "x" 0)) (I2 (spn "x" 0) (spn "x" 1)) "x[0]*x[1]" /\
  denotes (TVar (spn "x" 0)) (I1 (spn "x" 0)) "x[0]" /\ plain_labels (I2 (spn "x" 0) (spn "x" 1)).
Proof. split; [apply denotes_swap; reflexivity|]. split; [apply denotes_var|]. repeat constructor. Qed.
(** The guard is needed: labels with '*' (which PyQUBO's arrays cannot have)
    would confuse a variable with a pair. *)
Theorem C08_star_labels_collide : exists t1 t2 i1 i2 n, denotes t1 i1 n /\ denotes t2 i2 n /\ labels_of i1 <> labels_of i2.
Proof.
  exists (TVar (mkVar "a*b" Spin)), (pair (mkVar "a" Spin) (mkVar "b" Spin)). do 3 eexists.
  split; [apply denotes_var|]. split; [apply (denotes_pair (mkVar "a" Spin) (mkVar "b" Spin)); reflexivity|]. discriminate.
Qed.

(** ** Trusted base *)
Print Assumptions C02_add_atomic.
Print Assumptions C02_update_atomic.
Print Assumptions C02_remove_atomic.
Print Assumptions C03_succeeds_iff.
Print Assumptions C03_effect.
Print Assumptions C04_update.
Print Assumptions C04_update_succeeds.
Print Assumptions C04_update_adds.
Print Assumptions C05_refuted.
Print Assumptions C05_import_time_partial.
Print Assumptions C05_given_timestamp.
Print Assumptions C06_succeeds_iff.
Print Assumptions C06_effect.
Print Assumptions C06_idempotent.
Print Assumptions C06_pending.
Print Assumptions C06_purged.
Print Assumptions C07_pair_unordered.
Print Assumptions C08_default_name_injective.
Print Assumptions C08_star_labels_collide.
