(** * PhysicalProofs: to_physical. *)
From Verif Require Import PyBase PyLemmas Constraint LogicalModel Spec LogicalProofs EnergyProofs ConvertProofs ConstraintProofs MergeProofs Numbers.
Open Scope list_scope.

(** ** Alignment survives the operations used by constraint models *)
Lemma aligned_rows m l : length l = length (m_rows m) -> aligned m -> aligned (with_rows l m).
Proof. intros HL (A & B & C & D). unfold aligned; simpl. rewrite HL. auto. Qed.
Lemma aligned_core m m' : aligned m -> m_rows m' = m_rows m -> m_cols m' = m_cols m -> m_attrs m' = m_attrs m -> m_len m' = m_len m -> aligned m'.
Proof. unfold aligned. intros HA -> -> -> ->; auto. Qed.

Lemma add_aligned ev t n co sc ts m m' r : add_interaction ev t n co sc AtNone ts m = (m', r) ->
  aligned m -> aligned m'.
Proof.
  intros E HA. destruct (add_split ev t n co sc AtNone ts m) as [(e & E' & _)|(c&s&q&inf&nm&d&HB&E')].
  - rewrite E' in E; inversion E; subst; auto.
  - rewrite E' in E. destruct HB as [_ _ _ _ _ _ A7 _]. simpl in A7; inversion A7; subst d.
    destruct (add_body_aligned nm inf c s q [] m HA) as (m2 & E2 & _ & HA2 & _); [constructor|].
    rewrite E2 in E; inversion E; subst; auto.
Qed.
Lemma update_aligned ev t n co sc ts m m' r : update_interaction ev t n co sc AtNone ts m = (m', r) ->
  aligned m -> aligned m'.
Proof.
  intros E HA. destruct (update_split ev t n co sc AtNone ts m) as [[e E']|(c&s&a&q&HU&[(nm&l1&x&l2&_&ER&EN&HN&_&E')|(_&_&E')])].
  - rewrite E' in E; inversion E; subst; auto.
  - destruct HU as [_ _ U3 _]. simpl in U3; inversion U3; subst a. subst nm.
    rewrite E', (update_at_noattr m l1 x l2) in E by auto. inversion E; subst.
    apply aligned_rows; auto. rewrite ER, !app_length; auto.
  - rewrite E' in E. unfold as_add in E. eapply add_aligned; eauto.
Qed.
Lemma conv_h_aligned ev a b r m m' x : conv_h ev a b r m = (m', x) -> aligned m -> aligned m'.
Proof.
  unfold conv_h. intros E HA. destruct x as [u|e].
  - apply bind_ok in E. destruct E as (m1 & u1 & E1 & E). inversion E; subst; clear E.
    apply update_aligned in E1; auto.
  - apply bind_err in E. destruct E as [E|(m1 & u1 & E1 & E)]; [eapply update_aligned; eauto|inversion E].
Qed.
Lemma conv_J_aligned ev a b c k r m m' x : conv_J ev a b c k r m = (m', x) -> aligned m -> aligned m'.
Proof.
  unfold conv_J. intros E HA. unfold bind at 1 in E.
  destruct (update_interaction _ _ _ _ _ _ _ m) as [m1 [u1|e]] eqn:E1;
    apply update_aligned in E1; auto; [|inversion E; subst; auto].
  destruct (r_inter r) as [|v0 v1]; [inversion E; subst; auto|].
  destruct (r_key r) as [|l0 l1]; [inversion E; subst; auto|].
  unfold bind at 1 in E. destruct (add_interaction _ _ _ _ _ _ _ m1) as [m2 [u2|e]] eqn:E2;
    apply add_aligned in E2; auto; [|inversion E; subst; auto].
  unfold bind at 1 in E. destruct (add_interaction _ _ _ _ _ _ _ m2) as [m3 [u3|e]] eqn:E3;
    apply add_aligned in E3; auto; [|inversion E; subst; auto].
  inversion E; subst; auto.
Qed.
Lemma conv_Js_aligned ev a b c l : forall k m m' x, conv_Js ev a b c k l m = (m', x) -> aligned m -> aligned m'.
Proof.
  induction l as [|r l IH]; intros k m m' x E HA; simpl in E; [inversion E; subst; auto|].
  unfold bind in E. destruct (conv_J ev a b c k r m) as [m1 [u|e]] eqn:E1; apply conv_J_aligned in E1; auto.
  - eapply IH; eauto.
  - inversion E; subst; auto.
Qed.
Lemma convert_aligned ev t ha hb ja jb jc m m' x : convert ev t ha hb ja jb jc m = (m', x) -> aligned m -> aligned m'.
Proof.
  unfold convert. intros E HA. unfold bind at 1, get in E.
  destruct (mtype_eqb (m_mtype m) t); [inversion E; subst; auto|].
  unfold bind at 1, modify in E. unfold bind at 1 in E.
  unfold update_variables_type in E. destruct (recreate _ _ _) as [vs [u|e]]; [|inversion E; subst; auto].
  cbv zeta in E.
  destruct (df_ok _); [|inversion E; subst; auto].
  set (m1 := with_rows _ _) in E.
  assert (A1 : aligned m1) by (apply aligned_rows; [rewrite map_length; auto|auto]).
  unfold bind at 1, dataframe in E. destruct (df_ok m1); [|inversion E; subst; auto].
  unfold bind at 1 in E.
  destruct (mfor _ (conv_h ev ha hb) m1) as [m2 [u2|e]] eqn:E2.
  - assert (A2 : aligned m2).
    { revert E2. apply (mfor_inv aligned); auto. intros r s s' r' _ HI Hx. eapply conv_h_aligned; eauto. }
    unfold bind at 1 in E. destruct (df_ok m2); [|inversion E; subst; auto].
    eapply conv_Js_aligned; eauto.
  - assert (A2 : aligned m2).
    { revert E2. apply (mfor_inv aligned); auto. intros r s s' r' _ HI Hx. eapply conv_h_aligned; eauto. }
    inversion E; subst; auto.
Qed.


Record plain (t : mtype) (cm : lmodel) : Prop := {
  pl_type : m_mtype cm = t; pl_vars : m_vars cm = []; pl_del : m_deleted cm = [];
  pl_fix : m_fixed cm = []; pl_con : m_constrs cm = []; pl_al : aligned cm; pl_wf : well_formed cm;
  pl_unit : unit_scales cm;
  pl_act : Forall active (m_rows cm);
  pl_num : forall r, In r (m_rows cm) -> exists y, r_coef r = CNum y;
  pl_off : forall fd, resolves fd (m_offset cm) }.

Lemma built_plain cm : built cm -> plain Qubo cm.
Proof.
  intros B. pose proof (bl_frame _ B) as F. unfold frame in F; simpl in F. inversion F.
  constructor; auto using built_aligned, built_wf, built_unit; try congruence.
  - pose proof (bl_rows _ B) as R. eapply Forall_impl; [|exact R]. intros r Hr; apply Hr.
  - intros r HI. pose proof (bl_rows _ B) as R. rewrite Forall_forall in R. apply R; auto.
  - intros fd. rewrite (bl_off _ B). apply resolves_num.
Qed.
Lemma to_ising_plain ev cm cm' u : built cm -> to_ising ev cm = (cm', Ok u) -> plain Ising cm'.
Proof.
  intros B E. pose proof (built_wf _ B) as HW.
  pose proof (bl_frame _ B) as F. unfold frame in F; simpl in F. inversion F as [[HT HV HD HF HC HP]].
  unfold to_ising in E.
  assert (AL : aligned cm') by (eapply convert_aligned; eauto using built_aligned).
  assert (WF : well_formed cm') by (eapply convert_wf; eauto).
  assert (UN : unit_scales cm') by (eapply convert_unit; eauto using built_unit).
  destruct (convert_ok _ _ _ _ _ _ _ _ _ _ E) as (ex & off & vs & R & O & F' & EV & ND & HX & HN & HVv);
    [rewrite HT; auto|auto|].
  rewrite HV in EV. simpl in EV. inversion EV; subst vs. unfold frame in F'. inversion F'.
  pose proof (bl_rows _ B) as RB. rewrite Forall_forall in RB.
  constructor; auto; try congruence.
  - rewrite R. apply Forall_app. split.
    + rewrite Forall_map, Forall_forall. intros r Hr. unfold active.
      destruct (conv_row_fields (e_import ev) (qfrac 1 2) (qfrac 1 4) Ising r) as (_&_&_&->&_).
      apply RB; auto.
    + eapply Forall_impl; [|exact HX]. intros r Hr; apply Hr.
  - intros r HI. rewrite R in HI. apply in_app_iff in HI. destruct HI as [HI|HI].
    + apply in_map_iff in HI. destruct HI as (r0 & <- & HI). destruct (RB r0 HI) as (_&_&_&[y Hy]).
      destruct (conv_row_fields (e_import ev) (qfrac 1 2) (qfrac 1 4) Ising r0) as (_&_&_&_&_&_&->).
      rewrite Hy. destruct (body1_active r0); [eexists; reflexivity|]. destruct (body2_active r0); eexists; reflexivity.
    + rewrite Forall_forall in HX. apply HX in HI. apply HI.
  - intros fd. rewrite O. apply HVv. rewrite (bl_off _ B). apply resolves_num.
Qed.
Lemma cmodel_plain ev t c cm : cmodel ev t c = Ok cm -> plain t cm.
Proof.
  unfold cmodel. destruct (to_model ev c) as [cm0 [u|e]] eqn:E; [|discriminate].
  apply to_model_built in E. destruct t; simpl.
  - destruct (to_ising ev cm0) as [cm1 [u1|e]] eqn:E1; [|discriminate]. intros X; inversion X; subst.
    eapply to_ising_plain; eauto.
  - intros X; inversion X; subst. apply built_plain; auto.
Qed.
Lemma cmodels_plain evs t cs : forall k cms, cmodels evs k t cs = Ok cms -> Forall (plain t) cms.
Proof.
  induction cs as [|c cs IH]; simpl; intros k cms E; [inversion E; constructor|].
  destruct (cmodel (evs k) t c) eqn:E1; [|discriminate].
  destruct (cmodels evs (S k) t cs) eqn:E2; [|discriminate]. inversion E; subst.
  constructor; eauto using cmodel_plain.
Qed.

(** Their energies. *)
Lemma cmodel_energy_qubo ev c cm fd x : cmodel ev Qubo c = Ok cm -> constr_ok c -> binary x ->
  energy fd x cm = penalty x c.
Proof.
  unfold cmodel. destruct (to_model ev c) as [cm0 [u|e]] eqn:E; [|discriminate]. simpl.
  intros X; inversion X; subst. intros. eapply to_model_energy; eauto.
Qed.
Lemma spin_to_binary s : spin s -> binary (to_binary s).
Proof.
  intros HS l. unfold to_binary. destruct (HS l) as [->| ->]; [left|right]; apply Qc_is_canon; reflexivity.
Qed.
(** For Ising models the penalty is shifted by a constant of the constraint. *)
Lemma hot_const t vs : hot (fun _ => t) vs = (count vs * t)%Qc.
Proof.
  unfold hot, count. induction vs as [|v vs IH]; cbn [map length].
  - change (qsum []) with 0%Qc. change (Z.of_nat 0) with 0%Z. rewrite qz_0. ring.
  - change (qsum (t :: map (fun _ : var => t) vs)) with (t + qsum (map (fun _ : var => t) vs))%Qc.
    rewrite IH, Nat2Z.inj_succ. unfold Z.succ. rewrite qz_add, qz_1. ring.
Qed.
Lemma squares_const t vs : squares (fun _ => t) vs = (count vs * (t * t))%Qc.
Proof. rewrite <- (hot_const (t * t) vs). reflexivity. Qed.
Lemma pairs_const t vs : NoDup (map v_label vs) -> (qz 2 * pairs (fun _ => t) vs = (count vs * count vs - count vs) * (t * t))%Qc.
Proof.
  intros ND. pose proof (hot_squared (fun _ => t) vs ND) as H. rewrite hot_const, squares_const in H.
  set (p := (qz 2 * pairs (fun _ => t) vs)%Qc) in *. set (n := count vs) in *.
  transitivity ((n * t * (n * t)) - n * (t * t))%Qc; [rewrite H|]; ring.
Qed.
Lemma csum_const fd t m : unit_scales m -> csum fd (fun _ => t) (m_rows m) = (t * S1 fd (m_rows m) + t * t * S2 fd (m_rows m))%Qc.
Proof.
  intros HU. destruct (affine_sums fd (fun _ => 0%Qc) 0 t (m_rows m) HU) as [A1 A2].
  assert (EX : forall l, lin fd (fun _ => t) l = lin fd (fun _ => 0 * 0 + t)%Qc l /\ quad fd (fun _ => t) l = quad fd (fun _ => 0 * 0 + t)%Qc l).
  { replace (0 * 0 + t)%Qc with t by ring. auto. }
  rewrite csum_lin_quad, (proj1 (EX _)), (proj2 (EX _)). cbv beta in *. rewrite A1, A2. ring.
Qed.
Lemma shift_by_values fd m A B : unit_scales m -> (forall t, csum fd (fun _ => t) (m_rows m) = (A * t + B * (t * t))%Qc) ->
  shift_ising fd m = (A + qfrac 1 2 * B)%Qc.
Proof.
  intros HU HV. pose proof (HV 1%Qc) as H1. pose proof (HV (- (1))%Qc) as H2. rewrite csum_const in H1, H2 by exact HU.
  unfold shift_ising. set (s1 := S1 fd (m_rows m)) in *. set (s2 := S2 fd (m_rows m)) in *.
  assert (P1 : (s1 = qfrac 1 2 * ((1 * s1 + 1 * 1 * s2) - (- (1) * s1 + - (1) * - (1) * s2)))%Qc).
  { replace s1 with (qfrac 1 2 * qz 2 * s1)%Qc at 1 by (rewrite half2; ring). rewrite qc2. ring. }
  assert (P2 : (s2 = qfrac 1 2 * ((1 * s1 + 1 * 1 * s2) + (- (1) * s1 + - (1) * - (1) * s2)))%Qc).
  { replace s2 with (qfrac 1 2 * qz 2 * s2)%Qc at 1 by (rewrite half2; ring). rewrite qc2. ring. }
  rewrite H1, H2 in P1, P2. rewrite P1, P2.
  transitivity (qfrac 1 2 * (1 + 1) * A + qfrac 1 2 * (qfrac 1 2 * (1 + 1) * B))%Qc; [ring|].
  rewrite <- qc2, half2. ring.
Qed.
Lemma half_div a : (a / qz 2 = qfrac 1 2 * a)%Qc.
Proof. unfold Qcdiv. replace (/ qz 2)%Qc with (qfrac 1 2) by (apply Qc_is_canon; reflexivity). ring. Qed.
Lemma half_twice a : (a = qfrac 1 2 * (a + a))%Qc.
Proof. transitivity (qfrac 1 2 * qz 2 * a)%Qc; [rewrite half2; ring|]. rewrite qc2. ring. Qed.
Lemma qc4 : qz 4 = (qz 2 + qz 2)%Qc. Proof. apply Qc_is_canon; reflexivity. Qed.
Lemma to_model_shift ev c cm u fd : to_model ev c = (cm, Ok u) -> constr_ok c -> shift_ising fd cm = ising_shift c.
Proof.
  intros E HC. pose proof (to_model_built _ _ _ _ E) as B. pose proof (built_unit _ B) as HU.
  destruct c as [vs n l s|vs l s|v1 v2 l s]; cbn [ising_shift].
  - destruct (nhot_built _ _ _ _ _ _ _ E) as (_ & ND & V).
    rewrite (shift_by_values fd cm (- s * ((1 - qz 2 * qz n) * count vs)) (- s * (count vs * count vs - count vs)))%Qc; auto.
    + set (k := count vs). rewrite half_div, (half_twice (- s * ((1 - qz 2 * qz n) * k))%Qc), qc4. ring.
    + intros t. specialize (V fd (fun _ => t)). unfold cs in V. rewrite V, hot_const, pairs_const by exact ND. ring.
  - destruct (zero_one_built _ _ _ _ _ _ E) as (_ & V). destruct HC as [_ ND].
    rewrite (shift_by_values fd cm 0 (- s * (count vs * count vs - count vs)))%Qc; auto.
    + rewrite half_div. ring.
    + intros t. specialize (V fd (fun _ => t)). unfold cs in V. rewrite V, pairs_const by exact ND. ring.
  - destruct (equality_built ev (set_union v1 v2) _ _ _ _ _ _ E) as (_ & ND & HD & V). destruct HC as [N1 N2].
    assert (EU : set_union v1 v2 = v1 ++ v2).
    { apply to_set_disjoint; auto. intros v Hv Hw. apply (HD v v Hv Hw); auto. }
    rewrite EU in *. rewrite map_app in ND. apply NoDup_app_iff in ND. destruct ND as (D1 & D2 & _).
    rewrite (shift_by_values fd cm (- s * (count v1 + count v2))
      (- s * ((count v1 * count v1 - count v1) + (count v2 * count v2 - count v2) - qz 2 * (count v1 * count v2))))%Qc; auto.
    + set (a := count v1). set (b := count v2). rewrite half_div, (half_twice (- s * (a + b))%Qc), qc2. ring.
    + intros t. specialize (V fd (fun _ => t)). unfold cs in V. rewrite V, hot_app, !hot_const, (pairs_const t v1), (pairs_const t v2) by assumption. ring.
Qed.
Lemma cmodel_energy_ising ev c cm fd s : cmodel ev Ising c = Ok cm -> constr_ok c -> spin s ->
  energy fd s cm = (penalty (to_binary s) c + ising_shift c)%Qc.
Proof.
  unfold cmodel. destruct (to_model ev c) as [cm0 [u|e]] eqn:E; [|discriminate]. simpl.
  destruct (to_ising ev cm0) as [cm1 [u1|e]] eqn:E1; [|discriminate]. intros X HC HS; inversion X; subst.
  pose proof (to_model_built _ _ _ _ E) as B. pose proof (built_plain _ B) as PL.
  rewrite (to_ising_energy _ _ _ _ fd s E1); try apply PL.
  rewrite (to_model_energy _ _ _ _ fd (to_binary s) E HC (spin_to_binary s HS)). f_equal. eapply to_model_shift; eauto.
Qed.

(** ** Merging the constraints' models *)
(** [a] is [b] up to its name, and has [b]'s name unless that is in [ns]. *)
Definition eqn (ns : list string) (a b : row) : Prop :=
  eqx a b /\ (~ In (r_name b) ns -> r_name a = r_name b).
Lemma rename_eqn dup a b len l : forall i, Forall2 (eqn dup) (rename_rows dup a b len i l) l.
Proof.
  induction l as [|r l IH]; intros i; simpl; constructor; auto.
  destruct (mem (r_name r) dup) eqn:E; split; try reflexivity.
  apply mem_in in E. contradiction.
Qed.
Lemma eqn_mono ns ns' a b : incl ns ns' -> eqn ns a b -> eqn ns' a b.
Proof. intros HI [H1 H2]. split; auto. Qed.
Lemma Forall2_mono {A B} (R R' : A -> B -> Prop) l l' : (forall a b, R a b -> R' a b) -> Forall2 R l l' -> Forall2 R' l l'.
Proof. intros HR H; induction H; constructor; auto. Qed.

Definition sum_energy fd s (cms : list lmodel) : Qc := qsum (map (energy fd s) cms).

(** What the merged model has in common with the original. *)
Record merged (m : lmodel) (cms : list lmodel) (m1 : lmodel) : Prop := {
  mg_frame : frame m1 = frame m;
  mg_len : m_len m1 = length (m_rows m1);
  mg_rows : Forall2 (eqn (flat_map names cms)) (m_rows m1) (m_rows m ++ flat_map m_rows cms);
  mg_off : forall fd, (resolves fd (m_offset m1) <-> resolves fd (m_offset m)) /\
     (resolves fd (m_offset m) -> value fd (m_offset m1) = (value fd (m_offset m) + qsum (map (fun c => value fd (m_offset c)) cms))%Qc) }.

Lemma merge_plain_ok ev k cm m m1 u : m_len m = length (m_rows m) -> plain (m_mtype m) cm ->
  merge_same ev k cm m = (m1, Ok u) -> merged m [cm] m1.
Proof.
  intros HL PL E1. destruct PL as [P1 P2 P3 P4 P5 P6 P7 P8 P9 P10 P11].
  apply merge_same_ok in E1. destruct E1 as (vs & cols & _ & EV & _ & _ & ->).
  rewrite P2 in EV. simpl in EV. inversion EV as [EV'].
  assert (HV : vs = m_vars m). { apply (f_equal m_vars) in EV'. simpl in EV'. auto. }
  constructor; auto.
  - unfold frame; simpl. rewrite P3, P4, P5, HV. reflexivity.
  - simpl. rewrite rename_length, app_length, HL. f_equal. apply P6.
  - simpl. rewrite !app_nil_r. eapply Forall2_mono; [|apply rename_eqn].
    intros a b. apply eqn_mono. intros n Hn. apply in_dup_names in Hn. tauto.
  - intros fd. simpl. rewrite resolves_cadd. split; [split; [tauto|auto]|].
    intros R. rewrite value_cadd by auto. ring.
Qed.
Lemma merge_plain ev k cm m : aligned m -> plain (m_mtype m) cm ->
  exists m1, merge_same ev k cm m = (m1, Ok tt) /\ merged m [cm] m1 /\ aligned m1.
Proof.
  intros HA PL. pose proof PL as [P1 P2 P3 P4 P5 P6 P7 P8 P9 P10 P11].
  assert (EX : exists m1, merge_same ev k cm m = (m1, Ok tt)).
  { unfold merge_same. cbv [bind get guard].
    assert (HD : dims_ok m cm = true). { unfold dims_ok. rewrite P2. apply forallb_forall. intros x _; reflexivity. }
    rewrite HD, P2. cbv [ret mfor].
    destruct (merge_cols_some m cm (merge_attrs_list m cm) HA P6) as [cols ->].
    { intros a Ha. apply merge_attrs_in; auto. }
    cbv [modify]. cbn [m_constrs with_vars]. rewrite P5.
    replace (existsb (fun l => dmem l []) (dkeys (m_constrs m))) with false.
    - cbv [negb ret]. eauto.
    - symmetry. destruct (existsb _ _) eqn:E; auto. apply existsb_exists in E. destruct E as (l & Hl & E). discriminate. }
  destruct EX as [m1 E1]. exists m1. split; auto. split.
  - eapply merge_plain_ok; eauto. apply HA.
  - eapply merge_same_aligned; eauto.
Qed.

Lemma Forall2_app_inv_r' {A B} (R : A -> B -> Prop) l l1 l2 : Forall2 R l (l1 ++ l2) ->
  exists a b, l = a ++ b /\ Forall2 R a l1 /\ Forall2 R b l2.
Proof.
  intros H. apply Forall2_app_inv_r in H. destruct H as (a & b & H1 & H2 & ->). eauto.
Qed.

Lemma merged_nil m : m_len m = length (m_rows m) -> merged m [] m.
Proof.
  intros HA. constructor; auto.
  - simpl. rewrite app_nil_r. apply Forall2_refl. intros a; split; reflexivity.
  - intros fd. split; [tauto|]. intros _. simpl. ring.
Qed.
Lemma merged_step m cm cms m1 m2 : merged m [cm] m1 -> merged m1 cms m2 -> merged m (cm :: cms) m2.
Proof.
  intros [A1 A2 A3 A4] [B1 B2 B3 B4]. constructor; auto.
  - congruence.
  - simpl in A3. rewrite !app_nil_r in A3. simpl.
    apply Forall2_app_inv_r' in B3. destruct B3 as (ra & rb & -> & Ha & Hb).
    rewrite app_assoc. apply Forall2_app.
    + eapply Forall2_trans with (l2 := m_rows m1).
      * intros a b c [X1 X2] [Y1 Y2]. split; [eapply eqx_trans; eauto|].
        intros HN. rewrite X2; [apply Y2; exact HN|]. rewrite Y2; auto.
      * eapply Forall2_mono; [|exact Ha]. intros a b. apply eqn_mono. intros x Hx; apply in_app_iff; auto.
      * eapply Forall2_mono; [|exact A3]. intros a b. apply eqn_mono. intros x Hx; apply in_app_iff; auto.
    + eapply Forall2_mono; [|exact Hb]. intros a b. apply eqn_mono. intros x Hx; apply in_app_iff; auto.
  - intros fd. destruct (A4 fd) as [A5 A6], (B4 fd) as [B5 B6]. split; [tauto|].
    intros R. rewrite B6 by tauto. rewrite A6 by auto. simpl. ring.
Qed.

Lemma merge_eq ev evk k m c : aligned m ->
  match cmodel evk (m_mtype m) c with
  | Err e => match to_model evk c with
             | (_, Err e') => e' = e
             | (cm, Ok _) => exists o, merge ev evk k m cm = (m, o, Err e) end
  | Ok cm' => match to_model evk c with
              | (_, Err e') => False
              | (cm, Ok _) => exists m1 o, merge ev evk k m cm = (m1, o, Ok tt) /\ merged m [cm'] m1 /\ aligned m1 end
  end.
Proof.
  intros HA. destruct (cmodel evk (m_mtype m) c) as [cm'|e] eqn:EC.
  - pose proof (cmodel_plain _ _ _ _ EC) as PL. unfold cmodel in EC.
    destruct (to_model evk c) as [cm [u|e]] eqn:E; [|discriminate].
    pose proof (to_model_built _ _ _ _ E) as B. pose proof (bl_frame _ B) as F. assert (HT : m_mtype cm = Qubo) by (apply (f_equal (fun z => fst (fst (fst (fst (fst z)))))) in F; exact F). clear F.
    unfold merge. rewrite HT. simpl in EC.
    destruct (merge_plain ev k cm' m HA PL) as (m1 & E1 & HM).
    destruct (mtype_eqb (m_mtype m) Qubo) eqn:ET.
    + inversion EC; subst. rewrite E1. eauto.
    + unfold convert_mtype, bind, get. rewrite HT. simpl.
      destruct (to_ising evk cm) as [cm1 [u1|e]]; [|discriminate]. inversion EC; subst. rewrite E1. eauto.
  - unfold cmodel in EC. destruct (to_model evk c) as [cm [u|e']] eqn:E; [|congruence].
    pose proof (to_model_built _ _ _ _ E) as B. pose proof (bl_frame _ B) as F. assert (HT : m_mtype cm = Qubo) by (apply (f_equal (fun z => fst (fst (fst (fst (fst z)))))) in F; exact F). clear F.
    unfold merge. rewrite HT. simpl in EC.
    destruct (mtype_eqb (m_mtype m) Qubo) eqn:ET; [discriminate|].
    unfold convert_mtype, bind, get. rewrite HT. simpl.
    destruct (to_ising evk cm) as [cm1 [u1|e1]]; inversion EC; subst. eauto.
Qed.

Lemma merge_constrs_spec ev evs cs : forall k m, aligned m ->
  match cmodels evs k (m_mtype m) cs with
  | Ok cms => exists m1, merge_constrs ev evs k cs m = (m1, Ok tt) /\ merged m cms m1 /\ aligned m1
  | Err e => exists m1, merge_constrs ev evs k cs m = (m1, Err e)
  end.
Proof.
  induction cs as [|c cs IH]; intros k m HA; simpl.
  - exists m. split; [reflexivity|]. split; [apply merged_nil; apply HA|auto].
  - pose proof (merge_eq ev (evs k) k m c HA) as HM.
    destruct (cmodel (evs k) (m_mtype m) c) as [cm|e] eqn:EC.
    + destruct (to_model (evs k) c) as [cm0 [u|e]]; [|contradiction].
      destruct HM as (m1 & o & -> & HM1 & A1). specialize (IH (S k) m1 A1).
      assert (HT : m_mtype m1 = m_mtype m). { pose proof (mg_frame _ _ _ HM1) as F. unfold frame in F. congruence. }
      rewrite HT in IH. destruct (cmodels evs (S k) (m_mtype m) cs) as [cms|e].
      * destruct IH as (m2 & E2 & HM2 & A2). exists m2. split; auto. split; auto. eapply merged_step; eauto.
      * exact IH.
    + destruct (to_model (evs k) c) as [cm0 [u|e0]].
      * destruct HM as [o ->]. eauto.
      * subst. eauto.
Qed.

(** The same from a successful run, for models whose columns may be ragged. *)
Lemma merge_constrs_ok ev evs cs : forall k m m1 u, m_len m = length (m_rows m) ->
  merge_constrs ev evs k cs m = (m1, Ok u) ->
  exists cms, cmodels evs k (m_mtype m) cs = Ok cms /\ merged m cms m1.
Proof.
  induction cs as [|c cs IH]; intros k m m1 u HL E; simpl in *.
  - inversion E; subst. exists []. split; auto. apply merged_nil; auto.
  - destruct (to_model (evs k) c) as [cm0 [u0|e]] eqn:E0; [|discriminate].
    destruct (merge ev (evs k) k m cm0) as [[m2 o] [u2|e]] eqn:E2; [|discriminate].
    assert (HC : exists cm, cmodel (evs k) (m_mtype m) c = Ok cm /\ merge_same ev k cm m = (m2, Ok u2)).
    { unfold cmodel. rewrite E0. pose proof (to_model_built _ _ _ _ E0) as B. pose proof (bl_frame _ B) as F.
      assert (HT : m_mtype cm0 = Qubo) by (apply (f_equal (fun z => fst (fst (fst (fst (fst z)))))) in F; exact F). clear F.
      unfold merge in E2. rewrite HT in E2. destruct (mtype_eqb (m_mtype m) Qubo) eqn:ET.
      - exists cm0. split; auto. destruct (merge_same ev k cm0 m); congruence.
      - unfold convert_mtype, bind, get in E2. rewrite HT in E2.
        destruct (to_ising (evs k) cm0) as [cm1 [u1|e]]; [|discriminate]. exists cm1. split; auto.
        destruct (merge_same ev k cm1 m); congruence. }
    destruct HC as (cm & EC & EM). pose proof (cmodel_plain _ _ _ _ EC) as PL.
    pose proof (merge_plain_ok _ _ _ _ _ _ HL PL EM) as HM.
    assert (HT : m_mtype m2 = m_mtype m). { pose proof (mg_frame _ _ _ HM) as F. unfold frame in F. congruence. }
    destruct (IH (S k) m2 m1 u (mg_len _ _ _ HM) E) as (cms & E3 & HM2). rewrite HT in E3.
    exists (cm :: cms). rewrite EC, E3. split; auto. eapply merged_step; eauto.
Qed.

Definition add_lin fd (d : dict string Qc) (r : row) : dict string Qc :=
  if r_removed r then d else match r_key r with K1 l => dadd l (coefv fd r) d | K2 _ _ => d end.
Definition add_quad fd (d : dict (string * string) Qc) (r : row) : dict (string * string) Qc :=
  if r_removed r then d else match r_key r with K1 _ => d | K2 a b => dadd (a, b) (coefv fd r) d end.
Definition row_resolved fd (r : row) : Prop := active r -> resolves fd (r_coef r) /\ resolves fd (r_scale r).

Lemma agg_row_eq fd g r : 
  (row_resolved fd r -> agg_row fd g r = Ok (mkAgg (add_lin fd (g_lin g) r) (add_quad fd (g_quad g) r)
     (g_remove g ++ if r_removed r then [r_name r] else []))) /\
  (~ row_resolved fd r -> agg_row fd g r = Err PlaceholderError).
Proof.
  unfold agg_row, row_resolved, add_lin, add_quad, coefv, active.
  destruct (r_removed r) eqn:ER.
  - split; [reflexivity|]. intros H; exfalso; apply H; discriminate.
  - rewrite ceval_cmul. unfold resolves, value.
    destruct (ceval fd (r_coef r)), (ceval fd (r_scale r)).
    + split; [|intros H; exfalso; apply H; intros; split; congruence].
      rewrite app_nil_r. intros _. destruct (r_key r); reflexivity.
    + split; [intros H; destruct (H eq_refl); congruence|reflexivity].
    + split; [intros H; destruct (H eq_refl); congruence|reflexivity].
    + split; [intros H; destruct (H eq_refl); congruence|reflexivity].
Qed.
Lemma row_resolved_dec fd r : {row_resolved fd r} + {~ row_resolved fd r}.
Proof.
  unfold row_resolved, active, resolves. destruct (r_removed r); [left; discriminate|].
  destruct (ceval fd (r_coef r)), (ceval fd (r_scale r));
   [left; intros; split; congruence|right; intros H; destruct (H eq_refl); congruence..].
Qed.
Lemma agg_rows_ok fd l : forall g, Forall (row_resolved fd) l ->
  agg_rows fd g l = Ok (mkAgg (fold_left (add_lin fd) l (g_lin g)) (fold_left (add_quad fd) l (g_quad g))
    (g_remove g ++ map r_name (filter r_removed l))).
Proof.
  induction l as [|r l IH]; intros g HF; simpl.
  - rewrite app_nil_r. destruct g; reflexivity.
  - inversion HF; subst. rewrite (proj1 (agg_row_eq fd g r)) by auto.
    rewrite IH by auto. simpl. f_equal. f_equal. rewrite <- app_assoc. destruct (r_removed r); reflexivity.
Qed.
Lemma agg_rows_err fd l : forall g, ~ Forall (row_resolved fd) l -> agg_rows fd g l = Err PlaceholderError.
Proof.
  induction l as [|r l IH]; intros g HF; simpl; [exfalso; apply HF; constructor|].
  destruct (row_resolved_dec fd r) as [H|H].
  - rewrite (proj1 (agg_row_eq fd g r)) by auto. apply IH. intros HX; apply HF; constructor; auto.
  - rewrite (proj2 (agg_row_eq fd g r)) by auto. reflexivity.
Qed.

(** Only key, coefficient, scale and removal matter. *)
Definition eqv (a b : row) : Prop :=
  r_key a = r_key b /\ r_coef a = r_coef b /\ r_scale a = r_scale b /\ r_removed a = r_removed b.
Lemma eqx_eqv a b : eqx a b -> eqv a b.
Proof. intros H; apply eqx_fields in H. unfold eqv; tauto. Qed.
Lemma eqv_add_lin fd d a b : eqv a b -> add_lin fd d a = add_lin fd d b.
Proof. intros (A&B&C&D). unfold add_lin, coefv. rewrite A, B, C, D; auto. Qed.
Lemma eqv_add_quad fd d a b : eqv a b -> add_quad fd d a = add_quad fd d b.
Proof. intros (A&B&C&D). unfold add_quad, coefv. rewrite A, B, C, D; auto. Qed.
Lemma eqv_resolved fd a b : eqv a b -> row_resolved fd a <-> row_resolved fd b.
Proof. intros (A&B&C&D). unfold row_resolved, active. rewrite B, C, D; tauto. Qed.
Lemma fold2 {A B D} (R : A -> B -> Prop) (f : D -> A -> D) (g : D -> B -> D) l l' :
  (forall d a b, R a b -> f d a = g d b) -> Forall2 R l l' -> forall d, fold_left f l d = fold_left g l' d.
Proof. intros HR H; induction H; intros d; simpl; auto. rewrite (HR d x y) by auto. auto. Qed.
Lemma Forall2_Forall {A} (R : A -> A -> Prop) (P : A -> Prop) l l' :
  (forall a b, R a b -> (P a <-> P b)) -> Forall2 R l l' -> Forall P l <-> Forall P l'.
Proof.
  intros HR H; induction H as [|a b l l' Hab H IH]; [tauto|]. rewrite !Forall_cons_iff, IH, (HR a b) by auto. tauto.
Qed.

(** ** Dictionaries of sums *)
Definition dsum {K} (f : K -> Qc) (d : dict K Qc) : Qc := qsum (map (fun kv => snd kv * f (fst kv))%Qc d).
Lemma dsum_dset {K} `{Eqb K} (f : K -> Qc) k q d :
  dsum f (dset k q d) = (dsum f d + (q - match dget k d with Some x => x | None => 0 end) * f k)%Qc.
Proof.
  unfold dsum. induction d as [|[k' v] d IH]; simpl; [ring|].
  destruct (eqb k k') eqn:E; simpl.
  - apply eqb_eq in E; subst. ring.
  - rewrite IH. ring.
Qed.
Lemma dsum_dadd {K} `{Eqb K} (f : K -> Qc) k q d : dsum f (dadd k q d) = (dsum f d + q * f k)%Qc.
Proof.
  unfold dadd. destruct (dget k d) eqn:E; rewrite dsum_dset, E; ring.
Qed.
Lemma dsum_nonzero {K} (f : K -> Qc) d : dsum f (filter nonzero d) = dsum f d.
Proof.
  unfold dsum. induction d as [|[k v] d IH]; simpl; auto.
  unfold nonzero at 1. simpl. destruct (Qc_eqb v 0) eqn:E; simpl; rewrite IH; auto.
  apply Qc_eqb_eq in E; subst. ring.
Qed.
Lemma dget_dadd {K} `{Eqb K} k k' q d : dget k (dadd k' q d) =
  if eqb k k' then Some (match dget k d with Some x => x + q | None => q end)%Qc else dget k d.
Proof.
  unfold dadd. destruct (eqb k k') eqn:E.
  - apply eqb_eq in E; subst. destruct (dget k' d); rewrite dget_dset_same; auto.
  - apply eqb_neq in E. destruct (dget k' d); rewrite dget_dset_other; auto.
Qed.
Lemma dadd_nodup {K} `{Eqb K} k q (d : dict K Qc) : NoDup (dkeys d) -> NoDup (dkeys (dadd k q d)).
Proof. intros ND. unfold dadd. destruct (dget k d); apply dset_nodup; auto. Qed.
Lemma dget_filter {K V} `{Eqb K} (p : K * V -> bool) k d : NoDup (dkeys d) ->
  dget k (filter p d) = match dget k d with Some v => if p (k, v) then Some v else None | None => None end.
Proof.
  induction d as [|[k' v] d IH]; simpl; intros ND; auto. inversion ND; subst.
  destruct (p (k', v)) eqn:EP; simpl.
  - destruct (eqb k k') eqn:E; auto. apply eqb_eq in E; subst. rewrite EP; auto.
  - destruct (eqb k k') eqn:E; auto. apply eqb_eq in E; subst. rewrite EP.
    rewrite IH by auto. destruct (dget k' d) eqn:ED; auto.
    exfalso. apply H2. apply dget_some_in. eauto.
Qed.
Lemma filter_nodup_keys {K V} (p : K * V -> bool) d : NoDup (dkeys d) -> NoDup (dkeys (filter p d)).
Proof.
  unfold dkeys. induction d as [|kv d IH]; simpl; intros ND; auto. inversion ND; subst.
  destruct (p kv); simpl; auto. constructor; auto.
  intros HI. apply H1. apply in_map_iff in HI. destruct HI as (x & E & HI). apply filter_In in HI.
  rewrite <- E. apply in_map. tauto.
Qed.

Definition dval {K} `{Eqb K} (k : K) (d : dict K Qc) : Qc := match dget k d with Some x => x | None => 0%Qc end.

Lemma lin_fold_spec fd l : forall d, NoDup (dkeys d) ->
  NoDup (dkeys (fold_left (add_lin fd) l d)) /\
  (forall a, dval a (fold_left (add_lin fd) l d) = (dval a d + lin_total fd l a)%Qc) /\
  (forall f, dsum f (fold_left (add_lin fd) l d) =
     (dsum f d + qsum (map (fun r => if r_removed r then 0 else match r_key r with K1 b => coefv fd r * f b | K2 _ _ => 0 end) l))%Qc).
Proof.
  unfold lin_total. induction l as [|r l IH]; intros d ND; simpl.
  - split; auto. split; intros; ring.
  - assert (ND' : NoDup (dkeys (add_lin fd d r))).
    { unfold add_lin. destruct (r_removed r); auto. destruct (r_key r); auto. apply dadd_nodup; auto. }
    destruct (IH _ ND') as (A & B & C). split; auto. split.
    + intros a. rewrite B. unfold add_lin. destruct (r_removed r); [ring|].
      destruct (r_key r) as [b|]; [|ring]. unfold dval. rewrite dget_dadd.
      cbn [eqb Eqb_string]. destruct (String.eqb a b); [|ring]. destruct (dget a d); ring.
    + intros f. rewrite C. unfold add_lin. destruct (r_removed r); [ring|].
      destruct (r_key r) as [b|]; [|ring]. rewrite dsum_dadd. ring.
Qed.
Lemma quad_fold_spec fd l : forall d, NoDup (dkeys d) ->
  NoDup (dkeys (fold_left (add_quad fd) l d)) /\
  (forall a b, dval (a, b) (fold_left (add_quad fd) l d) = (dval (a, b) d + quad_total fd l a b)%Qc) /\
  (forall f, dsum f (fold_left (add_quad fd) l d) =
     (dsum f d + qsum (map (fun r => if r_removed r then 0 else match r_key r with K1 _ => 0 | K2 a b => coefv fd r * f (a, b) end) l))%Qc).
Proof.
  unfold quad_total. induction l as [|r l IH]; intros d ND; simpl.
  - split; auto. split; intros; ring.
  - assert (ND' : NoDup (dkeys (add_quad fd d r))).
    { unfold add_quad. destruct (r_removed r); auto. destruct (r_key r); auto. apply dadd_nodup; auto. }
    destruct (IH _ ND') as (A & B & C). split; auto. split.
    + intros a b. rewrite B. unfold add_quad. destruct (r_removed r); [ring|].
      destruct (r_key r) as [c|c d']; [ring|]. unfold dval. rewrite dget_dadd.
      cbn [eqb Eqb_pair]. unfold pair_eqb. cbn [eqb Eqb_string fst snd]. destruct (String.eqb a c && String.eqb b d'); [|ring]. destruct (dget (a, b) d); ring.
    + intros f. rewrite C. unfold add_quad. destruct (r_removed r); [ring|].
      destruct (r_key r) as [c|c d']; [ring|]. rewrite dsum_dadd. ring.
Qed.
