(** * InteractionProofs: attributes under update_interaction, reading them back. *)
From Verif Require Import PyBase PyLemmas Constraint LogicalModel Spec LogicalProofs EnergyProofs ConvertProofs
  ConstraintProofs MergeProofs PhysicalProofs.
Open Scope list_scope.

(** Every column has one entry per interaction (registered or not). *)
Definition rect (m : lmodel) : Prop :=
  m_len m = length (m_rows m) /\ NoDup (dkeys (m_cols m)) /\ Forall (fun kc => length (snd kc) = m_len m) (m_cols m).
Lemma aligned_rect m : aligned m -> rect m.
Proof. intros (A & B & C & D). split; auto. split; auto. rewrite B; auto. Qed.

Lemma nth_repeat_nan n i : nth i (repeat ANan n) ANan = ANan.
Proof. revert i; induction n; intros [|i]; simpl; auto. Qed.

Lemma nth_set {A} i (v d : A) l l' j : set_nth i v l = Some l' -> nth j l' d = if (j =? i)%nat then v else nth j l d.
Proof.
  intros E. pose proof (set_nth_nth i v l l' j E) as HN.
  destruct (j =? i)%nat; [apply nth_error_nth; auto|].
  destruct (nth_error l j) eqn:EL.
  - rewrite (nth_error_nth _ _ d EL). apply nth_error_nth; auto.
  - apply nth_error_None in EL, HN. rewrite !nth_overflow; auto.
Qed.
Lemma Forall_dset {K V} `{Eqb K} (P : K * V -> Prop) k v d :
  (forall k' , P (k', v)) -> Forall P d -> Forall P (dset k v d).
Proof.
  intros HV HF. apply Forall_forall. intros [k' w] HI. apply dset_in in HI. destruct HI as [[-> ->]|HI]; auto.
  rewrite Forall_forall in HF; auto.
Qed.
Lemma update_attr_rect i kv m : rect m -> i < length (m_rows m) ->
  exists m', update_attr i kv m = (m', Ok tt) /\ rect m' /\ m_rows m' = m_rows m /\ m_len m' = m_len m /\ m_attrs m' = m_attrs m /\
    (forall j k, attr_val m' j k = if (j =? i)%nat && String.eqb k (attr_key (fst kv)) then snd kv else attr_val m j k) /\
    dkeys (m_cols m') = dkeys (m_cols m) ++ (if dmem (attr_key (fst kv)) (m_cols m) then [] else [attr_key (fst kv)]).
Proof.
  intros (HL & HN & HF) Hi. unfold update_attr. set (k := attr_key (fst kv)).
  set (m1 := if dmem k (m_cols m) then m else with_cols (dset k (repeat ANan (m_len m)) (m_cols m)) m).
  assert (H1 : exists c, dget k (m_cols m1) = Some c /\ length c = m_len m /\
       (forall j, nth j c ANan = attr_val m j k)).
  { unfold m1, attr_val, dmem. destruct (dget k (m_cols m)) as [c|] eqn:EC.
    - exists c. split; auto. split; auto. rewrite Forall_forall in HF. apply (HF (k, c)). apply dget_in; auto.
    - exists (repeat ANan (m_len m)). simpl. rewrite dget_dset_same. split; auto. rewrite repeat_length. split; auto.
      intros j. apply nth_repeat_nan. }
  destruct H1 as (c & EC & LC & VC). rewrite EC.
  destruct (set_nth_some i (snd kv) c) as [c' Ec']; [lia|]. rewrite Ec'.
  eexists. split; [reflexivity|].
  assert (F1 : m_rows m1 = m_rows m /\ m_len m1 = m_len m /\ m_attrs m1 = m_attrs m /\ NoDup (dkeys (m_cols m1)) /\
       Forall (fun kc => length (snd kc) = m_len m) (m_cols m1) /\
       (forall k', k' <> k -> dget k' (m_cols m1) = dget k' (m_cols m)) /\
       dkeys (m_cols m1) = dkeys (m_cols m) ++ (if dmem k (m_cols m) then [] else [k])).
  { unfold m1. destruct (dmem k (m_cols m)) eqn:EM; simpl.
    - rewrite app_nil_r. repeat split; auto.
    - repeat split; auto.
      + apply dset_nodup; auto.
      + apply Forall_dset; auto. intros; simpl; apply repeat_length.
      + intros k' NE. apply dget_dset_other; auto.
      + apply dmem_nin in EM. rewrite dset_keys_new by auto. unfold dkeys. rewrite map_app. reflexivity. }
  destruct F1 as (R1 & L1 & A1 & N1 & W1 & O1 & K1).
  assert (IK : In k (dkeys (m_cols m1))) by (apply dget_some_in; eauto).
  simpl. split; [|split; [auto|split; [auto|split; [auto|split]]]].
  - split; [simpl; congruence|]. simpl. split; [apply dset_nodup; auto|].
    rewrite L1. apply Forall_dset; auto. intros; simpl. rewrite <- LC. eapply set_nth_length; eauto.
  - intros j k'. unfold attr_val; simpl. destruct (String.eqb k' k) eqn:EK.
    + apply String.eqb_eq in EK; subst k'. rewrite dget_dset_same. rewrite (nth_set _ _ _ _ _ _ Ec'), VC.
      rewrite andb_true_r. reflexivity.
    + apply String.eqb_neq in EK. rewrite dget_dset_other by auto. rewrite O1 by auto. rewrite andb_false_r. reflexivity.
  - rewrite dset_keys_in by auto. exact K1.
Qed.
Lemma update_attrs_rect i d : forall m, NoDup (dkeys d) -> rect m -> i < length (m_rows m) ->
  exists m', mfor d (update_attr i) m = (m', Ok tt) /\ rect m' /\ m_rows m' = m_rows m /\ m_len m' = m_len m /\ m_attrs m' = m_attrs m /\
    (forall j k, j <> i -> attr_val m' j k = attr_val m j k) /\
    (forall k v, dget k d = Some v -> attr_val m' i (attr_key k) = v) /\
    (forall k, (forall k', In k' (dkeys d) -> k <> attr_key k') -> attr_val m' i k = attr_val m i k) /\
    ((forall k, In k (dkeys d) -> In (attr_key k) (dkeys (m_cols m))) -> dkeys (m_cols m') = dkeys (m_cols m)).
Proof.
  induction d as [|[k v] d IH]; intros m ND HR Hi; simpl.
  - exists m. split; [reflexivity|]. split; auto. split; auto. split; auto. split; auto. split; auto. split; [discriminate|auto].
  - destruct (update_attr_rect i (k, v) m HR Hi) as (m1 & E1 & R1 & W1 & L1 & A1 & V1 & K1). cbn [fst snd] in *.
    inversion ND; subst.
    destruct (IH m1) as (m2 & E2 & R2 & W2 & L2 & A2 & V2 & G2 & U2 & K2); auto; [rewrite W1; auto|].
    exists m2. unfold bind. rewrite E1. split; [exact E2|]. split; auto. split; [congruence|]. split; [congruence|]. split; [congruence|].
    split; [|split; [|split]].
    + intros j a NJ. rewrite V2, V1 by auto. rewrite (proj2 (Nat.eqb_neq j i)) by auto. reflexivity.
    + intros a w. destruct (String.eqb a k) eqn:EA.
      * apply String.eqb_eq in EA; subst a. intros HE; inversion HE; subst w.
        rewrite U2; [rewrite V1, Nat.eqb_refl, String.eqb_refl; reflexivity|].
        intros k' HI HE2. apply attr_key_inj in HE2. subst k'. contradiction.
      * intros HG. apply G2; auto.
    + intros a HA. rewrite U2; [rewrite V1|intros k' HI; apply HA; auto].
      rewrite (proj2 (String.eqb_neq a (attr_key k))); [rewrite andb_false_r; reflexivity|apply HA; auto].
    + intros HK. assert (EM : dmem (attr_key k) (m_cols m) = true) by (apply dmem_in; apply HK; auto).
      rewrite EM, app_nil_r in K1. rewrite K2; [auto|]. intros k' HI. rewrite K1. apply HK; auto.
Qed.

(** update_at on an existing interaction of a model with rectangular columns. *)
Lemma update_at_rect m l1 x l2 c s a q : rect m -> m_rows m = l1 ++ x :: l2 -> ~ In (r_name x) (map r_name l1) ->
  (forall d, a = Some d -> NoDup (dkeys d)) ->
  exists m', update_at (r_name x) c s a q m = (m', Ok tt) /\ rect m' /\
    core m' = core (with_rows (l1 ++ upd_fields c s q x :: l2) m) /\ m_len m' = m_len m /\ m_attrs m' = m_attrs m /\
    let d := match a with Some d => d | None => [] end in
    (forall j k, j <> length l1 -> attr_val m' j k = attr_val m j k) /\
    (forall k v, dget k d = Some v -> attr_val m' (length l1) (attr_key k) = v) /\
    (forall k, (forall k', In k' (dkeys d) -> k <> attr_key k') -> attr_val m' (length l1) k = attr_val m (length l1) k) /\
    ((forall k, In k (dkeys d) -> In (attr_key k) (dkeys (m_cols m))) -> dkeys (m_cols m') = dkeys (m_cols m)).
Proof.
  intros HR ER HN HD.
  assert (HI : name_index m (r_name x) = Ok (length l1)) by (eapply name_index_mid; eauto).
  unfold update_at. cbv [bind get lift]. rewrite HI.
  set (x1 := match c with Some c => set_coef c | None => fun r => r end x).
  set (x2 := match s with Some s => set_scale s | None => fun r => r end x1).
  assert (E1 : opt_do c (fun c => upd_row (length l1) (set_coef c)) m = (with_rows (l1 ++ x1 :: l2) m, Ok tt)).
  { destruct c; simpl; unfold upd_row, modify, ret.
    - rewrite ER, upd_nth_mid. reflexivity.
    - rewrite with_rows_id by auto. reflexivity. }
  rewrite E1.
  assert (E2 : opt_do s (fun s => upd_row (length l1) (set_scale s)) (with_rows (l1 ++ x1 :: l2) m) = (with_rows (l1 ++ x2 :: l2) m, Ok tt)).
  { destruct s; simpl; unfold upd_row, modify, ret; simpl.
    - rewrite upd_nth_mid. reflexivity.
    - reflexivity. }
  rewrite E2.
  set (m2 := with_rows (l1 ++ x2 :: l2) m).
  assert (R2 : rect m2).
  { destruct HR as (A & B & C). split; [|split; auto]. simpl. rewrite A, ER, !app_length. reflexivity. }
  set (d := match a with Some d => d | None => [] end).
  assert (H2 : exists m3, opt_do a (fun d => mfor d (update_attr (length l1))) m2 = (m3, Ok tt) /\ rect m3 /\ core m3 = core m2 /\
     m_len m3 = m_len m2 /\ m_attrs m3 = m_attrs m2 /\
    (forall j k, j <> length l1 -> attr_val m3 j k = attr_val m2 j k) /\
    (forall k v, dget k d = Some v -> attr_val m3 (length l1) (attr_key k) = v) /\
    (forall k, (forall k', In k' (dkeys d) -> k <> attr_key k') -> attr_val m3 (length l1) k = attr_val m2 (length l1) k) /\
    ((forall k, In k (dkeys d) -> In (attr_key k) (dkeys (m_cols m2))) -> dkeys (m_cols m3) = dkeys (m_cols m2))).
  { destruct a as [d0|]; simpl.
    - destruct (update_attrs_rect (length l1) d0 m2) as (m3 & E3 & R3 & W3 & L3 & A3 & V3 & G3 & U3 & K3); auto.
      { simpl. rewrite app_length; simpl; lia. }
      exists m3. split; auto. split; auto. split; [eapply update_attrs_core; eauto|]. auto 10.
    - exists m2. split; [reflexivity|]. split; auto. split; auto. split; auto. split; auto. split; auto. split; [discriminate|auto]. }
  destruct H2 as (m3 & E3 & R3 & C3 & L3 & A3 & V3 & G3 & U3 & K3). rewrite E3.
  unfold upd_row, modify. simpl.
  assert (W3 : m_rows m3 = l1 ++ x2 :: l2) by (rewrite (core_rows _ _ C3); reflexivity).
  rewrite W3, !upd_nth_mid. eexists. split; [reflexivity|]. split.
  { destruct R3 as (A & B & C). split; [|split; auto]. simpl. rewrite A, W3, !app_length. reflexivity. }
  split.
  { unfold core in *; simpl in *. inversion C3. reflexivity. }
  simpl. split; auto.
Qed.

(** Reading attributes back. *)
Lemma read_attrs_ok m i l : (forall a, In a l -> exists c, dget a (m_cols m) = Some c /\ i < length c) ->
  read_attrs m i l = Ok (map (fun a => (a, attr_val m i a)) l).
Proof.
  induction l as [|a l IH]; intros HL; simpl; auto.
  destruct (HL a) as (c & EC & Hi); [simpl; auto|]. rewrite EC.
  destruct (nth_error c i) as [v|] eqn:EN; [|apply nth_error_None in EN; lia].
  rewrite IH by (intros; apply HL; simpl; auto). unfold attr_val at 2. rewrite EC.
  rewrite (nth_error_nth _ _ ANan EN). reflexivity.
Qed.
Lemma aligned_col m a : aligned m -> In a (m_attrs m) -> exists c, dget a (m_cols m) = Some c /\ length c = length (m_rows m).
Proof.
  intros (A & B & C & D) HI. rewrite <- B in HI. apply dget_some_in in HI. destruct HI as [c EC].
  exists c. split; auto. rewrite <- A. rewrite Forall_forall in D. apply (D (a, c)). apply dget_in; auto.
Qed.
Lemma get_attributes_eq t n m nm l1 x l2 : aligned m -> internal_name t n m = (m, Ok nm) ->
  m_rows m = l1 ++ x :: l2 -> r_name x = nm -> ~ In nm (map r_name l1) ->
  get_attributes t n m = (m, Ok (map (fun a => (a, attr_val m (length l1) a)) (m_attrs m))).
Proof.
  intros HA EI ER HX HN. unfold get_attributes, bind, get, lift. rewrite EI. subst nm.
  rewrite (name_index_mid m l1 x l2 ER HN). rewrite read_attrs_ok; auto.
  intros a Ha. destruct (aligned_col m a HA Ha) as (c & EC & LC). exists c. split; auto.
  rewrite LC, ER, app_length. simpl. lia.
Qed.
Lemma dget_map_id (f : string -> aval) l k : dget k (map (fun a => (a, f a)) l) = if mem k l then Some (f k) else None.
Proof.
  induction l as [|a l IH]; simpl; auto. destruct (String.eqb k a) eqn:E; simpl; auto.
  apply String.eqb_eq in E; subst; auto.
Qed.
