(** * LogicalProofs: lemmas about add/update/remove. *)
From Verif Require Import PyBase PyLemmas Constraint LogicalModel Spec.
Open Scope list_scope.

Lemma mfor_inv {S A} (I : S -> Prop) (f : A -> M S unit) l :
  (forall x s s' r, In x l -> I s -> f x s = (s', r) -> I s') ->
  forall s s' r, I s -> mfor l f s = (s', r) -> I s'.
Proof.
  induction l as [|a l IH]; simpl; intros HF s s' r HI E.
  - minv; auto.
  - destruct r as [u|e].
    + minv. eapply IH; [| |exact E]; eauto.
    + apply bind_err in E. destruct E as [E|(s1 & u & E1 & E)]; [eauto|].
      eapply IH; [| |exact E]; eauto.
Qed.

(** Fields untouched by attribute bookkeeping. *)
Definition core (m : lmodel) :=
  (m_mtype m, m_vars m, m_offset m, m_deleted m, m_fixed m, m_constrs m, m_rows m, m_prev m).

Lemma core_rows m m' : core m = core m' -> m_rows m = m_rows m'.
Proof. unfold core; congruence. Qed.
Lemma core_offset m m' : core m = core m' -> m_offset m = m_offset m'.
Proof. unfold core; congruence. Qed.
Lemma core_energy fd s m m' : core m = core m' -> energy fd s m = energy fd s m'.
Proof. intros E; unfold energy. rewrite (core_rows _ _ E), (core_offset _ _ E); auto. Qed.

Lemma expand_attrs_core m m' r : expand_attrs m = (m', r) -> core m' = core m.
Proof.
  unfold expand_attrs. intros E.
  revert E. apply (mfor_inv (fun x => core x = core m)); auto.
  intros x s s' r' _ HI E. destruct (dget x (m_cols s)); inversion E; subst; auto.
Qed.
Lemma set_new_attr_core kv m m' r : set_new_attr kv m = (m', r) -> core m' = core m.
Proof.
  unfold set_new_attr. intros E.
  destruct (dmem (attr_key (fst kv)) (m_cols m)); simpl in E;
  destruct (dget _ _); [destruct (set_last _ _)| |destruct (set_last _ _)|]; inversion E; subst; auto.
Qed.
Lemma set_new_attrs_core l m m' r : mfor l set_new_attr m = (m', r) -> core m' = core m.
Proof.
  intros E. revert E. apply (mfor_inv (fun x => core x = core m)); auto.
  intros x s s' r' _ HI Hx. rewrite (set_new_attr_core _ _ _ _ Hx); auto.
Qed.

Definition new_row nm inf c s q := mkRow nm (in_key inf) (in_inter inf) c s (Some q) true false.

(** What an accepted or rejected add_interaction does to the core fields. *)
Definition ts_now (ev : env) (ts : tsarg) : tsarg := match ts with TsNone => TsNum (e_now ev) | _ => ts end.

Record add_args (ev : env) (t : target) (name : narg) (co sc : carg) (at_ : attrarg) (ts : tsarg)
   (m : lmodel) (c s : coef) (q : Qc) (inf : info) (nm : string) (d : dict string aval) : Prop := {
  aa_t : t_truthy t = true;
  aa_c : co = AC c; aa_s : sc = AC s; aa_q : ts_now ev ts = TsNum q;
  aa_inf : interaction_info t = Ok inf; aa_nm : add_name name (in_name inf) = Ok nm;
  aa_at : check_attrs at_ = Ok d;
  aa_fresh : ~ In nm (names m) }.

Definition add_body nm inf c s q (d : dict string aval) : LM unit :=
  modify (fun m => with_rows (m_rows m ++ [new_row nm inf c s q]) m) ;;;
  expand_attrs ;;; mfor d set_new_attr ;;; modify (fun m => with_len (S (m_len m)) m).

Lemma add_split ev t name co sc at_ ts m :
  (exists e, add_interaction ev t name co sc at_ ts m = (m, Err e) /\
     forall c s q inf nm d, ~ add_args ev t name co sc at_ ts m c s q inf nm d) \/
  (exists c s q inf nm d,
     add_args ev t name co sc at_ ts m c s q inf nm d /\
     add_interaction ev t name co sc at_ ts m = add_body nm inf c s q d m).
Proof.
  unfold add_interaction.
  destruct (t_truthy t) eqn:Et; [|left; exists ValueError; split; [reflexivity|intros * []; congruence]].
  destruct co as [c|]; [|left; exists TypeError; split; [reflexivity|intros * []; congruence]].
  destruct sc as [s|]; [|left; exists TypeError; split; [reflexivity|intros * []; congruence]].
  destruct (check_attrs at_) as [d|e] eqn:Ea; [|left; exists e; split; [reflexivity|intros * []; congruence]].
  destruct (match ts with TsNone => TsNum (e_now ev) | _ => ts end) as [|q|] eqn:Eq;
   try (left; exists TypeError; split; [reflexivity|
       intros * []; unfold ts_now in *; congruence]).
  destruct (interaction_info t) as [inf|e] eqn:Ei;
   [|left; exists e; split; [reflexivity|intros * []; congruence]].
  destruct (add_name name (in_name inf)) as [nm|e] eqn:En;
   [|left; exists e; split; [unfold guard, bind, lift, ret, check_coef; simpl; rewrite En; reflexivity|
      intros * [? ? ? ? HI HN]; rewrite Ei in HI; inversion HI; subst; congruence]].
  destruct (has_name m nm) eqn:Eh.
  - left; exists ValueError. split.
    + unfold guard, bind, lift, ret, check_coef, get; simpl; rewrite En, Eh; reflexivity.
    + intros * [? ? ? ? HI HN ? HF]. rewrite Ei in HI; inversion HI; subst.
      rewrite En in HN; inversion HN; subst. apply HF. apply mem_in; auto.
  - right. exists c, s, q, inf, nm, d. split.
    + constructor; auto. apply mem_nin; auto.
    + unfold guard, bind, lift, ret, check_coef, get; simpl; rewrite En, Eh; reflexivity.
Qed.

Lemma add_body_core nm inf c s q d m m' r : add_body nm inf c s q d m = (m', r) ->
  core m' = core (with_rows (m_rows m ++ [new_row nm inf c s q]) m).
Proof.
  unfold add_body. destruct r as [u|e]; intros E.
  - apply bind_ok in E. destruct E as (m1 & u1 & E1 & E). inversion E1; subst; clear E1.
    apply bind_ok in E. destruct E as (m2 & u2 & E2 & E).
    apply bind_ok in E. destruct E as (m3 & u3 & E3 & E). inversion E; subst; clear E.
    change (core m3 = core (with_rows (m_rows m ++ [new_row nm inf c s q]) m)).
    rewrite (set_new_attrs_core _ _ _ _ E3). apply (expand_attrs_core _ _ _ E2).
  - apply bind_err in E. destruct E as [E|(s1 & u & E1 & E)]; [inversion E|]. minv.
    apply bind_err in E. destruct E as [E|(s1 & u1 & E1 & E)]; [apply (expand_attrs_core _ _ _ E)|].
    apply bind_err in E. destruct E as [E|(s2 & u2 & E2 & E)]; [|inversion E].
    rewrite (set_new_attrs_core _ _ _ _ E). apply (expand_attrs_core _ _ _ E1).
Qed.

(** Success: exactly one new row at the end of the core fields. *)
Lemma add_ok_core ev t name co sc at_ ts m m' u :
  add_interaction ev t name co sc at_ ts m = (m', Ok u) ->
  exists c s q inf nm d, add_args ev t name co sc at_ ts m c s q inf nm d /\
    core m' = core (with_rows (m_rows m ++ [new_row nm inf c s q]) m).
Proof.
  intros E. destruct (add_split ev t name co sc at_ ts m) as [(e & E' & _)|(c&s&q&inf&nm&d&HA&E')].
  - congruence.
  - rewrite E' in E. apply add_body_core in E. eauto 10.
Qed.

(** Failure on any model: rows unchanged, or the new row was appended (only
    when the attribute bookkeeping itself failed). *)
Lemma add_any_core ev t name co sc at_ ts m m' r :
  add_interaction ev t name co sc at_ ts m = (m', r) ->
  m' = m \/ exists c s q inf nm d, add_args ev t name co sc at_ ts m c s q inf nm d /\
    core m' = core (with_rows (m_rows m ++ [new_row nm inf c s q]) m).
Proof.
  intros E. destruct (add_split ev t name co sc at_ ts m) as [(e & E' & _)|(c&s&q&inf&nm&d&HA&E')].
  - left; congruence.
  - right. rewrite E' in E. apply add_body_core in E. eauto 10.
Qed.

(** ** Aligned models: attribute bookkeeping *)
Definition expand1 (kc : string * list aval) := (fst kc, snd kc ++ [ANan]).

Lemma expand_loop_aligned done todo m :
  m_cols m = map expand1 done ++ todo -> NoDup (dkeys (done ++ todo)) ->
  mfor (dkeys todo) (fun a => fun m =>
    match dget a (m_cols m) with
    | None => (m, Err KeyError)
    | Some col => (with_cols (dset a (col ++ [ANan]) (m_cols m)) m, Ok tt)
    end) m = (with_cols (map expand1 (done ++ todo)) m, Ok tt).
Proof.
  revert done m; induction todo as [|[k c] r IH]; intros done m E ND; simpl.
  - rewrite !app_nil_r in *. unfold ret. rewrite <- E. destruct m; reflexivity.
  - assert (HN : ~ In k (dkeys (map expand1 done))).
    { unfold dkeys in *. rewrite map_map. simpl. rewrite map_app in ND. simpl in ND.
      apply NoDup_remove_2 in ND. intros HI. apply ND. apply in_app_iff; auto. }
    unfold bind at 1. rewrite E. rewrite dget_mid by auto. rewrite dset_mid by auto.
    rewrite (IH (done ++ [(k, c)])).
    + rewrite <- app_assoc. simpl. destruct m; reflexivity.
    + simpl. rewrite map_app. simpl. rewrite <- app_assoc. reflexivity.
    + rewrite <- app_assoc. simpl. auto.
Qed.

Lemma expand_attrs_aligned m : dkeys (m_cols m) = m_attrs m -> NoDup (m_attrs m) ->
  expand_attrs m = (with_cols (map expand1 (m_cols m)) m, Ok tt).
Proof.
  intros HK ND. unfold expand_attrs. rewrite <- HK.
  apply (expand_loop_aligned [] (m_cols m)); auto. simpl. rewrite HK; auto.
Qed.

Lemma set_last_some {A} (v : A) l : l <> [] -> set_last v l = Some (removelast l ++ [v]).
Proof. destruct l; [congruence|reflexivity]. Qed.
Lemma removelast_length {A} (l : list A) : length (removelast l) = Nat.pred (length l).
Proof.
  induction l as [|a [|b l] IH]; auto. simpl in *. rewrite IH. reflexivity.
Qed.
Lemma nth_removelast_snoc {A} (v d : A) l i n : length l = S n ->
  nth i (removelast l ++ [v]) d = if (i =? n)%nat then v else nth i l d.
Proof.
  intros L. assert (L' : length (removelast l) = n) by (rewrite removelast_length, L; auto).
  destruct (i =? n)%nat eqn:E.
  - apply Nat.eqb_eq in E; subst i. rewrite app_nth2; rewrite L'; [|lia].
    rewrite Nat.sub_diag. reflexivity.
  - apply Nat.eqb_neq in E. destruct (Nat.lt_ge_cases i n).
    + rewrite app_nth1 by lia. assert (NE : l <> []) by (destruct l; simpl in *; congruence).
      rewrite (app_removelast_last d NE) at 2. rewrite app_nth1 by lia. reflexivity.
    + rewrite !nth_overflow; auto; rewrite ?app_length, ?L'; simpl; lia.
Qed.

(** Between lines 184 and 196: columns already have one more entry than
    _interactions_length. *)
Definition aligned1 (m : lmodel) : Prop :=
  dkeys (m_cols m) = m_attrs m /\ NoDup (m_attrs m) /\
  Forall (fun kc => length (snd kc) = S (m_len m)) (m_cols m).

Lemma set_new_attr_aligned1 kv m : aligned1 m ->
  exists m', set_new_attr kv m = (m', Ok tt) /\ aligned1 m' /\ m_len m' = m_len m /\
    (forall i k, attr_val m' i k =
       if (i =? m_len m)%nat && String.eqb k (attr_key (fst kv)) then snd kv else attr_val m i k).
Proof.
  intros (HK & ND & HL). unfold set_new_attr. set (k := attr_key (fst kv)).
  destruct (dmem k (m_cols m)) eqn:Em.
  - apply dmem_in, dget_some_in in Em. destruct Em as [c Ec]. rewrite Ec.
    assert (Lc : length c = S (m_len m)).
    { apply dget_in in Ec. rewrite Forall_forall in HL. apply (HL (k, c)); auto. }
    assert (Nc : c <> []) by (intros ->; discriminate).
    rewrite set_last_some by auto.
    eexists. split; [reflexivity|]. split; [|split].
    + repeat split; simpl.
      * rewrite dset_keys_in; auto. apply dget_some_in; eauto.
      * auto.
      * rewrite Forall_forall in *. intros [k' c'] HI.
        simpl. assert (ND' : NoDup (dkeys (dset k (removelast c ++ [snd kv]) (m_cols m)))).
        { apply dset_nodup. rewrite HK; auto. }
        apply (in_dget _ _ _ ND') in HI. destruct (String.eqb_spec k' k).
        -- subst. rewrite dget_dset_same in HI. inversion HI; subst.
           rewrite app_length, removelast_length, Lc. simpl. lia.
        -- rewrite dget_dset_other in HI by auto. apply dget_in in HI. apply (HL (k', c')); auto.
    + reflexivity.
    + intros i k'. unfold attr_val; simpl. destruct (String.eqb_spec k' k).
      * subst k'. rewrite dget_dset_same, Ec. rewrite (nth_removelast_snoc _ _ _ _ _ Lc).
        rewrite andb_true_r. auto.
      * rewrite dget_dset_other by auto. rewrite andb_false_r; auto.
  - apply dmem_nin in Em. cbn [m_cols m_attrs m_len with_cols with_attrs]. rewrite dget_dset_same.
    rewrite set_last_some by (simpl; congruence).
    eexists. split; [reflexivity|]. split; [|split].
    + repeat split; cbn [m_cols m_attrs m_len with_cols with_attrs].
      * rewrite dset_keys_in by (apply dset_in_iff; auto). rewrite dset_keys_new by auto.
        unfold dkeys in *; rewrite map_app, HK; reflexivity.
      * apply NoDup_snoc. split; auto. rewrite <- HK; auto.
      * rewrite (dset_keys_new k (repeat ANan (S (m_len m)))) by auto. rewrite dset_mid by auto.
        apply Forall_app; split; auto. constructor; auto. cbn [fst snd].
        rewrite app_length.
        rewrite removelast_length, repeat_length. simpl; lia.
    + reflexivity.
    + intros i k'. unfold attr_val. cbn [m_cols with_cols with_attrs]. destruct (String.eqb_spec k' k).
      * subst k'. rewrite dget_dset_same. rewrite (proj2 (dget_none k (m_cols m)) Em).
        rewrite (nth_removelast_snoc _ _ _ _ (m_len m)) by apply repeat_length.
        rewrite andb_true_r. destruct (i =? m_len m)%nat; auto.
        apply nth_repeat.
      * rewrite !dget_dset_other by auto. rewrite andb_false_r; auto.
Qed.

(** The value python's dict(d)[k] has after the loop over d.items(): with
    distinct keys this is dget. *)
Lemma attr_key_inj a b : attr_key a = attr_key b -> a = b.
Proof. unfold attr_key; simpl. intros E; inversion E; auto. Qed.

Lemma set_new_attrs_aligned1 d m : aligned1 m -> NoDup (dkeys d) ->
  exists m', mfor d set_new_attr m = (m', Ok tt) /\ aligned1 m' /\ m_len m' = m_len m /\
    (forall i k, i <> m_len m -> attr_val m' i k = attr_val m i k) /\
    (forall k v, dget k d = Some v -> attr_val m' (m_len m) (attr_key k) = v) /\
    (forall k, (forall k', In k' (dkeys d) -> k <> attr_key k') ->
       attr_val m' (m_len m) k = attr_val m (m_len m) k).
Proof.
  revert m; induction d as [|[k v] r IH]; intros m HA ND; simpl.
  - exists m. split; [reflexivity|]. repeat split; auto; try apply HA; try (intros; discriminate).
  - inversion ND as [|? ? NI ND']; subst.
    destruct (set_new_attr_aligned1 (k, v) m HA) as (m1 & E1 & HA1 & L1 & V1).
    destruct (IH m1 HA1 ND') as (m2 & E2 & HA2 & L2 & V2a & V2b & V2c).
    exists m2. unfold bind. rewrite E1. split; [auto|]. split; [auto|]. split; [congruence|].
    rewrite L1 in *. split; [|split].
    + intros i k' NE. rewrite V2a by auto. rewrite V1.
      apply Nat.eqb_neq in NE. rewrite NE. auto.
    + intros k' v' E. cbn [dget] in E. destruct (String.eqb_spec k' k) as [e|n].
      * subst k'. inversion E; subst. rewrite V2c.
        -- rewrite V1. rewrite Nat.eqb_refl, String.eqb_refl. reflexivity.
        -- intros k'' HI HE. apply attr_key_inj in HE; subst. contradiction.
      * apply V2b. auto.
    + intros k' HN. rewrite V2c.
      * rewrite V1. assert (NE : k' <> attr_key k) by (apply HN; auto).
        apply String.eqb_neq in NE. simpl. rewrite NE, andb_false_r. auto.
      * intros k'' HI. apply HN. auto.
Qed.

Lemma attr_val_expand m i k : aligned m ->
  attr_val (with_cols (map expand1 (m_cols m)) m) i k = attr_val m i k.
Proof.
  intros (HL & HK & ND & HC). unfold attr_val; simpl.
  assert (E : dget k (map expand1 (m_cols m)) =
              match dget k (m_cols m) with Some c => Some (c ++ [ANan]) | None => None end).
  { clear. induction (m_cols m) as [|[k' c] r IH]; simpl; auto. destruct (String.eqb k k'); auto. }
  rewrite E. destruct (dget k (m_cols m)) eqn:Eg; auto.
  destruct (Nat.lt_ge_cases i (length l)).
  - rewrite app_nth1; auto.
  - rewrite app_nth2 by auto. rewrite (nth_overflow l) by auto.
    destruct (i - length l); auto. destruct n; auto.
Qed.

(** add_interaction on an aligned model, attribute arguments with distinct keys
    (python dicts always have distinct keys). *)
Lemma add_body_aligned nm inf c s q d m : aligned m -> NoDup (dkeys d) ->
  exists m', add_body nm inf c s q d m = (m', Ok tt) /\
    core m' = core (with_rows (m_rows m ++ [new_row nm inf c s q]) m) /\
    aligned m' /\ m_len m' = S (m_len m) /\
    (forall i k, i <> m_len m -> attr_val m' i k = attr_val m i k) /\
    (forall k v, dget k d = Some v -> attr_val m' (m_len m) (attr_key k) = v) /\
    (forall k, (forall k', In k' (dkeys d) -> k <> attr_key k') -> attr_val m' (m_len m) k = ANan).
Proof.
  intros HA ND.
  set (m1 := with_rows (m_rows m ++ [new_row nm inf c s q]) m).
  assert (HK : dkeys (m_cols m1) = m_attrs m1) by apply HA.
  assert (HN : NoDup (m_attrs m1)) by apply HA.
  pose proof (expand_attrs_aligned m1 HK HN) as E1.
  set (m2 := with_cols (map expand1 (m_cols m1)) m1) in *.
  assert (HA2 : aligned1 m2).
  { destruct HA as (HL & HK' & HN' & HC). repeat split; simpl; auto.
    - rewrite <- HK'. unfold dkeys. rewrite map_map. reflexivity.
    - rewrite Forall_forall in *. intros kc HI. apply in_map_iff in HI.
      destruct HI as (kc0 & <- & HI). simpl. rewrite app_length, HC by auto. simpl; lia. }
  destruct (set_new_attrs_aligned1 d m2 HA2 ND) as (m3 & E3 & HA3 & L3 & V1 & V2 & V3).
  assert (EB : add_body nm inf c s q d m = (with_len (S (m_len m3)) m3, Ok tt)).
  { unfold add_body, bind, modify. fold m1. rewrite E1, E3. reflexivity. }
  exists (with_len (S (m_len m3)) m3).
  pose proof (add_body_core _ _ _ _ _ _ _ _ _ EB) as EC.
  assert (EV : forall i k, attr_val m2 i k = attr_val m i k).
  { intros. change (attr_val m2 i k) with (attr_val (with_cols (map expand1 (m_cols m)) m) i k).
    apply attr_val_expand; auto. }
  split; [auto|]. split; [auto|]. split; [|split; [|split; [|split]]].
  - destruct HA3 as (A & B & C). repeat split; simpl; auto.
    apply core_rows in EC. simpl in EC. rewrite EC, app_length, L3. simpl.
    destruct HA as [-> _]. lia.
  - simpl; rewrite L3; reflexivity.
  - intros i k NE. change (attr_val m3 i k = attr_val m i k). rewrite V1 by auto. apply EV.
  - intros k v E. apply (V2 k v E).
  - intros k HNk. change (attr_val m3 (m_len m2) k = ANan). rewrite (V3 k HNk), EV.
    unfold attr_val. destruct (dget k (m_cols m)) eqn:Eg; auto.
    apply nth_overflow. destruct HA as (HL & HK' & HN' & HC).
    apply dget_in in Eg. rewrite Forall_forall in HC. apply HC in Eg. simpl in *. lia.
Qed.

(** ** Name lookup *)
Lemma index_of_split {A} `{Eqb A} x l i : index_of x l = Some i ->
  exists l1 l2, l = l1 ++ x :: l2 /\ ~ In x l1 /\ length l1 = i.
Proof.
  revert i; induction l as [|y r IH]; simpl; intros i E; [discriminate|].
  destruct (eqb x y) eqn:Ex.
  - inversion E; subst. apply eqb_eq in Ex; subst. exists [], r. repeat split; auto.
  - destruct (index_of x r) eqn:Er; inversion E; subst.
    destruct (IH _ eq_refl) as (l1 & l2 & -> & HN & L). exists (y :: l1), l2.
    repeat split; simpl; auto. intros [->|HI]; auto. rewrite eqb_refl in Ex; discriminate.
Qed.
Lemma name_index_split m nm i : name_index m nm = Ok i ->
  exists l1 r l2, m_rows m = l1 ++ r :: l2 /\ r_name r = nm /\
    ~ In nm (map r_name l1) /\ length l1 = i.
Proof.
  unfold name_index. destruct (index_of nm (names m)) eqn:E; intros EI; inversion EI; subst.
  apply index_of_split in E. destruct E as (n1 & n2 & EN & HN & L).
  unfold names in EN. apply map_eq_app in EN. destruct EN as (l1 & l2' & -> & E1 & E2).
  apply map_eq_cons in E2. destruct E2 as (r & l2 & -> & <- & <-). subst n1.
  exists l1, r, l2. rewrite map_length in L. repeat split; auto.
Qed.
Lemma name_index_mid m l1 r l2 : m_rows m = l1 ++ r :: l2 -> ~ In (r_name r) (map r_name l1) ->
  name_index m (r_name r) = Ok (length l1).
Proof.
  intros E HN. unfold name_index, names. rewrite E, map_app. simpl.
  rewrite index_of_mid by auto. rewrite map_length. reflexivity.
Qed.
Lemma has_name_mid m l1 r l2 : m_rows m = l1 ++ r :: l2 -> has_name m (r_name r) = true.
Proof.
  intros E. apply mem_in. unfold names. rewrite E, map_app. apply in_app_iff; simpl; auto.
Qed.
Lemma is_removed_mid m l1 r l2 : m_rows m = l1 ++ r :: l2 -> ~ In (r_name r) (map r_name l1) ->
  is_removed m (r_name r) = Ok (r_removed r).
Proof.
  intros E HN. unfold is_removed. rewrite (name_index_mid m l1 r l2) by auto.
  rewrite E, nth_error_app2, Nat.sub_diag by auto. reflexivity.
Qed.
Lemma has_name_split m nm : has_name m nm = true ->
  exists l1 r l2, m_rows m = l1 ++ r :: l2 /\ r_name r = nm /\ ~ In nm (map r_name l1).
Proof.
  intros Hn. apply mem_in in Hn. apply index_of_in in Hn. destruct Hn as [i Hi].
  destruct (name_index_split m nm i) as (l1 & r & l2 & E1 & E2 & E3 & E4);
    [unfold name_index; rewrite Hi; auto|eauto 10].
Qed.

(** ** remove_interaction *)
Definition rm (r : row) : row := set_dirty true (set_removed true r).

Lemma remove_body_eq m l1 r l2 : m_rows m = l1 ++ r :: l2 -> ~ In (r_name r) (map r_name l1) ->
  (m0 <- get ;; i <- lift (name_index m0 (r_name r)) ;;
   upd_row i (set_removed true) ;;; upd_row i (set_dirty true)) m
  = (with_rows (l1 ++ rm r :: l2) m, Ok tt).
Proof.
  intros E HN. unfold bind, get, lift, upd_row, modify. rewrite (name_index_mid m l1 r l2) by auto.
  simpl. rewrite E. rewrite !upd_nth_mid. destruct m; reflexivity.
Qed.
Lemma remove_by_name_eq m l1 r l2 : m_rows m = l1 ++ r :: l2 -> ~ In (r_name r) (map r_name l1) ->
  r_name r <> ""%string ->
  remove_interaction TNone (NStr (r_name r)) m = (with_rows (l1 ++ rm r :: l2) m, Ok tt).
Proof.
  intros E HN NE. rewrite <- (remove_body_eq m l1 r l2 E HN).
  assert (HT : n_truthy (NStr (r_name r)) = true).
  { simpl. apply String.eqb_neq in NE. rewrite NE; auto. }
  unfold remove_interaction at 1. unfold bind at 1.
  replace (internal_name TNone (NStr (r_name r)) m) with (m, Ok (r_name r)); [reflexivity|].
  unfold internal_name. rewrite HT. unfold guard, bind, ret, lift, get. simpl.
  rewrite (has_name_mid m l1 r l2 E). reflexivity.
Qed.

(** All outcomes of name resolution. *)
Lemma internal_name_state t n m m' r : internal_name t n m = (m', r) -> m' = m.
Proof.
  unfold internal_name, guard, bind, lift, get, ret, raise.
  destruct (t_truthy t || n_truthy n); [|intros E; inversion E; auto].
  destruct (negb (t_truthy t && n_truthy n)); [|intros E; inversion E; auto].
  destruct (opt_info t) as [o|e]; [|intros E; inversion E; auto].
  destruct (n_truthy n).
  - destruct n; [destruct (has_name m s)| |]; intros E; inversion E; auto.
  - destruct o as [i|]; [destruct (has_name m (in_name i))|]; intros E; inversion E; auto.
Qed.
Lemma internal_name_has t n m m' nm : internal_name t n m = (m', Ok nm) -> has_name m nm = true.
Proof.
  unfold internal_name, guard, bind, lift, get, ret, raise.
  destruct (t_truthy t || n_truthy n); [|intros E; inversion E; auto].
  destruct (negb (t_truthy t && n_truthy n)); [|intros E; inversion E; auto].
  destruct (opt_info t) as [o|e]; [|intros E; inversion E; auto].
  destruct (n_truthy n).
  - destruct n; [destruct (has_name m s) eqn:Eh| |]; intros E; inversion E; subst; auto.
  - destruct o as [i|]; [destruct (has_name m (in_name i)) eqn:Eh|]; intros E; inversion E; subst; auto.
Qed.

Lemma remove_cases t n m m' r : remove_interaction t n m = (m', r) ->
  (exists e, r = Err e /\ m' = m) \/
  (r = Ok tt /\ exists nm l1 x l2, internal_name t n m = (m, Ok nm) /\
     m_rows m = l1 ++ x :: l2 /\ r_name x = nm /\ ~ In nm (map r_name l1) /\
     m' = with_rows (l1 ++ rm x :: l2) m).
Proof.
  unfold remove_interaction. intros E.
  destruct (internal_name t n m) as [m1 [nm|e]] eqn:En.
  - pose proof (internal_name_state _ _ _ _ _ En); subst m1.
    pose proof (internal_name_has _ _ _ _ _ En) as Hh.
    apply has_name_split in Hh. destruct Hh as (l1 & x & l2 & E1 & E2 & E3). subst nm.
    unfold bind at 1 in E. rewrite En in E. rewrite (remove_body_eq m l1 x l2) in E by auto.
    inversion E; subst. right. split; auto. exists (r_name x), l1, x, l2. repeat split; auto.
  - unfold bind in E. rewrite En in E. inversion E; subst. left.
    pose proof (internal_name_state _ _ _ _ _ En); subst. eauto.
Qed.

(** ** update_interaction *)
Definition upd_fields (c s : option coef) (q : option Qc) (r : row) : row :=
  set_dirty true (set_ts q
    (match s with Some s => set_scale s | None => fun r => r end
      (match c with Some c => set_coef c | None => fun r => r end r))).

Lemma update_attr_core i kv m m' r : update_attr i kv m = (m', r) -> core m' = core m.
Proof.
  unfold update_attr. intros E.
  destruct (dmem (attr_key (fst kv)) (m_cols m)); simpl in E;
  destruct (dget _ _); [destruct (set_nth _ _ _)| |destruct (set_nth _ _ _)|]; inversion E; subst; auto.
Qed.
Lemma update_attrs_core i l m m' r : mfor l (update_attr i) m = (m', r) -> core m' = core m.
Proof.
  intros E. revert E. apply (mfor_inv (fun x => core x = core m)); auto.
  intros x s s' r' _ HI Hx. rewrite (update_attr_core _ _ _ _ _ Hx); auto.
Qed.

Lemma update_at_noattr m l1 r l2 c s q : m_rows m = l1 ++ r :: l2 ->
  ~ In (r_name r) (map r_name l1) ->
  update_at (r_name r) c s None q m = (with_rows (l1 ++ upd_fields c s q r :: l2) m, Ok tt).
Proof.
  intros E HN. unfold update_at. unfold bind at 1, get. unfold bind at 1, lift.
  rewrite (name_index_mid m l1 r l2) by auto.
  unfold bind, opt_do, upd_row, modify, ret.
  destruct c as [c|], s as [s|]; simpl; rewrite E, !upd_nth_mid; unfold upd_fields; destruct m; reflexivity.
Qed.

Lemma update_at_any nm c s a q m m' r : update_at nm c s a q m = (m', r) ->
  m' = m \/
  exists l1 x l2 x', m_rows m = l1 ++ x :: l2 /\ r_name x = nm /\ ~ In nm (map r_name l1) /\
    core m' = core (with_rows (l1 ++ x' :: l2) m) /\
    r_name x' = r_name x /\ r_key x' = r_key x /\ r_inter x' = r_inter x /\ r_removed x' = r_removed x /\
    (forall u, r = Ok u -> x' = upd_fields c s q x).
Proof.
  unfold update_at. unfold bind at 1, get. unfold bind at 1, lift. intros E.
  destruct (name_index m nm) as [i|e] eqn:Ei; [|inversion E; auto].
  apply name_index_split in Ei. destruct Ei as (l1 & x & l2 & Er & En & HN & Li).
  right. exists l1, x, l2.
  set (x1 := match c with Some c => set_coef c | None => fun r => r end x).
  set (x2 := match s with Some s => set_scale s | None => fun r => r end x1).
  assert (E1 : opt_do c (fun c => upd_row i (set_coef c)) m
               = (with_rows (l1 ++ x1 :: l2) m, Ok tt)).
  { subst i x1. destruct c; unfold opt_do, upd_row, modify, ret; [rewrite Er, upd_nth_mid; auto|].
    rewrite <- Er. destruct m; reflexivity. }
  set (m1 := with_rows (l1 ++ x1 :: l2) m) in *.
  assert (E2 : opt_do s (fun s => upd_row i (set_scale s)) m1
               = (with_rows (l1 ++ x2 :: l2) m, Ok tt)).
  { subst i x2 m1. destruct s; unfold opt_do, upd_row, modify, ret; [|reflexivity].
    cbn [m_rows with_rows]. rewrite upd_nth_mid; auto. }
  set (m2 := with_rows (l1 ++ x2 :: l2) m) in *.
  unfold bind at 1 in E. rewrite E1 in E. unfold bind at 1 in E. rewrite E2 in E.
  assert (HX : r_name x2 = r_name x /\ r_key x2 = r_key x /\ r_inter x2 = r_inter x /\ r_removed x2 = r_removed x).
  { subst x2 x1. destruct c, s; auto. }
  assert (HF : set_dirty true (set_ts q x2) = upd_fields c s q x) by reflexivity.
  destruct HX as (X1 & X2 & X3 & X4).
  destruct a as [d|].
  - unfold opt_do in E. unfold bind at 1 in E. destruct (mfor d (update_attr i) m2) as [m3 [u|e]] eqn:E3.
    + pose proof (update_attrs_core _ _ _ _ _ E3) as HC.
      unfold bind, upd_row, modify in E. inversion E; subst m' r. clear E.
      exists (upd_fields c s q x). rewrite <- HF.
      repeat split; auto; try (subst i; clear -X1 X2 X3 X4; auto; fail).
      pose proof (core_rows _ _ HC) as HR. unfold core in *. cbn [m_mtype m_vars m_offset m_deleted m_fixed m_constrs m_rows m_prev with_rows] in *.
      rewrite HR. subst i. unfold m2. cbn [m_rows with_rows]. rewrite !upd_nth_mid. unfold m2 in HC; cbn in HC.
      inversion HC. congruence.
    + inversion E; subst m' r. exists x2. repeat split; auto.
      * apply (update_attrs_core _ _ _ _ _ E3).
      * intros u Hu; discriminate.
  - unfold opt_do, bind, upd_row, modify, ret in E. inversion E; subst m' r. clear E.
    exists (upd_fields c s q x). rewrite <- HF. repeat split; auto.
    unfold core. cbn. subst i. rewrite !upd_nth_mid. reflexivity.
Qed.

(** Every update either leaves the model alone and raises, edits the fields of
    one existing active row, or is an add. *)
Definition as_add ev t c s q : LM unit :=
  add_interaction ev t (NStr "") (AC (match c with Some c => c | None => CNum 0%Qc end))
     (AC (match s with Some s => s | None => CNum 1%Qc end))
     AtNone (match q with Some q => TsNum q | None => TsNone end).

Record upd_args (co sc : option carg) (at_ : attrarg) (ts : tsarg)
    (c s : option coef) (a : option (dict string aval)) (q : option Qc) : Prop := {
  ua_c : check_opt_num co = Ok c; ua_s : check_opt_num sc = Ok s;
  ua_a : check_opt_attrs at_ = Ok a; ua_q : check_opt_ts ts = Ok q }.

Lemma update_split ev t n co sc at_ ts m :
  (exists e, update_interaction ev t n co sc at_ ts m = (m, Err e)) \/
  (exists c s a q, upd_args co sc at_ ts c s a q /\
    ((exists nm l1 x l2, internal_name t n m = (m, Ok nm) /\
        m_rows m = l1 ++ x :: l2 /\ r_name x = nm /\ ~ In nm (map r_name l1) /\ r_removed x = false /\
        update_interaction ev t n co sc at_ ts m = update_at nm c s a q m) \/
     (n_truthy n = false /\ (exists inf, interaction_info t = Ok inf /\ has_name m (in_name inf) = false) /\
        update_interaction ev t n co sc at_ ts m = as_add ev t c s q m))).
Proof.
  unfold update_interaction.
  destruct (t_truthy t || n_truthy n) eqn:E1; [|left; eexists; reflexivity].
  destruct (negb (t_truthy t && n_truthy n)) eqn:E2;
    [|left; exists ValueError; unfold guard, bind, ret, raise; reflexivity].
  destruct (check_opt_num co) as [c|e] eqn:Ec; [|left; exists e; reflexivity].
  destruct (check_opt_num sc) as [s|e] eqn:Es; [|left; exists e; reflexivity].
  destruct (check_opt_attrs at_) as [a|e] eqn:Ea; [|left; exists e; reflexivity].
  destruct (check_opt_ts ts) as [q|e] eqn:Eq; [|left; exists e; reflexivity].
  destruct (opt_info t) as [o|e] eqn:Eo; [|left; exists e; reflexivity].
  assert (HA : upd_args co sc at_ ts c s a q) by (constructor; auto).
  assert (EIN : internal_name t n m =
     if n_truthy n then
       match n with
       | NStr nm => (guard (has_name m nm) KeyError ;;; ret nm) m
       | NTuple => (m, Err KeyError) | NOther _ => (m, Err TypeError) end
     else match o with None => (m, Err UnboundLocalError)
          | Some inf => (guard (has_name m (in_name inf)) KeyError ;;; ret (in_name inf)) m end).
  { unfold internal_name. rewrite E1, E2, Eo. unfold bind, guard, lift, ret, get.
    destruct (n_truthy n); [destruct n; reflexivity|destruct o; reflexivity]. }
  cbv [guard bind lift ret get raise].
  destruct (n_truthy n) eqn:En.
  - destruct n as [nm| |]; try (left; exists KeyError; reflexivity).
    destruct (has_name m nm) eqn:Eh; [|left; exists KeyError; reflexivity].
    pose proof Eh as Eh'. apply has_name_split in Eh'. destruct Eh' as (l1 & x & l2 & R1 & R2 & R3).
    subst nm. rewrite (is_removed_mid m l1 x l2) by auto.
    destruct (r_removed x) eqn:Ex; [left; exists ValueError; reflexivity|].
    right. exists c, s, a, q. split; auto. left. exists (r_name x), l1, x, l2.
    repeat split; auto.
  - destruct o as [inf|]; [|left; exists UnboundLocalError; reflexivity].
    assert (EI : interaction_info t = Ok inf).
    { unfold opt_info in Eo. destruct (t_is_none t); [discriminate|].
      destruct (interaction_info t); inversion Eo; auto. }
    destruct (has_name m (in_name inf)) eqn:Eh.
    + pose proof Eh as Eh'. apply has_name_split in Eh'. destruct Eh' as (l1 & x & l2 & R1 & R2 & R3).
      rewrite <- R2. rewrite (is_removed_mid m l1 x l2) by (rewrite ?R2; auto).
      destruct (r_removed x) eqn:Ex; [left; exists ValueError; reflexivity|].
      right. exists c, s, a, q. split; auto. left. exists (in_name inf), l1, x, l2.
      rewrite EIN. repeat split; auto. rewrite R2. reflexivity.
    + right. exists c, s, a, q. split; auto. right. repeat split; eauto.
Qed.
