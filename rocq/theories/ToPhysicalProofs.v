(** * ToPhysicalProofs: what to_physical returns and what it leaves behind. *)
From Verif Require Import PyBase PyLemmas Constraint LogicalModel Spec LogicalProofs EnergyProofs ConvertProofs ConstraintProofs MergeProofs PhysicalProofs.
Open Scope list_scope.

(** The physical model built from the rows of [m] and of the constraints' models. *)
Definition all_rows (m : lmodel) (cms : list lmodel) : list row := m_rows m ++ flat_map m_rows cms.
Definition phys fd (m : lmodel) (cms : list lmodel) : physical :=
  build_physical (m_mtype m) (m_vars m) (m_deleted m)
    (fold_left (add_lin fd) (all_rows m cms) []) (fold_left (add_quad fd) (all_rows m cms) [])
    (value fd (m_offset m) + qsum (map (fun c => value fd (m_offset c)) cms))%Qc.

(** Names under which the code tries to purge the removed interactions. *)
Definition purge_names (m : lmodel) (cms : list lmodel) (rem : list string) : Prop :=
  exists rs, rem = map r_name rs /\ Forall2 (eqn (flat_map names cms)) rs (filter r_removed (m_rows m)).

Lemma filter_all_true {A} (f : A -> bool) l : (forall x, f x = true) -> filter f l = l.
Proof. intros H; induction l as [|x l IH]; simpl; auto. rewrite H, IH; auto. Qed.
Lemma NoDup_map_eq {A B} (f : A -> B) l x y : NoDup (map f l) -> In x l -> In y l -> f x = f y -> x = y.
Proof.
  induction l as [|a l IH]; simpl; [tauto|]. intros ND [->|Hx] [->|Hy] E; auto; inversion ND; subst.
  - exfalso. apply H1. rewrite E. apply in_map; auto.
  - exfalso. apply H1. rewrite <- E. apply in_map; auto.
  - apply IH; auto.
Qed.
Lemma filter_removed_active l : Forall active l -> filter r_removed l = [].
Proof. induction 1 as [|r l H HF IH]; simpl; auto. unfold active in H. rewrite H; auto. Qed.
Lemma Forall2_filter {A B} (R : A -> B -> Prop) (f : A -> bool) (g : B -> bool) l l' :
  (forall a b, R a b -> f a = g b) -> Forall2 R l l' -> Forall2 R (filter f l) (filter g l').
Proof.
  intros HR H; induction H as [|a b l l' Hab H IH]; simpl; [constructor|].
  rewrite (HR a b Hab). destruct (g b); auto.
Qed.
Lemma eqn_eqv ns a b : eqn ns a b -> eqv a b.
Proof. intros [H _]. apply eqx_eqv; auto. Qed.
Lemma plain_rows_active t cms : Forall (plain t) cms -> Forall active (flat_map m_rows cms).
Proof.
  induction 1 as [|c cms H HF IH]; simpl; [constructor|]. apply Forall_app; split; auto. apply H.
Qed.
Lemma plain_rows_resolved t fd cms : Forall (plain t) cms -> Forall (row_resolved fd) (flat_map m_rows cms).
Proof.
  induction 1 as [|c cms H HF IH]; simpl; [constructor|]. apply Forall_app; split; auto.
  apply Forall_forall. intros r Hr Ha. destruct (pl_num _ _ H r Hr) as [y ->].
  pose proof (pl_unit _ _ H) as HU. unfold unit_scales in HU. rewrite (HU r Hr Ha).
  split; apply resolves_num.
Qed.
Lemma resolved_rows fd m : resolved fd m <-> Forall (row_resolved fd) (m_rows m) /\ resolves fd (m_offset m).
Proof. unfold resolved, row_resolved. rewrite Forall_forall. tauto. Qed.

Lemma with_prev_eq m m1 p : frame m1 = frame m ->
  mkModel (m_mtype m1) (m_vars m1) (m_offset m) (m_deleted m) (m_fixed m) (m_constrs m1) (m_rows m) (m_cols m)
    (m_attrs m) (m_len m) (Some p) = with_prev (Some p) m.
Proof. unfold frame. intros E; inversion E. unfold with_prev. congruence. Qed.

(** What happens after the constraints have been merged. *)
Definition after_merge fd m0 m1 : lmodel * res physical :=
  match visited m1 with
      | Err e => (m1, Err e)
      | Ok rows =>
          match agg_rows fd (mkAgg [] [] []) rows with
          | Err e => (m1, Err e)
          | Ok g =>
              match ceval fd (m_offset m1) with
              | None => (m1, Err PlaceholderError)
              | Some off =>
                  let p := build_physical (m_mtype m0) (m_vars m1) (m_deleted m1)
                             (g_lin g) (g_quad g) off in
                  let m2 := mkModel (m_mtype m1) (m_vars m1) (m_offset m0) (m_deleted m0)
                              (m_fixed m0) (m_constrs m1) (m_rows m0) (m_cols m0)
                              (m_attrs m0) (m_len m0) (Some p) in
                  match mfor (g_remove g) purge_one m2 with
                  | (m3, Err e) => (m3, Err e)
                  | (m3, Ok _) =>
                      (with_rows (clear_dirty (m_len m3) (m_rows m3)) m3, Ok p)
                  end
              end
          end
      end.
Lemma to_physical_after ev evs fd m : to_physical ev evs fd m =
  match merge_constrs ev evs 0 (dvals (m_constrs m)) m with
  | (m1, Err e) => (m1, Err e) | (m1, Ok _) => after_merge fd m m1 end.
Proof. reflexivity. Qed.

Lemma after_merge_eq fd m cms m1 : merged m cms m1 -> Forall (plain (m_mtype m)) cms ->
  (resolved fd m -> exists rem, purge_names m cms rem /\
     after_merge fd m m1 = match mfor rem purge_one (with_prev (Some (phys fd m cms)) m) with
                           | (m3, Err e) => (m3, Err e)
                           | (m3, Ok _) => (with_rows (clear_dirty (m_len m3) (m_rows m3)) m3, Ok (phys fd m cms)) end) /\
  (~ resolved fd m -> after_merge fd m m1 = (m1, Err PlaceholderError)).
Proof.
  intros HM PL. unfold after_merge, visited. rewrite (mg_len _ _ _ HM), Nat.leb_refl, firstn_all.
  destruct HM as [MF ML MR MO]. destruct (MO fd) as [MO1 MO2].
  assert (HR : Forall (row_resolved fd) (m_rows m1) <-> Forall (row_resolved fd) (m_rows m)).
  { rewrite (Forall2_Forall (eqn (flat_map names cms)) (row_resolved fd) _ _ (fun a b H => eqv_resolved fd a b (eqn_eqv _ a b H)) MR).
    rewrite Forall_app. pose proof (plain_rows_resolved _ fd _ PL). tauto. }
  split.
  - intros RS. apply resolved_rows in RS. destruct RS as [R1 R2].
    rewrite agg_rows_ok by (apply HR; auto). cbn [g_lin g_quad g_remove app].
    assert (RO : ceval fd (m_offset m1) = Some (value fd (m_offset m) + qsum (map (fun c => value fd (m_offset c)) cms))%Qc).
    { rewrite <- MO2 by auto. apply MO1 in R2. unfold value, resolves in *. destruct (ceval fd (m_offset m1)); congruence. }
    rewrite RO. cbv zeta.
    assert (EP : build_physical (m_mtype m) (m_vars m1) (m_deleted m1) (fold_left (add_lin fd) (m_rows m1) [])
              (fold_left (add_quad fd) (m_rows m1) []) (value fd (m_offset m) + qsum (map (fun c => value fd (m_offset c)) cms))%Qc
              = phys fd m cms).
    { unfold phys, all_rows. pose proof MF as F. unfold frame in F. inversion F.
      rewrite (fold2 _ _ _ _ _ (fun d a b H => eqv_add_lin fd d a b (eqn_eqv _ a b H)) MR).
      rewrite (fold2 _ _ _ _ _ (fun d a b H => eqv_add_quad fd d a b (eqn_eqv _ a b H)) MR).
      congruence. }
    rewrite EP, (with_prev_eq m m1) by auto.
    exists (map r_name (filter r_removed (m_rows m1))). split; auto.
    exists (filter r_removed (m_rows m1)). split; auto.
    assert (HF : filter r_removed (m_rows m ++ flat_map m_rows cms) = filter r_removed (m_rows m)).
    { rewrite filter_app, (filter_removed_active (flat_map m_rows cms)), app_nil_r; auto. eapply plain_rows_active; eauto. }
    rewrite <- HF. apply Forall2_filter; auto. intros a b H. apply (eqn_eqv _ _ _ H).
  - intros NR. rewrite resolved_rows in NR.
    destruct (Forall_dec (row_resolved fd) (row_resolved_dec fd) (m_rows m1)) as [HY|HN].
    + rewrite agg_rows_ok by auto.
      destruct (ceval fd (m_offset m1)) eqn:EO; auto. exfalso. apply NR. split; [apply HR; auto|].
      apply MO1. unfold resolves; congruence.
    + rewrite agg_rows_err by auto. auto.
Qed.

(** ** Purging *)
(** Everything but rows, columns and their length. *)
Definition frame2 (m : lmodel) := (frame m, m_offset m, m_attrs m).

Definition drop_nth {A} (i : nat) (l : list A) : list A := firstn i l ++ skipn (S i) l.
Lemma pop_nth_drop {A} i (l : list A) : i < length l -> pop_nth i l = Some (drop_nth i l).
Proof.
  revert i; induction l as [|x l IH]; intros [|i] Hi; simpl in *; try lia; auto.
  rewrite IH by lia. reflexivity.
Qed.
Lemma drop_nth_nth {A} i (l : list A) j d : i < length l ->
  nth j (drop_nth i l) d = nth (if (j <? i)%nat then j else S j) l d.
Proof.
  revert i j; induction l as [|x l IH]; intros [|i] [|j] Hi; simpl in *; try lia; auto.
  unfold drop_nth in *. simpl. rewrite IH by lia. change ((S j <? S i)%nat) with ((j <? i)%nat). destruct (j <? i)%nat; auto.
Qed.
Lemma drop_nth_length {A} i (l : list A) : i < length l -> length (drop_nth i l) = pred (length l).
Proof. intros H. unfold drop_nth. rewrite app_length, firstn_length, skipn_length. lia. Qed.

Lemma pop_cols_ok i todo : forall done, Forall (fun kc => i < length (snd kc)) todo ->
  pop_cols i done todo = (done ++ map (fun kc => (fst kc, drop_nth i (snd kc))) todo, Ok tt).
Proof.
  induction todo as [|[k c] l IH]; intros done HF; simpl; [rewrite app_nil_r; auto|].
  inversion HF; subst. simpl in *. rewrite pop_nth_drop by auto. rewrite IH by auto. rewrite <- app_assoc; auto.
Qed.
Lemma dget_map_snd {K V W} `{Eqb K} (f : V -> W) k d :
  dget k (map (fun kc => (fst kc, f (snd kc))) d) = option_map f (dget k d).
Proof. induction d as [|[k' v] d IH]; simpl; auto. destruct (eqb k k'); auto. Qed.
Lemma dkeys_map_snd {K V W} (f : V -> W) (d : dict K V) : dkeys (map (fun kc => (fst kc, f (snd kc))) d) = dkeys d.
Proof. unfold dkeys. rewrite map_map. reflexivity. Qed.

Lemma purge_one_ok n l1 r l2 m : aligned m -> m_rows m = l1 ++ r :: l2 -> r_name r = n -> ~ In n (map r_name l1) ->
  exists m', purge_one n m = (m', Ok tt) /\ m_rows m' = l1 ++ l2 /\ aligned m' /\ frame2 m' = frame2 m /\
    (forall j a, attr_val m' j a = attr_val m (if (j <? length l1)%nat then j else S j) a).
Proof.
  intros (A1 & A2 & A3 & A4) ER EN HN.
  assert (HI : name_index m n = Ok (length l1)).
  { unfold name_index, names. rewrite ER, map_app. simpl. rewrite EN.
    rewrite <- (map_length r_name l1). rewrite index_of_mid; auto. }
  assert (HL : length l1 < m_len m) by (rewrite A1, ER, app_length; simpl; lia).
  assert (HC : Forall (fun kc : string * list aval => length l1 < length (snd kc)) (m_cols m)).
  { eapply Forall_impl; [|exact A4]. intros kc E. simpl in E. rewrite E; auto. }
  unfold purge_one, bind, get, lift. rewrite HI, ER, pop_nth_mid, pop_cols_ok by auto. unfold put.
  eexists. split; [reflexivity|]. simpl. split; auto. split.
  - unfold aligned; simpl. split; [|split; [|split; auto]].
    + rewrite A1, ER, !app_length. simpl. lia.
    + rewrite dkeys_map_snd. auto.
    + rewrite Forall_map. simpl. rewrite Forall_forall in *. intros kc Hkc. rewrite drop_nth_length by (apply (HC kc); auto).
      rewrite (A4 kc) by auto. reflexivity.
  - split; [reflexivity|]. intros j a. unfold attr_val. simpl. rewrite dget_map_snd.
    destruct (dget a (m_cols m)) as [c|] eqn:Ec; simpl; auto.
    rewrite drop_nth_nth; auto. apply dget_in in Ec. rewrite Forall_forall in HC. apply (HC _ Ec).
Qed.

Lemma index_of_drop {A} `{Eqb A} (n x : A) l1 l2 : n <> x ->
  match index_of n (l1 ++ l2) with Some j => Some (if (j <? length l1)%nat then j else S j) | None => None end
  = index_of n (l1 ++ x :: l2).
Proof.
  intros NE. induction l1 as [|y l1 IH]; simpl.
  - rewrite (proj2 (eqb_neq n x) NE). destruct (index_of n l2); auto.
  - destruct (eqb n y); auto. rewrite <- IH. destruct (index_of n (l1 ++ l2)) as [j|]; auto.
    change ((S j <? S (length l1))%nat) with ((j <? length l1)%nat). destruct (j <? length l1)%nat; auto.
Qed.

Definition not_in (rem : list string) (r : row) : bool := negb (mem (r_name r) rem).
Lemma purge_all_ok rem : forall m, aligned m -> names_unique m -> NoDup rem -> incl rem (names m) ->
  exists m', mfor rem purge_one m = (m', Ok tt) /\ m_rows m' = filter (not_in rem) (m_rows m) /\
    aligned m' /\ frame2 m' = frame2 m /\
    (forall n a, ~ In n rem -> attr_of m' n a = attr_of m n a).
Proof.
  induction rem as [|n rem IH]; intros m HA HU ND HI.
  - exists m. split; [reflexivity|]. split; [|auto]. symmetry. apply filter_all_true. reflexivity.
  - assert (Hn : In n (names m)) by (apply HI; simpl; auto). unfold names in Hn. apply in_map_iff in Hn.
    destruct Hn as (r & EN & Hr). apply in_split in Hr. destruct Hr as (l1 & l2 & ER).
    assert (HU' := HU). unfold names_unique, names in HU'. rewrite ER, map_app in HU'. simpl in HU'.
    assert (NI : ~ In n (map r_name l1 ++ map r_name l2)). { rewrite <- EN. apply NoDup_remove_2 in HU'. auto. }
    assert (ND1 : NoDup (map r_name l1 ++ map r_name l2)) by (apply NoDup_remove_1 in HU'; auto).
    destruct (purge_one_ok n l1 r l2 m HA ER EN) as (m1 & E1 & R1 & A1 & F1 & AT1).
    { intros X. apply NI. apply in_app_iff; auto. }
    inversion ND as [|? ? NR ND']; subst.
    destruct (IH m1) as (m2 & E2 & R2 & A2 & F2 & AT2); auto.
    + unfold names_unique, names. rewrite R1, map_app. auto.
    + intros x Hx. assert (Hx' : In x (names m)) by (apply HI; simpl; auto). unfold names in *.
      rewrite ER, map_app in Hx'. simpl in Hx'. rewrite R1, map_app. rewrite in_app_iff in *. simpl in Hx'.
      destruct Hx' as [|[|]]; auto. subst x. contradiction.
    + exists m2. cbn [mfor]. unfold bind. rewrite E1. split; [exact E2|]. split; [|split; [auto|split; [congruence|]]].
      * rewrite R2, R1, ER, !filter_app. simpl.
        assert (HX : forall l, ~ In (r_name r) (map r_name l) -> filter (not_in (r_name r :: rem)) l = filter (not_in rem) l).
        { intros l HN. apply filter_ext_in. intros y Hy. unfold not_in, mem. simpl.
          destruct (String.eqb_spec (r_name y) (r_name r)); auto. exfalso; apply HN. rewrite <- e. apply in_map; auto. }
        rewrite in_app_iff in NI. rewrite !HX by tauto. unfold not_in at 4. unfold mem. simpl.
        rewrite String.eqb_refl. reflexivity.
      * intros x a HX. simpl in HX. rewrite AT2 by tauto. unfold attr_of, names.
        rewrite R1, ER, !map_app. simpl.
        rewrite <- (index_of_drop x (r_name r)) by (intros ->; tauto).
        destruct (index_of x (map r_name l1 ++ map r_name l2)) as [j|]; auto.
        rewrite AT1, map_length. reflexivity.
Qed.

Lemma clear_dirty_all l : clear_dirty (length l) l = map (set_dirty false) l.
Proof. unfold clear_dirty. rewrite firstn_all, skipn_all, app_nil_r. auto. Qed.

Definition kept (r : row) : bool := negb (r_removed r).
Lemma not_in_removed l : NoDup (map r_name l) -> filter (not_in (map r_name (filter r_removed l))) l = filter kept l.
Proof.
  intros ND. apply filter_ext_in. intros r Hr. unfold not_in, kept. f_equal.
  destruct (r_removed r) eqn:E.
  - apply mem_in. apply in_map. apply filter_In; auto.
  - apply mem_nin. intros HI. apply in_map_iff in HI. destruct HI as (r' & EN & HI). apply filter_In in HI.
    assert (r' = r). { eapply NoDup_map_eq; eauto; tauto. }
    subst. destruct HI; congruence.
Qed.

Definition purgeable (m : lmodel) (cms : list lmodel) : Prop :=
  forall r, In r (m_rows m) -> r_removed r = true -> ~ In (r_name r) (flat_map names cms).
Lemma purge_names_exact m cms rem : purgeable m cms -> purge_names m cms rem -> rem = map r_name (filter r_removed (m_rows m)).
Proof.
  intros HP (rs & -> & HF).
  assert (HX : Forall (fun r => ~ In (r_name r) (flat_map names cms)) (filter r_removed (m_rows m))).
  { apply Forall_forall. intros r Hr. apply filter_In in Hr. apply HP; tauto. }
  induction HF as [|a b l l' [_ Hab] HF IH]; simpl; auto. inversion HX; subst.
  f_equal; auto.
Qed.

(** The state to_physical leaves behind. *)
Record purged (m : lmodel) (p : physical) (m' : lmodel) : Prop := {
  pg_rows : m_rows m' = map (set_dirty false) (filter kept (m_rows m));
  pg_frame : frame2 m' = frame2 (with_prev (Some p) m);
  pg_al : aligned m';
  pg_attr : forall r a, In r (m_rows m) -> active r -> attr_of m' (r_name r) a = attr_of m (r_name r) a }.

Lemma purge_result m cms rem p : aligned m -> names_unique m -> purgeable m cms -> purge_names m cms rem ->
  exists m3, mfor rem purge_one (with_prev (Some p) m) = (m3, Ok tt) /\
     purged m p (with_rows (clear_dirty (m_len m3) (m_rows m3)) m3).
Proof.
  intros HA HU HP HN. rewrite (purge_names_exact m cms rem HP HN).
  destruct (purge_all_ok (map r_name (filter r_removed (m_rows m))) (with_prev (Some p) m)) as (m3 & E3 & R3 & A3 & F3 & AT3); auto.
  { clear -HU. unfold names_unique, names in HU. induction (m_rows m) as [|r l IH]; simpl; [constructor|].
    simpl in HU. inversion HU; subst. destruct (r_removed r); simpl; auto. constructor; auto.
    intros HI. apply H1. apply in_map_iff in HI. destruct HI as (x & <- & HI). apply filter_In in HI. apply in_map. tauto. }
  { intros x Hx. apply in_map_iff in Hx. destruct Hx as (r & <- & Hr). apply filter_In in Hr. unfold names. simpl. apply in_map. tauto. }
  exists m3. split; auto. assert (L3 : m_len m3 = length (m_rows m3)) by apply A3.
  rewrite L3, clear_dirty_all. constructor.
  - simpl. rewrite R3. simpl. rewrite not_in_removed; auto.
  - exact F3.
  - apply aligned_rows; auto. rewrite map_length; auto.
  - intros r a Hr Ha. change (attr_of m (r_name r) a) with (attr_of (with_prev (Some p) m) (r_name r) a). rewrite <- (AT3 (r_name r) a).
    + unfold attr_of, names. simpl. rewrite map_map. reflexivity.
    + intros HI. apply in_map_iff in HI. destruct HI as (r' & EN & HI). apply filter_In in HI.
      assert (r' = r). { eapply NoDup_map_eq; [exact HU|..]; eauto; tauto. }
      subst. unfold active in Ha. destruct HI; congruence.
Qed.

(** ** The theorems in terms of [phys] *)
Lemma to_physical_ok ev evs fd m m' p : m_len m = length (m_rows m) -> to_physical ev evs fd m = (m', Ok p) ->
  exists cms, cmodels evs 0 (m_mtype m) (dvals (m_constrs m)) = Ok cms /\ resolved fd m /\ p = phys fd m cms.
Proof.
  intros HL E. rewrite to_physical_after in E.
  destruct (merge_constrs ev evs 0 (dvals (m_constrs m)) m) as [m1 [u|e]] eqn:E1; [|discriminate].
  apply merge_constrs_ok in E1; auto. destruct E1 as (cms & EC & HM).
  pose proof (cmodels_plain _ _ _ _ _ EC) as PL. exists cms. split; auto.
  destruct (after_merge_eq fd m cms m1 HM PL) as [H1 H2].
  assert (RD : {resolved fd m} + {~ resolved fd m}).
  { destruct (Forall_dec (row_resolved fd) (row_resolved_dec fd) (m_rows m)) as [HY|HN].
    - destruct (ceval fd (m_offset m)) eqn:EO; [left|right]; rewrite resolved_rows; unfold resolves; [split; congruence|].
      intros [_ X]; congruence.
    - right. rewrite resolved_rows. tauto. }
  destruct RD as [R|R].
  - split; auto. destruct (H1 R) as (rem & _ & HE). rewrite HE in E.
    destruct (mfor rem purge_one _) as [m3 [u3|e]]; inversion E; auto.
  - rewrite H2 in E by auto. discriminate.
Qed.

Lemma to_physical_purged ev evs fd m cms : aligned m -> names_unique m ->
  cmodels evs 0 (m_mtype m) (dvals (m_constrs m)) = Ok cms -> resolved fd m -> purgeable m cms ->
  exists m', to_physical ev evs fd m = (m', Ok (phys fd m cms)) /\ purged m (phys fd m cms) m'.
Proof.
  intros HA HU EC HR HP. rewrite to_physical_after.
  pose proof (merge_constrs_spec ev evs (dvals (m_constrs m)) 0 m HA) as HM. rewrite EC in HM.
  destruct HM as (m1 & -> & HM & _). pose proof (cmodels_plain _ _ _ _ _ EC) as PL.
  destruct (after_merge_eq fd m cms m1 HM PL) as [H1 _]. destruct (H1 HR) as (rem & HN & ->).
  destruct (purge_result m cms rem (phys fd m cms) HA HU HP HN) as (m3 & -> & HG). eauto.
Qed.
Lemma to_physical_placeholder ev evs fd m cms : aligned m ->
  cmodels evs 0 (m_mtype m) (dvals (m_constrs m)) = Ok cms -> ~ resolved fd m ->
  exists m', to_physical ev evs fd m = (m', Err PlaceholderError).
Proof.
  intros HA EC HR. rewrite to_physical_after.
  pose proof (merge_constrs_spec ev evs (dvals (m_constrs m)) 0 m HA) as HM. rewrite EC in HM.
  destruct HM as (m1 & -> & HM & _). pose proof (cmodels_plain _ _ _ _ _ EC) as PL.
  destruct (after_merge_eq fd m cms m1 HM PL) as [_ H2]. rewrite H2; eauto.
Qed.
Lemma to_physical_cerr ev evs fd m e : aligned m ->
  cmodels evs 0 (m_mtype m) (dvals (m_constrs m)) = Err e -> exists m', to_physical ev evs fd m = (m', Err e).
Proof.
  intros HA EC. rewrite to_physical_after.
  pose proof (merge_constrs_spec ev evs (dvals (m_constrs m)) 0 m HA) as HM. rewrite EC in HM.
  destruct HM as (m1 & ->). eauto.
Qed.

(** *** Energy *)
Lemma csum_split fd s l : csum fd s l =
  (qsum (map (fun r => if r_removed r then 0 else match r_key r with K1 b => coefv fd r * s b | K2 _ _ => 0 end) l) +
   qsum (map (fun r => if r_removed r then 0 else match r_key r with K1 _ => 0 | K2 a b => coefv fd r * (s a * s b) end) l))%Qc.
Proof.
  unfold csum. induction l as [|r l IH]; simpl; [ring|]. rewrite IH. unfold contribution, coefv, monomial.
  destruct (r_removed r); [ring|]. destruct (r_key r); ring.
Qed.
Lemma build_fields t vs dl lin quad off p : build_physical t vs dl lin quad off = p ->
  p_mtype p = t /\ p_linear p = filter nonzero lin /\ p_quad p = filter nonzero quad /\ p_offset p = off /\
  p_varset p = map fst (filter nonzero lin) ++ flat_map (fun kv => [fst (fst kv); snd (fst kv)]) (filter nonzero quad) /\
  (p_l2i p, p_i2l p) = index_labels dl (p_varset p) 0 (all_labels vs) [] [].
Proof.
  unfold build_physical. destruct (index_labels _ _ _ _ _ _) as [a b] eqn:E. intros <-. simpl. repeat split; auto.
Qed.
Lemma phys_energy fd s m cms : energy_physical s (phys fd m cms) = (energy fd s m + sum_energy fd s cms)%Qc.
Proof.
  destruct (build_fields _ _ _ _ _ _ (phys fd m cms) eq_refl) as (_ & HL & HQ & HO & _).
  unfold energy_physical. rewrite HL, HQ, HO.
  destruct (lin_fold_spec fd (all_rows m cms) [] (NoDup_nil _)) as (_ & _ & SL).
  destruct (quad_fold_spec fd (all_rows m cms) [] (NoDup_nil _)) as (_ & _ & SQ).
  specialize (SL s). specialize (SQ (fun ab => s (fst ab) * s (snd ab))%Qc).
  rewrite <- dsum_nonzero in SL. rewrite <- dsum_nonzero in SQ. unfold dsum in SL, SQ. simpl in SL, SQ.
  rewrite SL, SQ.
  assert (HC : csum fd s (all_rows m cms) = (csum fd s (m_rows m) + qsum (map (fun c => csum fd s (m_rows c)) cms))%Qc).
  { unfold all_rows. rewrite csum_app. f_equal. clear. induction cms as [|c cms IH]; [reflexivity|]. simpl. rewrite csum_app, IH. reflexivity. }
  rewrite csum_split in HC.
  assert (HE : sum_energy fd s cms = (- qsum (map (fun c => csum fd s (m_rows c)) cms) + qsum (map (fun c => value fd (m_offset c)) cms))%Qc).
  { clear. unfold sum_energy. induction cms as [|c cms IH]; simpl; [ring|]. rewrite IH, energy_csum. ring. }
  rewrite HE, energy_csum.
  match goal with |- (- (0 + ?a) - (0 + ?b) + _ = _)%Qc => replace (- (0 + a) - (0 + b))%Qc with (- (a + b))%Qc by ring end.
  simpl fst in HC; simpl snd in HC. simpl fst; simpl snd. rewrite HC. ring.
Qed.

(** *** Per-key sums *)
Lemma phys_linear fd m cms a : dget a (p_linear (phys fd m cms)) =
  if Qc_eq_dec (lin_total fd (all_rows m cms) a) 0 then None else Some (lin_total fd (all_rows m cms) a).
Proof.
  destruct (build_fields _ _ _ _ _ _ (phys fd m cms) eq_refl) as (_ & HL & _). rewrite HL.
  destruct (lin_fold_spec fd (all_rows m cms) [] (NoDup_nil _)) as (ND & SL & _).
  rewrite dget_filter by auto. specialize (SL a). unfold dval in SL. simpl in SL.
  replace (0 + lin_total fd (all_rows m cms) a)%Qc with (lin_total fd (all_rows m cms) a) in SL by ring.
  unfold nonzero. simpl. destruct (dget a _) as [v|].
  - subst v. unfold Qc_eqb. destruct (Qc_eq_dec _ 0); auto.
  - rewrite <- SL. destruct (Qc_eq_dec 0 0); congruence.
Qed.
Lemma phys_quad fd m cms a b : dget (a, b) (p_quad (phys fd m cms)) =
  if Qc_eq_dec (quad_total fd (all_rows m cms) a b) 0 then None else Some (quad_total fd (all_rows m cms) a b).
Proof.
  destruct (build_fields _ _ _ _ _ _ (phys fd m cms) eq_refl) as (_ & _ & HL & _). rewrite HL.
  destruct (quad_fold_spec fd (all_rows m cms) [] (NoDup_nil _)) as (ND & SL & _).
  rewrite dget_filter by auto. specialize (SL a b). unfold dval in SL. simpl in SL.
  replace (0 + quad_total fd (all_rows m cms) a b)%Qc with (quad_total fd (all_rows m cms) a b) in SL by ring.
  unfold nonzero. simpl. destruct (dget (a, b) _) as [v|].
  - subst v. unfold Qc_eqb. destruct (Qc_eq_dec _ 0); auto.
  - rewrite <- SL. destruct (Qc_eq_dec 0 0); congruence.
Qed.
Lemma phys_nodup fd m cms : NoDup (dkeys (p_linear (phys fd m cms))) /\ NoDup (dkeys (p_quad (phys fd m cms))).
Proof.
  destruct (build_fields _ _ _ _ _ _ (phys fd m cms) eq_refl) as (_ & HL & HQ & _). rewrite HL, HQ.
  split; apply filter_nodup_keys; [apply (lin_fold_spec fd (all_rows m cms) [] (NoDup_nil _))|apply (quad_fold_spec fd (all_rows m cms) [] (NoDup_nil _))].
Qed.

(** *** Indices *)
Lemma index_labels_eq dl vs l : forall i l2i i2l, NoDup l -> (forall x, In x l -> ~ In x (dkeys l2i)) ->
  (forall j, i <= j -> ~ In j (dkeys i2l)) ->
  let ls := filter (fun x => negb (dmem x dl) && mem x vs) l in
  index_labels dl vs i l l2i i2l =
    (l2i ++ combine ls (seq i (length ls)), i2l ++ combine (seq i (length ls)) ls).
Proof.
  induction l as [|x l IH]; intros i l2i i2l ND H1 H2; cbv zeta; simpl.
  - rewrite !app_nil_r. reflexivity.
  - inversion ND; subst. destruct (negb (dmem x dl) && mem x vs) eqn:E.
    + rewrite IH; auto.
      * rewrite (dset_keys_new x) by (apply H1; simpl; auto).
        rewrite (dset_keys_new i) by (apply H2; auto).
        simpl. rewrite <- !app_assoc. reflexivity.
      * intros y Hy. rewrite dset_in_iff. intros [->|HI]; [contradiction|]. apply (H1 y); simpl; auto.
      * intros j Hj. rewrite dset_in_iff. intros [->|HI]; [lia|]. apply (H2 j); auto. lia.
    + rewrite IH; auto. intros y Hy. apply H1; simpl; auto.
Qed.

Lemma combine_seq_get (ls : list string) : forall i l j, NoDup ls ->
  (dget l (combine ls (seq i (length ls))) = Some j <-> (i <= j /\ nth_error ls (j - i) = Some l)).
Proof.
  induction ls as [|x ls IH]; intros i l j ND; simpl.
  - split; [discriminate|]. intros [_ H]. destruct (j - i); discriminate.
  - inversion ND; subst. destruct (String.eqb_spec l x).
    + subst. split.
      * intros E; inversion E; subst. split; auto. rewrite Nat.sub_diag. reflexivity.
      * intros [HL E]. destruct (j - i) as [|k] eqn:EK; [f_equal; lia|]. simpl in E.
        apply nth_error_In in E. contradiction.
    + rewrite IH by auto. split; intros [HL E].
      * split; [lia|]. replace (j - i) with (S (j - S i)) by lia. auto.
      * destruct (j - i) as [|k] eqn:EK; simpl in E; [congruence|]. split; [lia|]. replace (j - S i) with k by lia. auto.
Qed.
Lemma combine_seq_get' (ls : list string) : forall i l j,
  (dget j (combine (seq i (length ls)) ls) = Some l <-> (i <= j /\ nth_error ls (j - i) = Some l)).
Proof.
  induction ls as [|x ls IH]; intros i l j; cbn [length seq combine].
  - split; [discriminate|]. intros [_ H]. destruct (j - i); discriminate.
  - cbn [dget eqb Eqb_nat]. destruct (Nat.eqb_spec j i).
    + subst. rewrite Nat.sub_diag. simpl. split; [intros E; inversion E; auto|intros [_ E]; auto].
    + rewrite IH. split; intros [HL E].
      * split; [lia|]. replace (j - i) with (S (j - S i)) by lia. auto.
      * destruct (j - i) as [|k] eqn:EK; [lia|]. split; [lia|]. replace (j - S i) with k by lia. auto.
Qed.
Lemma combine_keys {A B} (a : list A) (b : list B) : length a = length b -> dkeys (combine a b) = a.
Proof. unfold dkeys. revert b; induction a as [|x a IH]; destruct b; simpl; intros E; try discriminate; auto. f_equal; auto. Qed.

Lemma varset_occurs t vs dl lin quad off p l : build_physical t vs dl lin quad off = p ->
  In l (p_varset p) <-> occurs p l.
Proof.
  intros E. apply build_fields in E. destruct E as (_ & HL & HQ & _ & HV & _). unfold occurs. rewrite HV, HL, HQ, in_app_iff.
  apply or_iff_compat_l. rewrite in_flat_map. split.
  - intros ([[a b] q] & HI & HX). exists a, b. split; [apply (in_map fst) in HI; auto|]. simpl in HX. destruct HX as [|[|[]]]; auto.
  - intros (a & b & HI & HX). unfold dkeys in HI. apply in_map_iff in HI. destruct HI as (kv & E & HI). exists kv. split; auto.
    rewrite E. simpl. destruct HX; auto.
Qed.


Lemma phys_index fd m cms : NoDup (all_labels (m_vars m)) ->
  let p := phys fd m cms in
  exists ls, NoDup ls /\ (exists f, ls = filter f (all_labels (m_vars m))) /\
    p_l2i p = combine ls (seq 0 (length ls)) /\ p_i2l p = combine (seq 0 (length ls)) ls /\
    (forall l, In l ls <-> In l (all_labels (m_vars m)) /\ ~ In l (dkeys (m_deleted m)) /\ occurs p l).
Proof.
  intros ND p. pose proof (build_fields _ _ _ _ _ _ p eq_refl) as (_ & _ & _ & _ & _ & HI).
  set (f := fun x => negb (dmem x (m_deleted m)) && mem x (p_varset p)) in *.
  rewrite index_labels_eq in HI; auto; [|intros ? ? []..]. cbv zeta in HI. fold f in HI.
  exists (filter f (all_labels (m_vars m))). split; [apply NoDup_filter; auto|]. split; [eauto|].
  inversion HI. split; auto. split; auto.
  intros l. rewrite filter_In. unfold f. rewrite andb_true_iff, negb_true_iff, dmem_nin, mem_in.
  rewrite (varset_occurs _ _ _ _ _ _ p l eq_refl). tauto.
Qed.

(** *** Distinct labels *)
Lemma indices_length sh : Forall (fun idx => length idx = length sh) (indices sh).
Proof.
  induction sh as [|n sh IH]; simpl; [constructor; auto|].
  apply Forall_flat_map. apply Forall_forall. intros i _. rewrite Forall_map.
  eapply Forall_impl; [|exact IH]. simpl. intros; congruence.
Qed.
Lemma indices_nodup sh : NoDup (indices sh).
Proof.
  induction sh as [|n sh IH]; simpl; [constructor; [simpl; tauto|constructor]|].
  generalize (seq_NoDup n 0). generalize (seq 0 n) as l. induction l as [|i l IHl]; simpl; intros ND; [constructor|].
  inversion ND; subst. apply NoDup_app_iff. split; [|split; auto].
  - apply NoDup_map_inj; auto. intros a b _ _ E; inversion E; auto.
  - intros x Hx Hy. apply in_map_iff in Hx. destruct Hx as (y & <- & _). apply in_flat_map in Hy.
    destruct Hy as (j & Hj & Hy). apply in_map_iff in Hy. destruct Hy as (z & E & _). inversion E; subst. contradiction.
Qed.
Lemma digit_no_rbracket n : has_char "]"%char (str_of_nat n) = false.
Proof. apply str_of_nat_no_char. intros d H E. subst d. simpl in H. repeat (destruct H as [H|H]; [discriminate|]). contradiction. Qed.
Lemma brackets_inj a : forall b, brackets a = brackets b -> a = b.
Proof.
  induction a as [|i a IH]; destruct b as [|j b]; simpl; intros E; try discriminate; auto.
  inversion E as [E'].
  apply split_first_sep in E'; try apply digit_no_rbracket. destruct E' as [E1 E2].
  apply str_of_nat_inj in E1. subst. f_equal; auto.
Qed.
Lemma array_create_bits n sh vt a : array_create n sh vt = Ok a ->
  a_bits a = map (fun idx => mkVar (n +++ brackets idx)%string vt) (indices (map Z.to_nat sh)) /\ sh <> [] /\ Forall (fun z => (0 < z)%Z) sh.
Proof.
  unfold array_create. destruct (has_char "*"%char n); [discriminate|]. destruct sh; [discriminate|].
  destruct (forallb _ _) eqn:E; [|discriminate]. intros X; inversion X; subst. split; auto. split; [discriminate|].
  apply forallb_pos. auto.
Qed.
Lemma array_labels_nodup n sh vt a : array_create n sh vt = Ok a -> NoDup (map v_label (a_bits a)).
Proof.
  intros E. apply array_create_bits in E. destruct E as [-> _]. rewrite map_map. simpl.
  apply NoDup_map_inj; [|apply indices_nodup]. intros x y _ _ E. apply append_inj_l in E. apply brackets_inj; auto.
Qed.
Lemma array_labels_shape n sh vt a l : array_create n sh vt = Ok a -> In l (map v_label (a_bits a)) ->
  exists rest, l = (n +++ String "["%char rest)%string.
Proof.
  intros E HI. apply array_create_bits in E. destruct E as (E & NE & _). rewrite E, map_map in HI. simpl in HI.
  apply in_map_iff in HI. destruct HI as (idx & <- & HI).
  pose proof (indices_length (map Z.to_nat sh)) as HL. rewrite Forall_forall in HL. apply HL in HI.
  destruct idx as [|i idx]; [destruct sh; simpl in HI; congruence|]. simpl. eauto.
Qed.

Lemma all_labels_nodup vs : declared_by_name vs -> NoDup (all_labels vs).
Proof.
  intros [ND HV]. unfold all_labels. induction vs as [|[n a] vs IH]; simpl; [constructor|].
  inversion ND; subst. apply NoDup_app_iff. split; [|split].
  - destruct (HV n a) as (_ & sh & vt & E); simpl; auto. eapply array_labels_nodup; eauto.
  - apply IH; auto. intros; apply HV; simpl; auto.
  - intros l Hl Hl'. apply in_flat_map in Hl'. destruct Hl' as ([n' a'] & HI & Hl'). simpl in Hl'.
    destruct (HV n a) as (C & sh & vt & E); simpl; auto.
    destruct (HV n' a') as (C' & sh' & vt' & E'); simpl; auto.
    destruct (array_labels_shape _ _ _ _ _ E Hl) as [r ->]. destruct (array_labels_shape _ _ _ _ _ E' Hl') as [r' X].
    apply split_first_sep in X; auto. destruct X as [-> _]. apply H1. apply (in_map fst) in HI. auto.
Qed.
