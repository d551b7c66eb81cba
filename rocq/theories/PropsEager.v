(** * PropsEager: C138, calls of to_physical in the middle of a history do not matter. *)
From Verif Require Import PyBase PyLemmas Numbers Constraint LogicalModel Spec LogicalProofs EnergyProofs ConvertProofs
  ConstraintProofs MergeProofs PhysicalProofs ToPhysicalProofs InteractionProofs Samples History PropsInteractions PropsHistory ConstrKeeps ModelEq
  Physical PropsPhysical AlikeProofs PropsAlike PropsBqm PropsReach PropsDetermined PropsOrder.
Local Open Scope string_scope.
Local Open Scope list_scope.

(** ** Specification *)

(** The calls of a history other than to_physical. *)
Definition is_conversion (o : op) : bool := match o with OPhysical _ => true | _ => false end.
Definition edits (l : list (env * (nat -> env) * op)) : list (env * (nat -> env) * op) := filter (fun c => negb (is_conversion (snd c))) l.
(** What is asked of a call: attribute dictionaries are dictionaries and only known attributes are updated
    ([orderly]); a variable that is fixed to a non-zero value is not mentioned by an interaction which has been removed
    and is still in the table; and no such interaction has the name of an interaction of a constraint when to_physical
    is called. *)
Definition settled (evs : nat -> env) (o : op) (m : lmodel) : Prop :=
  match o with
  | OFix (TVar v) q => q = 0%Qc \/ forall r, In r (m_rows m) -> r_removed r = true -> key_touches (v_label v) (r_key r) = false
  | OPhysical _ => forall cms r cm, cmodels evs 0 (m_mtype m) (dvals (m_constrs m)) = Ok cms ->
      In r (m_rows m) -> r_removed r = true -> In cm cms -> ~ In (r_name r) (names cm)
  | _ => True
  end.
(** All calls of [l], made one after the other from [m], return; [m'] is the model after the last. *)
Inductive returns : list (env * (nat -> env) * op) -> lmodel -> lmodel -> Prop :=
| ret_nil m : returns [] m m
| ret_cons ev evs o l m m1 m2 : orderly o m -> settled evs o m -> do_op ev evs o m = (m1, Ok tt) -> returns l m1 m2 ->
    returns ((ev, evs, o) :: l) m m2.
(** The interactions in force, without the mark that says that to_physical has not seen them yet. *)
Definition in_force (l : list row) : list row := map (set_dirty false) (filter (fun r => negb (r_removed r)) l).

(** ** Proofs *)
Record same (m m' : lmodel) : Prop := {
  s_type : m_mtype m = m_mtype m'; s_vars : m_vars m = m_vars m'; s_off : m_offset m = m_offset m'; s_del : m_deleted m = m_deleted m';
  s_fix : m_fixed m = m_fixed m'; s_con : m_constrs m = m_constrs m'; s_rows : in_force (m_rows m) = in_force (m_rows m');
  s_nu : names_unique m; s_nu' : names_unique m' }.
Lemma same_sym m m' : same m m' -> same m' m.
Proof. intros []. constructor; auto. Qed.

Lemma in_force_app l l' : in_force (l ++ l') = in_force l ++ in_force l'.
Proof. unfold in_force. rewrite filter_app, map_app. reflexivity. Qed.
Lemma in_force_names l : forall n, In n (map r_name (in_force l)) -> In n (map r_name l).
Proof.
  intros n HI. unfold in_force in HI. rewrite map_map in HI. apply in_map_iff in HI. destruct HI as (r & <- & HI). apply filter_In in HI. apply in_map_iff. exists r. tauto.
Qed.
Definition edit (nm : string) (f : row -> row) (r : row) : row := if String.eqb (r_name r) nm then f r else r.
Lemma edit_out nm f l : ~ In nm (map r_name l) -> map (edit nm f) (in_force l) = in_force l.
Proof.
  intros H. rewrite <- (map_id (in_force l)) at 2. apply map_ext_in. intros r HI. unfold edit. destruct (String.eqb_spec (r_name r) nm) as [<-|]; auto.
  exfalso. apply H, in_force_names. apply in_map. exact HI.
Qed.
Lemma upd_fields_clean c s q r : set_dirty false (upd_fields c s q r) = set_dirty false (upd_fields c s q (set_dirty false r)).
Proof. destruct r, c, s; reflexivity. Qed.
Lemma force_update c s q l1 x l2 : NoDup (map r_name (l1 ++ x :: l2)) ->
  in_force (l1 ++ upd_fields c s q x :: l2) = map (edit (r_name x) (fun r => set_dirty false (upd_fields c s q r))) (in_force (l1 ++ x :: l2)).
Proof.
  intros ND. rewrite map_app in ND. cbn [map] in ND. assert (H := NoDup_remove_2 _ _ _ ND). rewrite in_app_iff in H.
  change (upd_fields c s q x :: l2) with ([upd_fields c s q x] ++ l2). change (x :: l2) with ([x] ++ l2). rewrite !in_force_app, !map_app.
  rewrite (edit_out (r_name x) _ l1), (edit_out (r_name x) _ l2) by tauto. f_equal. f_equal. unfold in_force. cbn [filter]. replace (r_removed (upd_fields c s q x)) with (r_removed x) by (destruct x, c, s; reflexivity).
  destruct (r_removed x); [reflexivity|]. cbn [negb map]. unfold edit. change (r_name (set_dirty false x)) with (r_name x). rewrite String.eqb_refl, upd_fields_clean. reflexivity.
Qed.
Definition other (nm : string) (r : row) : bool := negb (String.eqb (r_name r) nm).
Lemma other_out nm l : ~ In nm (map r_name l) -> filter (other nm) (in_force l) = in_force l.
Proof.
  intros H. assert (HF : forall r, In r (in_force l) -> other nm r = true).
  { intros r HI. unfold other. destruct (String.eqb_spec (r_name r) nm) as [<-|]; auto. exfalso. apply H, in_force_names, in_map. exact HI. }
  induction (in_force l) as [|r k IH]; cbn [filter]; auto. rewrite (HF r (or_introl eq_refl)), IH; auto. intros r' HI. apply HF. right; auto.
Qed.
Lemma force_remove l1 x l2 : NoDup (map r_name (l1 ++ x :: l2)) -> in_force (l1 ++ rm x :: l2) = filter (other (r_name x)) (in_force (l1 ++ x :: l2)).
Proof.
  intros ND. rewrite map_app in ND. cbn [map] in ND. assert (H := NoDup_remove_2 _ _ _ ND). rewrite in_app_iff in H.
  change (rm x :: l2) with ([rm x] ++ l2). change (x :: l2) with ([x] ++ l2). rewrite !in_force_app, !filter_app, (other_out (r_name x) l1), (other_out (r_name x) l2) by tauto.
  f_equal. f_equal. unfold in_force. cbn [filter rm set_dirty set_removed r_removed negb map]. destruct (r_removed x); [reflexivity|]. cbn [negb map filter].
  unfold other. change (r_name (set_dirty false x)) with (r_name x). rewrite String.eqb_refl. reflexivity.
Qed.

Lemma same_core m m' n n' : same m m' -> core n = core m -> core n' = core m' -> same n n'.
Proof.
  intros [] H H'. unfold core in H, H'. injection H as A1 A2 A3 A4 A5 A6 A7 A8. injection H' as B1 B2 B3 B4 B5 B6 B7 B8.
  constructor; try congruence; unfold names_unique, names in *; rewrite ?A7, ?B7; auto.
Qed.
Lemma same_with_rows m m' l l' : same m m' -> in_force l = in_force l' -> NoDup (map r_name l) -> NoDup (map r_name l') -> same (with_rows l m) (with_rows l' m').
Proof. intros [] H N N'. constructor; auto. Qed.

Lemma same_add ev t nm co sc a ts m m' n n' u u' : same m m' -> add_interaction ev t nm co sc a ts m = (n, Ok u) -> add_interaction ev t nm co sc a ts m' = (n', Ok u') -> same n n'.
Proof.
  intros HS E E'. apply add_ok_core in E, E'. destruct E as (c & s & q & inf & k & d & [A1 A2 A3 A4 A5 A6 A7 A8] & HC), E' as (c' & s' & q' & inf' & k' & d' & [B1 B2 B3 B4 B5 B6 B7 B8] & HC').
  rewrite A2 in B2. rewrite A3 in B3. rewrite A4 in B4. rewrite A5 in B5. inversion B2; inversion B3; inversion B4; inversion B5; subst. rewrite A6 in B6. inversion B6; subst.
  refine (same_core _ _ _ _ _ HC HC'). pose proof HS as []. apply same_with_rows; auto.
  - rewrite !in_force_app, s_rows0. reflexivity.
  - rewrite map_app. apply NoDup_app_iff. split; [exact s_nu0|]. split; [repeat constructor; auto|]. intros x HI [<-|[]]. exact (A8 HI).
  - rewrite map_app. apply NoDup_app_iff. split; [exact s_nu'0|]. split; [repeat constructor; auto|]. intros x HI [<-|[]]. exact (B8 HI).
Qed.
Lemma refers_same t n a b : refers t n a -> refers t n b -> a = b.
Proof.
  intros [(H & i & D)|(-> & -> & _)] [(H' & j & D')|(T' & N' & _)].
  - apply denotes_info in D, D'. congruence.
  - rewrite N' in H. destruct b; [|discriminate]. subst t. apply denotes_truthy in D. discriminate.
  - apply denotes_truthy in D'. discriminate D'.
  - congruence.
Qed.
Lemma internal_same t n m m' a b : internal_name t n m = (m, Ok a) -> internal_name t n m' = (m', Ok b) -> a = b.
Proof. intros E E'. apply internal_name_spec in E, E'. destruct E as [E _], E' as [E' _]. eapply refers_same; eauto. Qed.
Lemma nodup_mid l1 (x x' : row) l2 : r_name x' = r_name x -> NoDup (map r_name (l1 ++ x :: l2)) -> NoDup (map r_name (l1 ++ x' :: l2)).
Proof. intros E. rewrite !map_app. cbn [map]. rewrite E. auto. Qed.
Lemma in_force_has n l : In n (map r_name (in_force l)) <-> exists r, In r l /\ r_removed r = false /\ r_name r = n.
Proof.
  unfold in_force. rewrite map_map. rewrite in_map_iff. split.
  - intros (r & E & HI). apply filter_In in HI. exists r. destruct HI as [HI HR]. apply negb_true_iff in HR. auto.
  - intros (r & HI & HR & E). exists r. split; auto. apply filter_In. rewrite HR. auto.
Qed.
Lemma update_at_ok nm c s a q m m' u : names_unique m -> update_at nm c s a q m = (m', Ok u) ->
  exists l, core m' = core (with_rows l m) /\ NoDup (map r_name l) /\ in_force l = map (edit nm (fun r => set_dirty false (upd_fields c s q r))) (in_force (m_rows m)).
Proof.
  intros NU E. destruct (name_index m nm) as [i|e] eqn:EI; [|unfold update_at, bind, get, lift in E; rewrite EI in E; discriminate].
  assert (HX : exists l1 x l2, m_rows m = l1 ++ x :: l2 /\ r_name x = nm /\ core m' = core (with_rows (l1 ++ upd_fields c s q x :: l2) m)).
  { destruct (update_at_any _ _ _ _ _ _ _ _ E) as [HM|(l1 & x & l2 & x' & E1 & E2 & E3 & E4 & _ & _ & _ & _ & E5)]; [|exists l1, x, l2; rewrite <- (E5 u eq_refl); auto].
    apply name_index_split in EI. destruct EI as (l1 & x & l2 & E1 & E2 & E3 & E4). exists l1, x, l2. split; [auto|]. split; [auto|]. subst nm i.
    destruct a as [d|]; [|rewrite (update_at_noattr m l1 x l2 c s q E1 E3) in E; inversion E; reflexivity].
    revert E. unfold update_at. unfold bind at 1, get. unfold bind at 1, lift. rewrite (name_index_mid m l1 x l2) by auto. intros E.
    apply bind_ok in E. destruct E as (m1 & u1 & EC & E). apply bind_ok in E. destruct E as (m2 & u2 & ES & E). apply bind_ok in E. destruct E as (m3 & u3 & EA & E).
    cbn [opt_do] in EA. apply update_attrs_core in EA.
    assert (R1 : m1 = with_rows (l1 ++ match c with Some c => set_coef c | None => fun r => r end x :: l2) m).
    { destruct c; unfold opt_do, upd_row, modify, ret in EC; injection EC as <- _; [rewrite E1, upd_nth_mid; reflexivity|]. rewrite <- E1. destruct m; reflexivity. }
    assert (R2 : m2 = with_rows (l1 ++ match s with Some s => set_scale s | None => fun r => r end (match c with Some c => set_coef c | None => fun r => r end x) :: l2) m).
    { destruct s; unfold opt_do, upd_row, modify, ret in ES; inversion ES; subst; [cbn [m_rows with_rows]; rewrite upd_nth_mid; auto|auto]. }
    unfold bind, upd_row, modify in E. inversion E; subst m'. clear E. assert (R3 := core_rows _ _ EA). unfold core in *. cbn [m_mtype m_vars m_offset m_deleted m_fixed m_constrs m_rows m_prev with_rows] in *.
    rewrite R3, R2. cbn [m_rows with_rows]. rewrite !upd_nth_mid. rewrite R2 in EA. cbn [m_mtype m_vars m_offset m_deleted m_fixed m_constrs m_rows m_prev with_rows] in EA. injection EA as A1 A2 A3 A4 A5 A6 A7 A8. rewrite A1, A2, A3, A4, A5, A6, A8. reflexivity. }
  destruct HX as (l1 & x & l2 & E1 & E2 & E3). unfold names_unique, names in NU. rewrite E1 in NU. exists (l1 ++ upd_fields c s q x :: l2). split; [exact E3|].
  split; [eapply nodup_mid; [|exact NU]; destruct x, c, s; reflexivity|]. rewrite E1, <- E2. apply force_update. exact NU.
Qed.
Lemma same_update ev t nm co sc a ts m m' n n' u u' : same m m' -> update_interaction ev t nm co sc a ts m = (n, Ok u) -> update_interaction ev t nm co sc a ts m' = (n', Ok u') -> same n n'.
Proof.
  intros HS E E'. pose proof HS as [].
  assert (UA : forall c s q d c' s' q' d', upd_args co sc a ts c s d q -> upd_args co sc a ts c' s' d' q' -> c = c' /\ s = s' /\ q = q' /\ d = d') by (intros * [] []; repeat split; congruence).
  assert (NM : forall m1 m2 x k l1 l2 inf, in_force (m_rows m1) = in_force (m_rows m2) -> m_rows m1 = l1 ++ x :: l2 -> r_name x = k -> r_removed x = false ->
     n_truthy nm = false -> internal_name t nm m1 = (m1, Ok k) -> interaction_info t = Ok inf -> has_name m2 (in_name inf) = false -> False).
  { intros m1 m2 x k l1 l2 inf EF ER EK RX NT EI EN HF. apply internal_name_spec in EI. destruct EI as [EI _].
    assert (KK : k = in_name inf). { destruct EI as [(_ & i & D)|(-> & -> & HK)]; [apply denotes_info in D; rewrite D in EN; inversion EN; reflexivity|discriminate EN]. }
    assert (HI : has_name m2 (in_name inf) = true); [|congruence]. apply mem_in. apply in_force_names. rewrite <- EF. apply in_force_has. exists x.
    rewrite <- KK. split; [rewrite ER; apply in_elt|]. auto. }
  destruct (update_split ev t nm co sc a ts m) as [[e C]|(c & s & d & q & UA1 & [(k & l1 & x & l2 & EI & ER & EK & HN & RX & EU)|(NT & (inf & EI & HF) & EU)])]; [congruence| |];
  (destruct (update_split ev t nm co sc a ts m') as [[e C]|(c' & s' & d' & q' & UA2 & [(k' & j1 & y & j2 & EI' & ER' & EK' & HN' & RY & EU')|(NT' & (inf' & EI' & HF') & EU')])]; [congruence| |]);
  destruct (UA _ _ _ _ _ _ _ _ UA1 UA2) as (<- & <- & <- & <-); rewrite EU in E; rewrite EU' in E'.
  - assert (KK : k' = k) by (eapply internal_same; eauto). destruct (update_at_ok _ _ _ _ _ _ _ _ s_nu0 E) as (z & Z1 & Z2 & Z3), (update_at_ok _ _ _ _ _ _ _ _ s_nu'0 E') as (z' & Z1' & Z2' & Z3').
    refine (same_core _ _ _ _ _ Z1 Z1'). apply same_with_rows; auto. rewrite Z3, Z3', s_rows0, KK. reflexivity.
  - exfalso. exact (NM m m' x k l1 l2 inf' s_rows0 ER EK RX NT' EI EI' HF').
  - exfalso. exact (NM m' m y k' j1 j2 inf (eq_sym s_rows0) ER' EK' RY NT EI' EI HF).
  - unfold as_add in E, E'. eapply same_add; eauto.
Qed.
Lemma same_remove t nm m m' n n' u u' : same m m' -> remove_interaction t nm m = (n, Ok u) -> remove_interaction t nm m' = (n', Ok u') ->
  same n n' /\ exists k, refers t nm k /\ in_force (m_rows n) = filter (other k) (in_force (m_rows m)).
Proof.
  intros HS E E'. pose proof HS as [].
  destruct (remove_cases _ _ _ _ _ E) as [(e & C & _)|(_ & k & l1 & x & l2 & EI & ER & EK & HN & ->)]; [discriminate|].
  destruct (remove_cases _ _ _ _ _ E') as [(e & C & _)|(_ & k' & j1 & y & j2 & EI' & ER' & EK' & HN' & ->)]; [discriminate|].
  assert (KK : k' = k) by (eapply internal_same; eauto).
  assert (P1 : NoDup (map r_name (l1 ++ x :: l2))) by (rewrite <- ER; exact s_nu0). assert (P2 : NoDup (map r_name (j1 ++ y :: j2))) by (rewrite <- ER'; exact s_nu'0).
  assert (F1 : in_force (l1 ++ rm x :: l2) = filter (other k) (in_force (m_rows m))) by (rewrite force_remove by exact P1; rewrite ER, EK; reflexivity).
  assert (F2 : in_force (j1 ++ rm y :: j2) = filter (other k) (in_force (m_rows m'))) by (rewrite force_remove by exact P2; rewrite ER', EK', KK; reflexivity).
  split; [|exists k; split; [apply (internal_name_spec t nm m k); auto|exact F1]].
  apply same_with_rows; [exact HS|congruence|eapply nodup_mid; [|exact P1]; reflexivity|eapply nodup_mid; [|exact P2]; reflexivity].
Qed.

(** *** Deleting *)
Lemma constr_loop_same v ks : forall m m' n n', m_constrs m = m_constrs m' -> mfor ks (fun k => constr_remove k v) m = (n, Ok tt) -> mfor ks (fun k => constr_remove k v) m' = (n', Ok tt) -> m_constrs n = m_constrs n'.
Proof.
  induction ks as [|k ks IH]; intros m m' n n' EC E E'; cbn [mfor] in *; [inversion E; inversion E'; subst; auto|].
  apply bind_ok in E, E'. destruct E as (m1 & [] & E1 & E), E' as (m1' & [] & E1' & E'). refine (IH _ _ _ _ _ E E'). unfold constr_remove in E1, E1'. rewrite <- EC in E1'.
  destruct (dget k (m_constrs m)); [destruct (c_remove_variable (VA_one v) c)|]; inversion E1; inversion E1'; subst; cbn; rewrite ?EC; auto.
Qed.
Lemma force_rm_if p l : (forall r, p (set_dirty false r) = p r) -> in_force (map (rm_if p) l) = filter (fun r => negb (p r)) (in_force l).
Proof.
  intros HP. induction l as [|r l IH]; [reflexivity|]. change (r :: l) with ([r] ++ l). rewrite map_app, !in_force_app, filter_app, IH. f_equal.
  unfold in_force, rm_if. cbn [map filter]. destruct (p r) eqn:EP.
  - cbn [rm set_dirty set_removed r_removed negb filter map]. destruct (r_removed r); [reflexivity|]. cbn [negb map filter]. rewrite HP, EP. reflexivity.
  - destruct (r_removed r); [reflexivity|]. cbn [negb map filter]. rewrite HP, EP. reflexivity.
Qed.
Lemma rm_if_names p l : map r_name (map (rm_if p) l) = map r_name l.
Proof. rewrite map_map. apply map_ext. intros r. unfold rm_if. destruct (p r); reflexivity. Qed.
Lemma same_delete t m m' n n' u u' : same m m' -> delete_variable t m = (n, Ok u) -> delete_variable t m' = (n', Ok u') -> same n n'.
Proof.
  intros HS E E'. pose proof HS as []. destruct t as [|v|l|b]; try (unfold delete_variable, bind, guard in E; try destruct l; try destruct b; cbn in E; discriminate E).
  assert (C : m_constrs n = m_constrs n').
  { unfold delete_variable in E, E'. apply bind_ok in E, E'. destruct E as (m1 & u1 & E1 & E), E' as (m1' & u1' & E1' & E'). apply guard_ok in E1, E1'. destruct E1 as [_ ->], E1' as [_ ->].
    apply bind_ok in E, E'. destruct E as (m1 & u2 & E1 & E), E' as (m1' & u2' & E1' & E'). inversion E1; subst m1 u2; clear E1. inversion E1'; subst m1' u2'; clear E1'.
    apply bind_ok in E, E'. destruct E as (m1 & u2 & E1 & E), E' as (m1' & u2' & E1' & E'). inversion E1; subst m1 u2; clear E1. inversion E1'; subst m1' u2'; clear E1'.
    apply bind_ok in E, E'. destruct E as (m1 & [] & E1 & E), E' as (m1' & [] & E1' & E'). cbn [m_constrs with_deleted] in E1, E1'. rewrite <- s_con0 in E1'.
    assert (EC : m_constrs m1 = m_constrs m1') by (refine (constr_loop_same _ _ _ _ _ _ _ E1 E1'); exact s_con0).
    assert (G : forall (x y : lmodel) w, (sel <- select_by_variable (v_label v) ;; mfor sel (fun n => remove_interaction TNone (NStr n))) x = (y, Ok w) -> m_constrs y = m_constrs x).
    { intros x y w H. apply bind_ok in H. destruct H as (x1 & sel & H1 & H). unfold select_by_variable, dataframe, bind, ret in H1. destruct (df_ok x) in H1; inversion H1; subst x1.
      assert (HI : m_constrs y = m_constrs x); [|exact HI]. clear H1. revert H. apply (mfor_inv (fun z => m_constrs z = m_constrs x)); auto. intros a s s' r' _ HI HR. apply remove_cases in HR.
      destruct HR as [(e & _ & ->)|(_ & k & l1 & z & l2 & _ & _ & _ & _ & ->)]; auto. }
    rewrite (G _ _ _ E), (G _ _ _ E'). exact EC. }
  apply delete_ok in E; [|exact s_nu0]. apply delete_ok in E'; [|exact s_nu'0]. destruct E as [cs ->], E' as [cs' ->]. cbn in C. subst cs'.
  constructor; cbn [m_mtype m_vars m_offset m_deleted m_fixed m_constrs m_rows with_rows with_constrs with_deleted]; try congruence.
  - rewrite !force_rm_if by reflexivity. rewrite s_rows0. reflexivity.
  - unfold names_unique, names. cbn. rewrite rm_if_names. exact s_nu0.
  - unfold names_unique, names. cbn. rewrite rm_if_names. exact s_nu'0.
Qed.

(** *** Fixing *)
Lemma force_nodup l : NoDup (map r_name l) -> NoDup (map r_name (in_force l)).
Proof.
  intros H. induction l as [|r l IH]; [constructor|]. inversion H as [|? ? H1 H2]; subst. unfold in_force. cbn [filter]. destruct (r_removed r); cbn [negb]; [apply IH; auto|].
  cbn [map]. constructor; [|apply IH; auto]. intros C. apply H1. apply (in_force_names l). exact C.
Qed.
Lemma in_nodup_eq l (a b : row) : NoDup (map r_name l) -> In a l -> In b l -> r_name a = r_name b -> a = b.
Proof.
  induction l as [|x l IH]; intros N HA HB E; [contradiction|]. inversion N as [|? ? N1 N2]; subst. destruct HA as [->|HA], HB as [->|HB]; auto.
  - exfalso. apply N1. rewrite E. apply in_map. exact HB.
  - exfalso. apply N1. rewrite <- E. apply in_map. exact HA.
Qed.
Lemma found_row m k i r : names_unique m -> In k (map r_name (in_force (m_rows m))) -> name_index m k = Ok i -> nth_error (m_rows m) i = Some r -> In (set_dirty false r) (in_force (m_rows m)) /\ r_name r = k.
Proof.
  intros NU HI EI EN. apply name_index_split in EI. destruct EI as (l1 & x & l2 & E1 & E2 & _ & E4). rewrite E1, nth_error_app2 in EN by (rewrite E4; apply Nat.le_refl). rewrite E4, Nat.sub_diag in EN. inversion EN; subst r.
  split; auto. apply in_force_has in HI. destruct HI as (y & HY & RY & NY). assert (y = x). { eapply (in_nodup_eq (m_rows m)); eauto; [rewrite E1; apply in_elt|congruence]. } subst y.
  unfold in_force. apply in_map. apply filter_In. rewrite RY. auto.
Qed.
Lemma same_offset m m' c c' : c = c' -> same m m' -> same (with_offset c m) (with_offset c' m').
Proof. intros -> []. constructor; auto. Qed.
Lemma add_force ev t nm co sc a ts m n u : add_interaction ev t nm co sc a ts m = (n, Ok u) -> incl (map r_name (in_force (m_rows m))) (map r_name (in_force (m_rows n))).
Proof. intros E. apply add_ok_core in E. destruct E as (c & s & q & inf & k & d & _ & HC). rewrite (core_rows _ _ HC). cbn [m_rows with_rows]. rewrite in_force_app, map_app. apply incl_appl, incl_refl. Qed.
Lemma remaining k x l : x <> k -> In x (map r_name l) -> In x (map r_name (filter (other k) l)).
Proof.
  intros NE HI. apply in_map_iff in HI. destruct HI as (r & <- & HI). apply in_map_iff. exists r. split; auto. apply filter_In. split; auto. unfold other. apply negb_true_iff. apply String.eqb_neq. exact NE.
Qed.
Lemma remove_named k n m m' u : remove_interaction TNone (NStr k) m = (m', Ok u) -> refers TNone (NStr k) n -> n = k.
Proof. intros _ [(_ & i & D)|(_ & E & _)]; [inversion D|congruence]. Qed.
Lemma same_fix_one ev l q k m m' n n' u u' : same m m' -> In k (map r_name (in_force (m_rows m))) -> fix_one ev l q k m = (n, Ok u) -> fix_one ev l q k m' = (n', Ok u') ->
  same n n' /\ forall x, x <> k -> In x (map r_name (in_force (m_rows m))) -> In x (map r_name (in_force (m_rows n))).
Proof.
  intros HS HK E E'. pose proof HS as []. unfold fix_one in E, E'. unfold bind at 1, get in E. unfold bind at 1, get in E'. apply bind_ok in E, E'. destruct E as (m1 & i & E1 & E), E' as (m1' & i' & E1' & E').
  apply lift_eq in E1, E1'. destruct E1 as [E1 ->], E1' as [E1' ->].
  destruct (nth_error (m_rows m) i) as [r|] eqn:ER; [|discriminate]. destruct (nth_error (m_rows m') i') as [r'|] eqn:ER'; [|discriminate].
  destruct (found_row _ _ _ _ s_nu0 HK E1 ER) as [HR NR]. rewrite s_rows0 in HK. destruct (found_row _ _ _ _ s_nu'0 HK E1' ER') as [HR' NR'].
  assert (EQ : set_dirty false r = set_dirty false r'). { rewrite s_rows0 in HR. eapply in_nodup_eq; [apply force_nodup; exact s_nu'0|exact HR|exact HR'|]. cbn. congruence. }
  assert (EKey : r_key r = r_key r') by (apply (f_equal r_key) in EQ; exact EQ). assert (ECo : r_coef r = r_coef r') by (apply (f_equal r_coef) in EQ; exact EQ).
  assert (ESc : r_scale r = r_scale r') by (apply (f_equal r_scale) in EQ; exact EQ). assert (EIn : r_inter r = r_inter r') by (apply (f_equal r_inter) in EQ; exact EQ).
  rewrite <- EKey, <- ECo, <- ESc, <- EIn in E'. rewrite <- s_rows0 in HK. destruct (r_key r).
  - unfold bind at 1, modify in E. unfold bind at 1, modify in E'. assert (HS1 := same_offset m m' _ _ (f_equal (fun o => cadd o (cmul (cmul (CNum (- q)%Qc) (r_coef r)) (r_scale r))) s_off0) HS).
    destruct (same_remove _ _ _ _ _ _ _ _ HS1 E E') as [HS2 (k2 & HF & EF)]. split; auto. intros x NX HX. rewrite EF, (remove_named _ _ _ _ _ E HF). apply remaining; auto.
  - apply bind_ok in E, E'. destruct E as (m2 & to & E2 & E), E' as (m2' & to' & E2' & E'). apply lift_eq in E2, E2'. destruct E2 as [E2 ->], E2' as [E2' ->]. assert (to' = to) by congruence. subst to'.
    apply bind_ok in E, E'. destruct E as (m2 & u2 & E3 & E), E' as (m2' & u2' & E3' & E'). assert (HS1 := same_add _ _ _ _ _ _ _ _ _ _ _ _ _ HS E3 E3').
    destruct (same_remove _ _ _ _ _ _ _ _ HS1 E E') as [HS2 (k2 & HF & EF)]. split; auto. intros x NX HX. rewrite EF, (remove_named _ _ _ _ _ E HF). apply remaining; auto. exact (add_force _ _ _ _ _ _ _ _ _ _ E3 x HX).
Qed.
Lemma same_fix_loop ev l q ks : NoDup ks -> forall m m' n n' u u', same m m' -> incl ks (map r_name (in_force (m_rows m))) ->
  mfor ks (fix_one ev l q) m = (n, Ok u) -> mfor ks (fix_one ev l q) m' = (n', Ok u') -> same n n'.
Proof.
  induction ks as [|k ks IH]; intros N m m' n n' u u' HS HI E E'; cbn [mfor] in *; [inversion E; inversion E'; subst; auto|].
  inversion N as [|? ? N1 N2]; subst. apply bind_ok in E, E'. destruct E as (m1 & u1 & E1 & E), E' as (m1' & u1' & E1' & E').
  destruct (same_fix_one _ _ _ _ _ _ _ _ _ _ HS (HI k (or_introl eq_refl)) E1 E1') as [HS1 HK]. refine (IH N2 _ _ _ _ _ _ HS1 _ E E').
  intros x HX. apply HK; [congruence|]. apply HI. right. exact HX.
Qed.
Lemma select_clear l rows : (forall r, In r rows -> r_removed r = true -> key_touches l (r_key r) = false) ->
  map r_name (filter (fun r => key_touches l (r_key r)) rows) = map r_name (filter (fun r => key_touches l (r_key r)) (in_force rows)).
Proof.
  induction rows as [|r rows IH]; intros H; [reflexivity|]. change (r :: rows) with ([r] ++ rows). rewrite in_force_app, !filter_app, !map_app, IH by (intros; apply H; simpl; auto). f_equal.
  unfold in_force. cbn [filter]. destruct (r_removed r) eqn:ER; [rewrite (H r (or_introl eq_refl) ER); reflexivity|]. cbn [negb map filter set_dirty r_key]. destruct (key_touches l (r_key r)); reflexivity.
Qed.
Lemma same_fix evs ev t q m m' n n' u u' : same m m' -> settled evs (OFix t q) m -> settled evs (OFix t q) m' -> fix_variable ev t q m = (n, Ok u) -> fix_variable ev t q m' = (n', Ok u') -> same n n'.
Proof.
  intros HS HC HC' E E'. pose proof HS as []. destruct t as [|v|l|b]; try (unfold fix_variable, bind, guard in E; try destruct l; try destruct b; cbn in E; discriminate E). cbn [settled] in HC, HC'.
  unfold fix_variable in E, E'. apply bind_ok in E, E'. destruct E as (m1 & u1 & E1 & E), E' as (m1' & u1' & E1' & E'). apply guard_ok in E1, E1'. destruct E1 as [_ ->], E1' as [_ ->].
  unfold bind at 1, get in E. unfold bind at 1, get in E'. apply bind_ok in E, E'. destruct E as (m1 & u2 & E1 & E), E' as (m1' & u2' & E1' & E'). apply guard_ok in E1, E1'. destruct E1 as [_ ->], E1' as [_ ->].
  unfold bind at 1, modify in E. unfold bind at 1, modify in E'. rewrite <- s_fix0 in E'. set (d := dset (v_label v) true (m_fixed m)) in *.
  assert (HS1 : same (with_fixed d m) (with_fixed d m')) by (constructor; auto).
  apply bind_ok in E, E'. destruct E as (m1 & sel & E1 & E), E' as (m1' & sel' & E1' & E'). unfold select_by_variable, dataframe, bind, ret in E1, E1'.
  destruct (df_ok (with_fixed d m)); [|discriminate]. destruct (df_ok (with_fixed d m')); [|discriminate]. inversion E1; subst m1 sel; clear E1. inversion E1'; subst m1' sel'; clear E1'.
  cbn [m_rows with_fixed] in E, E'. destruct (Qc_eqb q 0) eqn:EQ.
  - apply (remove_loop _ []) in E; [|reflexivity|exact s_nu0]. apply (remove_loop _ []) in E'; [|reflexivity|exact s_nu'0]. subst n n'. cbn [app].
    apply same_with_rows; auto; [|rewrite rm_if_names; exact s_nu0|rewrite rm_if_names; exact s_nu'0]. rewrite !force_rm_if by reflexivity. rewrite s_rows0. reflexivity.
  - assert (NQ : q <> 0%Qc) by (intros ->; rewrite (proj2 (Qc_eqb_eq 0 0) eq_refl) in EQ; discriminate). destruct HC as [?|HC]; [contradiction|]. destruct HC' as [?|HC']; [contradiction|].
    rewrite select_clear in E by exact HC. rewrite select_clear in E' by exact HC'. rewrite <- s_rows0 in E'. refine (same_fix_loop _ _ _ _ _ _ _ _ _ _ _ HS1 _ E E').
    + assert (ND := force_nodup _ s_nu0). clear -ND. induction (in_force (m_rows m)) as [|r l IH]; [constructor|]. inversion ND; subst. cbn [filter]. destruct (key_touches (v_label v) (r_key r)); [|apply IH; auto].
      cbn [map]. constructor; [|apply IH; auto]. intros C. apply H1. apply in_map_iff in C. destruct C as (r' & E & C). apply filter_In in C. rewrite <- E. apply in_map. apply C.
    + intros x HX. apply in_map_iff in HX. destruct HX as (r & <- & HX). apply filter_In in HX. apply in_map. apply HX.
Qed.

(** *** Conversion of the model type *)
Lemma same_retype t m m' n n' u u' : same m m' -> update_variables_type (with_mtype t m) = (n, Ok u) -> update_variables_type (with_mtype t m') = (n', Ok u') -> same n n'.
Proof.
  intros [] E E'. unfold update_variables_type in E, E'. cbn [m_mtype m_vars with_mtype with_vars m_rows] in E, E'. rewrite <- s_vars0 in E'.
  destruct (recreate (vt_of t) [] (m_vars m)) as [vs [w|e]]; [|discriminate].
  destruct (df_ok (with_vars vs (with_mtype t m))); [|discriminate]. destruct (df_ok (with_vars vs (with_mtype t m'))); [|discriminate]. inversion E; inversion E'; subst; clear E E'.
  set (g := fun r => if r_removed r then r else set_inter (retype_inter t (r_inter r)) r).
  assert (GN : forall l, map r_name (map g l) = map r_name l) by (intros l; rewrite map_map; apply map_ext; intros r; unfold g; destruct (r_removed r); reflexivity).
  assert (GF : forall l, in_force (map g l) = map g (in_force l)).
  { induction l as [|r l IH]; [reflexivity|]. change (r :: l) with ([r] ++ l). rewrite map_app, !in_force_app, map_app, IH. f_equal. unfold in_force, g. cbn [map filter].
    destruct (r_removed r) eqn:ER; [rewrite ER; reflexivity|]. cbn [set_inter r_removed]. rewrite ER. cbn [negb map set_dirty r_removed]. rewrite ER. reflexivity. }
  constructor; cbn [m_mtype m_vars m_offset m_deleted m_fixed m_constrs m_rows with_rows with_vars with_mtype]; auto.
  - rewrite !GF, s_rows0. reflexivity.
  - unfold names_unique, names. cbn [m_rows with_rows]. rewrite GN. exact s_nu0.
  - unfold names_unique, names. cbn [m_rows with_rows]. rewrite GN. exact s_nu'0.
Qed.
Definition clean (r : row) : row := set_dirty false r.
Lemma active_clean (p : row -> bool) (q : row -> bool) l : (forall r, p r = negb (r_removed r) && q r) -> (forall r, q (set_dirty false r) = q r) -> map clean (filter p l) = filter q (in_force l).
Proof.
  intros HP HQ. induction l as [|r l IH]; [reflexivity|]. change (r :: l) with ([r] ++ l). rewrite in_force_app, !filter_app, map_app, IH. f_equal.
  unfold in_force. cbn [filter]. rewrite HP. destruct (r_removed r); [reflexivity|]. cbn [negb andb map filter]. rewrite HQ. destruct (q r); reflexivity.
Qed.
Lemma same_conv_h ev a b r m m' n n' u u' : same m m' -> conv_h ev a b r m = (n, Ok u) -> conv_h ev a b r m' = (n', Ok u') -> same n n'.
Proof.
  intros HS E E'. unfold conv_h in E, E'. apply bind_ok in E, E'. destruct E as (m1 & u1 & E1 & E), E' as (m1' & u1' & E1' & E'). assert (HS1 := same_update _ _ _ _ _ _ _ _ _ _ _ _ _ HS E1 E1').
  inversion E; inversion E'; subst. apply same_offset; auto. rewrite (s_off _ _ HS1). reflexivity.
Qed.
Lemma same_conv_hs ev a b l : forall m m' n n' u u', same m m' -> mfor l (conv_h ev a b) m = (n, Ok u) -> mfor l (conv_h ev a b) m' = (n', Ok u') -> same n n'.
Proof.
  induction l as [|r l IH]; intros m m' n n' u u' HS E E'; cbn [mfor] in *; [inversion E; inversion E'; subst; auto|].
  apply bind_ok in E, E'. destruct E as (m1 & u1 & E1 & E), E' as (m1' & u1' & E1' & E'). exact (IH _ _ _ _ _ _ (same_conv_h _ _ _ _ _ _ _ _ _ _ HS E1 E1') E E').
Qed.
Lemma same_conv_J ev a b c k r m m' n n' u u' : same m m' -> conv_J ev a b c k r m = (n, Ok u) -> conv_J ev a b c k r m' = (n', Ok u') -> same n n'.
Proof.
  intros HS E E'. unfold conv_J in E, E'. apply bind_ok in E, E'. destruct E as (m1 & u1 & E1 & E), E' as (m1' & u1' & E1' & E'). assert (HS1 := same_update _ _ _ _ _ _ _ _ _ _ _ _ _ HS E1 E1').
  destruct (r_inter r); [discriminate|]. destruct (r_key r); [discriminate|].
  apply bind_ok in E, E'. destruct E as (m2 & u2 & E2 & E), E' as (m2' & u2' & E2' & E'). assert (HS2 := same_add _ _ _ _ _ _ _ _ _ _ _ _ _ HS1 E2 E2').
  apply bind_ok in E, E'. destruct E as (m3 & u3 & E3 & E), E' as (m3' & u3' & E3' & E'). assert (HS3 := same_add _ _ _ _ _ _ _ _ _ _ _ _ _ HS2 E3 E3').
  inversion E; inversion E'; subst. apply same_offset; auto. rewrite (s_off _ _ HS3). reflexivity.
Qed.
Lemma same_conv_Js ev a b c l : forall k m m' n n' u u', same m m' -> conv_Js ev a b c k l m = (n, Ok u) -> conv_Js ev a b c k l m' = (n', Ok u') -> same n n'.
Proof.
  induction l as [|r l IH]; intros k m m' n n' u u' HS E E'; cbn [conv_Js] in *; [inversion E; inversion E'; subst; auto|].
  apply bind_ok in E, E'. destruct E as (m1 & u1 & E1 & E), E' as (m1' & u1' & E1' & E'). exact (IH _ _ _ _ _ _ _ (same_conv_J _ _ _ _ _ _ _ _ _ _ _ _ HS E1 E1') E E').
Qed.
Lemma conv_hs_clean ev a b l m : mfor l (conv_h ev a b) m = mfor (map clean l) (conv_h ev a b) m.
Proof. revert m. induction l as [|r l IH]; intros m; cbn [mfor map]; [reflexivity|]. unfold bind. change (conv_h ev a b (clean r)) with (conv_h ev a b r). destruct (conv_h ev a b r m) as [m1 [x|e]]; auto. Qed.
Lemma conv_Js_clean ev a b c l : forall k m, conv_Js ev a b c k l m = conv_Js ev a b c k (map clean l) m.
Proof. induction l as [|r l IH]; intros k m; cbn [conv_Js map]; [reflexivity|]. unfold bind. change (conv_J ev a b c k (clean r)) with (conv_J ev a b c k r). destruct (conv_J ev a b c k r m) as [m1 [x|e]]; auto. Qed.
Lemma same_convert ev t ha hb ja jb jc m m' n n' u u' : same m m' -> convert ev t ha hb ja jb jc m = (n, Ok u) -> convert ev t ha hb ja jb jc m' = (n', Ok u') -> same n n'.
Proof.
  intros HS E E'. unfold convert in E, E'. unfold bind at 1, get in E. unfold bind at 1, get in E'. rewrite <- (s_type _ _ HS) in E'. destruct (mtype_eqb (m_mtype m) t); [inversion E; inversion E'; subst; auto|].
  unfold bind at 1, modify in E. unfold bind at 1, modify in E'. apply bind_ok in E, E'. destruct E as (m1 & u1 & E1 & E), E' as (m1' & u1' & E1' & E'). assert (HS1 := same_retype _ _ _ _ _ _ _ HS E1 E1').
  apply bind_ok in E, E'. destruct E as (m2 & h & E2 & E), E' as (m2' & h' & E2' & E'). apply dataframe_ok in E2, E2'. destruct E2 as [-> ->], E2' as [-> ->].
  apply bind_ok in E, E'. destruct E as (m2 & u2 & E2 & E), E' as (m2' & u2' & E2' & E'). rewrite conv_hs_clean in E2, E2'.
  set (h1 := fun r => match r_key r with K1 _ => true | K2 _ _ => false end). set (h2 := fun r => match r_key r with K1 _ => false | K2 _ _ => true end).
  rewrite (active_clean body1_active h1) in E2 by reflexivity. rewrite (active_clean body1_active h1) in E2' by reflexivity. rewrite <- (s_rows _ _ HS1) in E2'.
  assert (HS2 := same_conv_hs _ _ _ _ _ _ _ _ _ _ HS1 E2 E2').
  apply bind_ok in E, E'. destruct E as (m3 & j & E3 & E), E' as (m3' & j' & E3' & E'). apply dataframe_ok in E3, E3'. destruct E3 as [-> ->], E3' as [-> ->].
  rewrite conv_Js_clean in E, E'. rewrite (active_clean body2_active h2) in E by reflexivity. rewrite (active_clean body2_active h2) in E' by reflexivity. rewrite <- (s_rows _ _ HS2) in E'.
  exact (same_conv_Js _ _ _ _ _ _ _ _ _ _ _ _ HS2 E E').
Qed.

(** *** PyQUBO models *)
Lemma same_pq_loop ev pq l : forall m m' n n' l1 l2 u u', same m m' -> pq_loop ev m pq l = (n, l1, Ok u) -> pq_loop ev m' pq l = (n', l2, Ok u') -> same n n'.
Proof.
  induction l as [|[k c] l IH]; intros m m' n n' l1 l2 u u' HS E E'; cbn [pq_loop] in *; [inversion E; inversion E'; subst; auto|].
  destruct (pq_step ev m pq (k, c)) as [[m1 c1] [x|e]] eqn:E1; [|discriminate]. destruct (pq_step ev m' pq (k, c)) as [[m1' c1'] [x'|e]] eqn:E1'; [|discriminate].
  destruct (pq_loop ev m1 pq l) as [[n1 r1] y] eqn:E2. destruct (pq_loop ev m1' pq l) as [[n1' r1'] y'] eqn:E2'. inversion E; inversion E'; subst.
  refine (IH _ _ _ _ _ _ _ _ _ E2 E2'). unfold pq_step in E1, E1'. destruct k as [k0 k1]. unfold pq_lookup in E1, E1'. rewrite <- (s_vars _ _ HS) in E1'.
  destruct (match dget k0 (pq_struct pq) with Some _ => _ | None => _ end) as [t0|]; [|discriminate]. destruct (match dget k1 (pq_struct pq) with Some _ => _ | None => _ end) as [t1|]; [|discriminate].
  destruct (add_interaction ev _ _ _ _ _ _ m) as [a1 r2] eqn:EA. destruct (add_interaction ev _ _ _ _ _ _ m') as [a1' r2'] eqn:EA'. inversion E1; inversion E1'; subst. eapply same_add; eauto.
Qed.
Lemma same_pyqubo ev pq m m' n n' q q' u u' : same m m' -> from_pyqubo ev m pq = (n, q, Ok u) -> from_pyqubo ev m' pq = (n', q', Ok u') -> same n n'.
Proof.
  intros HS E E'. unfold from_pyqubo in E, E'. destruct (pq_loop ev m pq (pq_terms pq)) as [[m1 l1] [x|e]] eqn:E1; [|discriminate]. destruct (pq_loop ev m' pq (pq_terms pq)) as [[m1' l1'] [x'|e]] eqn:E1'; [|discriminate].
  inversion E; inversion E'; subst. apply same_offset; auto. eapply same_pq_loop; eauto.
Qed.

(** *** Variables *)
Lemma same_vars m m' vs : same m m' -> same (with_vars vs m) (with_vars vs m').
Proof. intros []. constructor; auto. Qed.
Lemma same_variables nm sh m m' n n' u u' : same m m' -> variables nm sh m = (n, Ok u) -> variables nm sh m' = (n', Ok u') -> same n n'.
Proof.
  intros HS E E'. unfold variables in E, E'. rewrite <- (s_type _ _ HS), <- (s_vars _ _ HS) in E'.
  repeat match type of E with context [match ?x with _ => _ end] => destruct x; try discriminate end; inversion E; inversion E'; subst; apply same_vars; auto.
Qed.
Lemma same_append nm sh m m' n n' u u' : same m m' -> append nm sh m = (n, Ok u) -> append nm sh m' = (n', Ok u') -> same n n'.
Proof.
  intros HS E E'. unfold append in E, E'. rewrite <- (s_type _ _ HS), <- (s_vars _ _ HS) in E'. destruct nm as [nm|a|]; try discriminate. destruct (check_shape true sh); [|discriminate].
  destruct (dget nm (m_vars m)); [|eapply same_variables; eauto]. destruct (array_create _ _ _); [|discriminate]. inversion E; inversion E'; subst; apply same_vars; auto.
Qed.

(** *** One call, and histories *)
Lemma same_op ev evs o m m' n n' : is_conversion o = false -> same m m' -> settled evs o m -> settled evs o m' -> do_op ev evs o m = (n, Ok tt) -> do_op ev evs o m' = (n', Ok tt) -> same n n'.
Proof.
  intros HO HS HC HC' E E'. destruct o; cbn [do_op] in E, E'.
  - eapply same_variables; eauto.
  - eapply same_append; eauto.
  - eapply same_add; eauto.
  - eapply same_update; eauto.
  - eapply same_remove; eauto.
  - eapply same_delete; eauto.
  - eapply same_fix; eauto.
  - unfold add_constraint in E, E'. destruct c as [c|]; [|discriminate]. inversion E; inversion E'; subst. destruct HS. rewrite s_con0. constructor; auto.
  - unfold remove_constraint in E, E'. rewrite <- (s_con _ _ HS) in E'. destruct l as [l|]; [|discriminate]. destruct (dmem l (m_constrs m)); [|discriminate]. inversion E; inversion E'; subst. destruct HS. constructor; auto.
  - unfold set_offset in E, E'. inversion E; inversion E'; subst. apply same_offset; auto.
  - destruct (from_pyqubo ev m pq) as [[x y] z] eqn:F. destruct (from_pyqubo ev m' pq) as [[x' y'] z'] eqn:F'. inversion E; inversion E'; subst. eapply same_pyqubo; eauto.
  - eapply same_convert; eauto.
  - eapply same_convert; eauto.
  - discriminate.
Qed.
Lemma same_physical ev evs fd m n : aligned m -> names_unique m -> settled evs (OPhysical fd) m -> do_op ev evs (OPhysical fd) m = (n, Ok tt) -> same m n.
Proof.
  intros AL NU HC E. cbn [do_op] in E. destruct (to_physical ev evs fd m) as [m1 [p|e]] eqn:EP; [|discriminate]. inversion E; subst m1.
  destruct (to_physical_ok _ _ _ _ _ _ (proj1 AL) EP) as (cms & EC & _ & _).
  destruct (C11_frame _ _ _ _ _ _ _ AL NU EC (fun r cm H1 H2 H3 => HC cms r cm EC H1 H2 H3) EP) as (F1&F2&F3&F4&F5&F6&F7&F8&F9&F10&F11&F12).
  constructor; auto. rewrite F9. unfold in_force. clear. induction (m_rows m) as [|r l IH]; [reflexivity|]. cbn [filter]. destruct (r_removed r) eqn:ER; cbn [negb map]; [exact IH|].
  cbn [filter set_dirty r_removed]. rewrite ER. cbn [negb map]. f_equal. exact IH.
Qed.
Definition good (m : lmodel) : Prop := aligned m /\ well_formed m /\ reachable m.
Lemma good_step ev evs o m n : good m -> orderly o m -> do_op ev evs o m = (n, Ok tt) -> good n.
Proof.
  intros (AL & HW & HR) HO E. assert (EN : n = fst (do_op ev evs o m)) by (rewrite E; reflexivity). split; [rewrite EN; apply al_do; auto|]. split; [|rewrite EN; constructor; auto].
  assert (HK := keeps_do _ closed_wf ev evs o m). rewrite EN. apply HK; [|exact HW]. intros fd _. right. rewrite E. reflexivity.
Qed.
Lemma good_run l m n : returns l m n -> good m -> good n.
Proof. induction 1; intros HG; auto. apply IHreturns. eapply good_step; eauto. Qed.
Lemma same_trans a b c : same a b -> same b c -> same a c.
Proof. intros [] []. constructor; congruence || auto. Qed.
Lemma only_conversions l m n : returns l m n -> good m -> edits l = [] -> same m n.
Proof.
  induction 1 as [m|ev evs o l m m1 m2 HO HC E HR IH]; intros HG EE; [destruct HG as (_ & [NU _] & _); constructor; auto|].
  cbn [edits filter snd] in EE. destruct o; cbn [is_conversion negb] in EE; try discriminate EE. assert (HG1 := good_step _ _ _ _ _ HG HO E).
  eapply same_trans; [|apply IH; auto]. destruct HG as (AL & [NU _] & _). eapply same_physical; eauto.
Qed.
Lemma same_histories l m n : returns l m n -> forall l' m' n', returns l' m' n' -> good m -> good m' -> same m m' -> edits l = edits l' -> same n n'.
Proof.
  induction 1 as [m|ev evs o l m m1 m2 HO HC E HR IH]; intros l' m' n' R' HG HG' HS EE.
  - eapply same_trans; [exact HS|]. eapply only_conversions; eauto.
  - assert (HG1 := good_step _ _ _ _ _ HG HO E). destruct (is_conversion o) eqn:EO.
    + cbn [edits filter snd] in EE. rewrite EO in EE. cbn [negb] in EE. destruct o; try discriminate EO. apply (IH l' m' n' R' HG1 HG'); auto.
      destruct HG as (AL & [NU _] & _). eapply same_trans; [apply same_sym; eapply same_physical; eauto|exact HS].
    + cbn [edits filter snd] in EE. rewrite EO in EE. cbn [negb] in EE. fold (edits l) in EE.
      assert (HX : exists a k, returns a m' k /\ edits a = [] /\ exists k1 l2, orderly o k /\ settled evs o k /\ do_op ev evs o k = (k1, Ok tt) /\ returns l2 k1 n' /\ edits l2 = edits l).
      { clear -R' EE EO. induction R' as [m'|ev' evs' o' l' m' m1' m2' HO' HC' E' HR' IH']; [discriminate EE|]. cbn [edits filter snd] in EE. destruct (is_conversion o') eqn:EO'; cbn [negb] in EE.
        - destruct (IH' EE) as (a & k & RA & EA & H). exists ((ev', evs', o') :: a), k. split; [econstructor; eauto|]. split; [cbn [edits filter snd]; rewrite EO'; exact EA|exact H].
        - inversion EE; subst. exists [], m'. split; [constructor|]. split; [reflexivity|]. exists m1', l'. auto 6. }
      destruct HX as (a & k & RA & EA & k1 & l2 & HO' & HC' & E' & R2 & E2). assert (HGk := good_run _ _ _ RA HG'). assert (HGk1 := good_step _ _ _ _ _ HGk HO' E').
      apply (IH l2 k1 n' R2 HG1 HGk1); auto. refine (same_op _ _ _ _ _ _ _ EO _ HC HC' E E'). eapply same_trans; [exact HS|]. eapply only_conversions; eauto.
Qed.
Lemma good_new t : good (new_model t).
Proof. split; [apply al_new|]. split; [split; constructor|constructor]. Qed.
Lemma force_energy fd s l : qsum (map (contribution fd s) l) = qsum (map (contribution fd s) (in_force l)).
Proof.
  induction l as [|r l IH]; [reflexivity|]. unfold in_force. cbn [map filter qsum]. unfold contribution at 1. destruct (r_removed r) eqn:ER; cbn [negb map qsum].
  - rewrite IH. unfold in_force. ring.
  - rewrite IH. f_equal. unfold contribution. cbn [set_dirty r_removed r_coef r_scale r_key]. rewrite ER. reflexivity.
Qed.

(** ** C138 *)

(** Two histories that differ only in calls of to_physical leave models with the same variables, constraints, offset and
    interactions in force, *)
Theorem C138_models_partial : forall t l l' m m', returns l (new_model t) m -> returns l' (new_model t) m' -> edits l = edits l' ->
  m_mtype m = m_mtype m' /\ m_vars m = m_vars m' /\ m_offset m = m_offset m' /\ m_deleted m = m_deleted m' /\ m_fixed m = m_fixed m' /\ m_constrs m = m_constrs m' /\
  in_force (m_rows m) = in_force (m_rows m') /\ forall fd s, energy fd s m = energy fd s m'.
Proof.
  intros t l l' m m' H H' EE. assert (HS : same m m').
  { eapply same_histories; eauto using good_new. destruct (good_new t) as (_ & [NU _] & _). constructor; auto. }
  destruct HS. do 7 (split; [auto|]). intros fd s. unfold energy. rewrite (force_energy fd s (m_rows m)), (force_energy fd s (m_rows m')), s_rows0, s_off0. reflexivity.
Qed.
(** and the same physical model. *)
Theorem C138_physical_partial : forall t l l' m m' ev evs ev' evs' fd n n' p q, returns l (new_model t) m -> returns l' (new_model t) m' -> edits l = edits l' ->
  NoDup (all_labels (m_vars m)) -> Forall constr_ok (dvals (m_constrs m)) ->
  to_physical ev evs fd m = (n, Ok p) -> to_physical ev' evs' fd m' = (n', Ok q) -> physical_eqb p q = true.
Proof.
  intros t l l' m m' ev evs ev' evs' fd n n' p q H H' EE HN HC E E'. destruct (C138_models_partial _ _ _ _ _ H H' EE) as (A1 & A2 & A3 & A4 & A5 & A6 & A7 & A8).
  destruct (good_run _ _ _ H (good_new t)) as (AL & _ & R). destruct (good_run _ _ _ H' (good_new t)) as (AL' & _ & R').
  eapply (C125_interactions _ _ _ _ _ m m'); eauto; [apply AL|apply AL'|]. split; [auto|]. split; [auto|]. intros x. rewrite A4. tauto.
Qed.
(** Not for every history: fix_variable also takes account of a removed interaction, as long as no call of to_physical has taken
    it out of the table. *)
Definition dropped_then_fixed (convert : bool) : list (env * (nat -> env) * op) := map (fun o => (env0, evs0, o))
  ([OVariables (VName "x") (ShTuple [ShInt 3]);
    OAdd (TTuple [EVar (spn "x" 0); EVar (spn "x" 1)]) (NStr "J") (AC (CNum (qz 5))) (AC (CNum 1%Qc)) AtNone TsNone;
    OAdd (TVar (spn "x" 2)) (NStr "h") (AC (CNum (qz 2))) (AC (CNum 1%Qc)) AtNone TsNone;
    ORemove TNone (NStr "J")] ++ (if convert then [OPhysical feed0] else []) ++ [OFix (TVar (spn "x" 0)) 1%Qc]).
Theorem C138_refuted : exists l l' m m' n n' p q, PropsAlike.run l (new_model Ising) = Some m /\ PropsAlike.run l' (new_model Ising) = Some m' /\ edits l = edits l' /\
  m_constrs m = [] /\ NoDup (all_labels (m_vars m)) /\ to_physical env0 evs0 feed0 m = (n, Ok p) /\ to_physical env0 evs0 feed0 m' = (n', Ok q) /\ physical_eqb p q = false.
Proof.
  exists (dropped_then_fixed false), (dropped_then_fixed true).
  destruct (PropsAlike.run (dropped_then_fixed false) (new_model Ising)) as [m|] eqn:E; [|vm_compute in E; discriminate E].
  destruct (PropsAlike.run (dropped_then_fixed true) (new_model Ising)) as [m'|] eqn:E'; [|vm_compute in E'; discriminate E'].
  vm_compute in E, E'. injection E as <-. injection E' as <-.
  do 6 eexists. split; [reflexivity|]. split; [reflexivity|]. split; [reflexivity|]. split; [reflexivity|]. split; [apply nodupb_ok; vm_compute; reflexivity|].
  split; [vm_compute; reflexivity|]. split; [vm_compute; reflexivity|]. vm_compute. reflexivity.
Qed.

(** ** Example *)
(** Interactions that are added, updated, removed, deleted, fixed and converted, with constraints; once with a call of
    to_physical after every step. *)
Definition ops_of_history : list op :=
  [OVariables (VName "x") (ShTuple [ShInt 4]);
   OAdd (TTuple [EVar (spn "x" 0); EVar (spn "x" 1)]) (NStr "J") (AC (CNum (qz 5))) (AC (CNum 1%Qc)) (AtDict [("k"%string, ANum (qz 3))]) TsNone;
   OAdd (TVar (spn "x" 2)) (NStr "h") (AC (CNum (qz 2))) (AC (CNum (qz 3))) AtNone TsNone;
   OAdd (TTuple [EVar (spn "x" 1); EVar (spn "x" 2)]) (NStr "") (AC (CNum (qz 7))) (AC (CNum 1%Qc)) AtNone TsNone;
   OUpdate TNone (NStr "J") (Some (AC (CNum (qz 6)))) None (AtDict [("k"%string, ANum (qz 4))]) TsNone;
   OAdd (TTuple [EVar (spn "x" 3); EVar (spn "x" 2)]) (NStr "K") (AC (CNum (qz 4))) (AC (CNum 1%Qc)) AtNone TsNone;
   ODelete (TVar (spn "x" 3));
   OAddConstraint (Some (NHot [spn "x" 0; spn "x" 1] 1 "one" (qz 10)));
   ORemove TNone (NStr "h");
   OUpdate (TTuple [EVar (spn "x" 0); EVar (spn "x" 2)]) (NStr "") (Some (AC (CNum (qz 9)))) None AtNone TsNone;
   OFix (TVar (spn "x" 0)) (- (1))%Qc;
   OOffset (CNum (qz 8));
   OQubo].
Definition conversion_every : list op := flat_map (fun o => [o; OPhysical feed0]) ops_of_history.
Definition calls_of (l : list op) : list (env * (nat -> env) * op) := map (fun o => (env0, evs0, o)) l.
Fixpoint returnsb (l : list op) (m : lmodel) : bool :=
  match l with
  | [] => true
  | o :: l => orderlyb o m &&
      match o with
      | OFix (TVar v) q => forallb (fun r => negb (r_removed r) || negb (key_touches (v_label v) (r_key r))) (m_rows m)
      | OPhysical _ => match cmodels evs0 0 (m_mtype m) (dvals (m_constrs m)) with
                       | Ok cms => forallb (fun r => negb (r_removed r) || forallb (fun cm => negb (mem (r_name r) (names cm))) cms) (m_rows m)
                       | Err _ => true
                       end
      | _ => true
      end && match do_op env0 evs0 o m with (m1, Ok _) => returnsb l m1 | _ => false end
  end.
Lemma orderlyb_ok o m : orderlyb o m = true -> orderly o m.
Proof.
  destruct o; cbn [orderlyb orderly]; auto; intros H; [apply nodupb_ok; exact H|]. apply andb_true_iff in H. destruct H as [H1 H2]. split; [apply nodupb_ok; exact H1|].
  rewrite forallb_forall in H2. intros k HI. apply mem_in. apply H2. exact HI.
Qed.
Lemma returnsb_ok l : forall m, returnsb l m = true -> exists n, returns (calls_of l) m n /\ PropsAlike.run (calls_of l) m = Some n.
Proof.
  induction l as [|o l IH]; intros m H; cbn [returnsb calls_of map PropsAlike.run] in *; [exists m; split; [constructor|reflexivity]|].
  apply andb_true_iff in H. destruct H as [H H3]. apply andb_true_iff in H. destruct H as [H1 H2]. destruct (do_op env0 evs0 o m) as [m1 [[]|e]] eqn:E; [|discriminate].
  destruct (IH m1 H3) as (n & HR & HN). exists n. split; [|exact HN]. econstructor; eauto; [apply orderlyb_ok; auto|]. clear -H2. destruct o; cbn [settled]; auto.
  - destruct t; auto. right. rewrite forallb_forall in H2. intros r HI RR. specialize (H2 r HI). rewrite RR in H2. apply negb_true_iff. exact H2.
  - intros cms r cm EC HI RR HC C. rewrite EC in H2. rewrite forallb_forall in H2. specialize (H2 r HI). rewrite RR in H2. cbn [negb orb] in H2. rewrite forallb_forall in H2. specialize (H2 cm HC).
    apply negb_true_iff in H2. apply mem_in in C. congruence.
Qed.
Example C138_hyps : exists m m' n n' p q, returns (calls_of ops_of_history) (new_model Ising) m /\ returns (calls_of conversion_every) (new_model Ising) m' /\
  edits (calls_of ops_of_history) = edits (calls_of conversion_every) /\ NoDup (all_labels (m_vars m)) /\ Forall constr_ok (dvals (m_constrs m)) /\
  to_physical env0 evs0 feed0 m = (n, Ok p) /\ to_physical env0 evs0 feed0 m' = (n', Ok q) /\
  length (m_rows m) <> length (m_rows m') /\ length (m_constrs m) = 1 /\ length (p_linear p) = 3 /\ length (p_quad p) = 2.
Proof.
  destruct (returnsb_ok ops_of_history (new_model Ising)) as (m & HR & HM); [vm_compute; reflexivity|].
  destruct (returnsb_ok conversion_every (new_model Ising)) as (m' & HR' & HM'); [vm_compute; reflexivity|].
  vm_compute in HM, HM'. injection HM as HM. injection HM' as HM'.
  exists m, m'. subst m m'. do 4 eexists. split; [exact HR|]. split; [exact HR'|]. split; [reflexivity|].
  split; [apply nodupb_ok; vm_compute; reflexivity|]. split; [constructor; [|constructor]; cbn [constr_ok]; constructor; [intros [C|[]]; discriminate C|]; constructor; [intros []|constructor]|].
  split; [vm_compute; reflexivity|]. split; [vm_compute; reflexivity|]. vm_compute. intuition discriminate.
Qed.
Print Assumptions C138_models_partial.
Print Assumptions C138_physical_partial.
Print Assumptions C138_refuted.
