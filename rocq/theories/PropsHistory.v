(** * PropsHistory: C01, C63 - what holds after every sequence of calls. *)
From Verif Require Import PyBase PyLemmas Numbers Constraint LogicalModel Spec LogicalProofs EnergyProofs ConvertProofs
  ConstraintProofs MergeProofs PhysicalProofs ToPhysicalProofs InteractionProofs Samples History PropsInteractions.
Open Scope list_scope.

(** ** A predicate on the table that every call keeps *)
Definition same_row (a b : row) : Prop := r_name a = r_name b /\ r_key a = r_key b /\ inter_key (r_inter a) = inter_key (r_inter b).
Lemma same_row_refl a : same_row a a. Proof. repeat split. Qed.
Record closed (P : list row -> Prop) : Prop := {
  cl_nil : P [];
  cl_add : forall l r, P l -> ~ In (r_name r) (map r_name l) -> key_ok r -> P (l ++ [r]);
  cl_same : forall l l', Forall2 same_row l' l -> P l -> P l';
  cl_drop : forall l1 x l2, P (l1 ++ x :: l2) -> P (l1 ++ l2) }.
Definition keeps (P : list row -> Prop) {A} (f : LM A) : Prop :=
  forall m m' r, f m = (m', r) -> P (m_rows m) -> P (m_rows m').

Section Keeps.
  Variable P : list row -> Prop.
  Hypothesis HP : closed P.
  Lemma keeps_ret {A} (a : A) : keeps P (ret a).
  Proof. intros m m' r E. inversion E; subst; auto. Qed.
  Lemma keeps_raise {A} e : keeps P (raise e : LM A).
  Proof. intros m m' r E. inversion E; subst; auto. Qed.
  Lemma keeps_lift {A} (x : res A) : keeps P (lift x).
  Proof. intros m m' r E. unfold lift in E. destruct x; inversion E; subst; auto. Qed.
  Lemma keeps_get : keeps P get.
  Proof. intros m m' r E. inversion E; subst; auto. Qed.
  Lemma keeps_guard b e : keeps P (guard b e).
  Proof. intros m m' r E. unfold guard in E. destruct b; inversion E; subst; auto. Qed.
  Lemma keeps_modify f : (forall m, m_rows (f m) = m_rows m) -> keeps P (modify f).
  Proof. intros H m m' r E. unfold modify in E. inversion E; subst. rewrite H. auto. Qed.
  Lemma keeps_bind {A B} (f : LM A) (g : A -> LM B) : keeps P f -> (forall a, keeps P (g a)) -> keeps P (bind f g).
  Proof.
    intros HF HG m m' r E HM. unfold bind in E. destruct (f m) as [m1 [a|e]] eqn:E1.
    - eapply HG; eauto.
    - inversion E; subst. eapply HF; eauto.
  Qed.
  Lemma keeps_mfor {A} (l : list A) f : (forall a, keeps P (f a)) -> keeps P (mfor l f).
  Proof.
    intros H. induction l as [|a l IH]; simpl; [apply keeps_ret|]. apply keeps_bind; auto.
  Qed.
  Lemma info_key_ok t inf nm c s q : interaction_info t = Ok inf -> key_ok (new_row nm inf c s q).
  Proof.
    intros E. apply info_denotes in E. destruct E as [HD HK]. split; [exact HK|]. simpl. rewrite HK. inversion HD; subst; simpl; auto.
  Qed.
  Lemma keeps_add ev t n co sc a ts : keeps P (add_interaction ev t n co sc a ts).
  Proof.
    intros m m' r E HM. apply add_any_core in E. destruct E as [->|(c & s & q & inf & nm & d & AA & HC)]; auto.
    rewrite (core_rows _ _ HC). simpl. destruct AA. apply (cl_add P HP); auto. eapply info_key_ok; eauto.
  Qed.
  Lemma same_mid l1 x x' l2 : same_row x' x -> Forall2 same_row (l1 ++ x' :: l2) (l1 ++ x :: l2).
  Proof. intros H. apply Forall2_app; [apply Forall2_refl; apply same_row_refl|]. constructor; auto. apply Forall2_refl; apply same_row_refl. Qed.
  Lemma keeps_update ev t n co sc a ts : keeps P (update_interaction ev t n co sc a ts).
  Proof.
    intros m m' r E HM. destruct (update_split ev t n co sc a ts m) as [[e E2]|(c & s & d & q & _ & [(nm & l1 & x & l2 & _ & _ & _ & _ & _ & E2)|(_ & _ & E2)])];
      rewrite E2 in E.
    - inversion E; subst; auto.
    - apply update_at_any in E. destruct E as [->|(k1 & y & k2 & x' & ER & _ & _ & HC & H1 & H2 & H3 & _)]; auto.
      rewrite (core_rows _ _ HC). simpl. rewrite ER in HM. revert HM. apply (cl_same P HP). apply same_mid. repeat split; auto. congruence.
    - revert E HM. apply keeps_add.
  Qed.
  Lemma keeps_remove t n : keeps P (remove_interaction t n).
  Proof.
    intros m m' r E HM. apply remove_cases in E. destruct E as [(e & _ & ->)|(_ & nm & l1 & x & l2 & _ & ER & _ & _ & ->)]; auto.
    simpl. rewrite ER in HM. revert HM. apply (cl_same P HP), same_mid. repeat split.
  Qed.
  Lemma keeps_dataframe : keeps P dataframe.
  Proof. intros m m' r E. unfold dataframe in E. destruct (df_ok m); inversion E; subst; auto. Qed.
  Lemma keeps_select l : keeps P (select_by_variable l).
  Proof. apply keeps_bind; [apply keeps_dataframe|]. intros; apply keeps_ret. Qed.
  Lemma keeps_variables n sh : keeps P (variables n sh).
  Proof. intros m m' r E. apply variables_frame in E. destruct E as [vs ->]. auto. Qed.
  Lemma keeps_append n sh : keeps P (append n sh).
  Proof. intros m m' r E. apply append_frame in E. destruct E as [vs ->]. auto. Qed.
  Lemma keeps_constr_remove k v : keeps P (constr_remove k v).
  Proof. intros m m' r E. apply constr_remove_frame in E. destruct E as [cs ->]. auto. Qed.
  Lemma keeps_delete t : keeps P (delete_variable t).
  Proof.
    apply keeps_bind; [apply keeps_guard|]. intros _. destruct t; try apply keeps_raise.
    apply keeps_bind; [apply keeps_modify; reflexivity|]. intros _. apply keeps_bind; [apply keeps_get|]. intros m.
    apply keeps_bind; [apply keeps_mfor; intros; apply keeps_constr_remove|]. intros _. apply keeps_bind; [apply keeps_select|].
    intros sel. apply keeps_mfor. intros; apply keeps_remove.
  Qed.
  Lemma keeps_fix_one ev l v n : keeps P (fix_one ev l v n).
  Proof.
    apply keeps_bind; [apply keeps_get|]. intros m. apply keeps_bind; [apply keeps_lift|]. intros i.
    destruct (nth_error (m_rows m) i) as [r|]; [|apply keeps_raise]. destruct (r_key r).
    - apply keeps_bind; [apply keeps_modify; reflexivity|]. intros; apply keeps_remove.
    - apply keeps_bind; [apply keeps_lift|]. intros t. apply keeps_bind; [apply keeps_add|]. intros; apply keeps_remove.
  Qed.
  Lemma keeps_fix ev t v : keeps P (fix_variable ev t v).
  Proof.
    apply keeps_bind; [apply keeps_guard|]. intros _. destruct t; try apply keeps_raise.
    apply keeps_bind; [apply keeps_get|]. intros m. apply keeps_bind; [apply keeps_guard|]. intros _.
    apply keeps_bind; [apply keeps_modify; reflexivity|]. intros _. apply keeps_bind; [apply keeps_select|]. intros sel.
    destruct (Qc_eqb v 0); apply keeps_mfor; intros; [apply keeps_remove|apply keeps_fix_one].
  Qed.
  Lemma keeps_pyqubo ev pq m m' pq' r : from_pyqubo ev m pq = (m', pq', r) -> P (m_rows m) -> P (m_rows m').
  Proof.
    assert (HS : forall m t m1 c1 r1, pq_step ev m pq t = (m1, c1, r1) -> P (m_rows m) -> P (m_rows m1)).
    { intros m0 [[k0 k1] c] m1 c1 r1. unfold pq_step. destruct (pq_lookup m0 pq k0); [|intros E; inversion E; subst; auto].
      destruct (pq_lookup m0 pq k1); [|intros E; inversion E; subst; auto]. destruct (add_interaction _ _ _ _ _ _ _ m0) as [m2 r2] eqn:E2.
      intros E; inversion E; subst. revert E2. apply keeps_add. }
    assert (HL : forall l m m1 l1 r1, pq_loop ev m pq l = (m1, l1, r1) -> P (m_rows m) -> P (m_rows m1)).
    { induction l as [|[k c] l IH]; intros m0 m1 l1 r1 E HM; cbn [pq_loop] in E; [inversion E; subst; auto|].
      destruct (pq_step ev m0 pq (k, c)) as [[m2 c2] [u|e]] eqn:E2.
      - destruct (pq_loop ev m2 pq l) as [[m3 l3] r3] eqn:E3. inversion E; subst. apply HS in E2; auto. eapply IH; eauto.
      - inversion E; subst. eapply HS; eauto. }
    unfold from_pyqubo. destruct (pq_loop ev m pq (pq_terms pq)) as [[m1 l1] [u|e]] eqn:E1; intros E; inversion E; subst; simpl; eauto.
  Qed.
  Lemma keeps_retype : keeps P update_variables_type.
  Proof.
    intros m m' r E HM. unfold update_variables_type in E. destruct (recreate _ _ _) as [vs [u|e]]; [|inversion E; subst; auto].
    destruct (df_ok _); inversion E; subst; simpl; auto. revert HM. apply (cl_same P HP). clear E.
    induction (m_rows m) as [|x l IH]; simpl; constructor; auto. destruct (r_removed x); [apply same_row_refl|].
    repeat split. simpl. destruct (r_inter x); reflexivity.
  Qed.
  Lemma keeps_conv_Js ev a b c l : forall k, keeps P (conv_Js ev a b c k l).
  Proof.
    induction l as [|r l IH]; intros k; simpl; [apply keeps_ret|]. apply keeps_bind; [|intros; apply IH].
    apply keeps_bind; [apply keeps_update|]. intros _. destruct (r_inter r); [apply keeps_raise|]. destruct (r_key r); [apply keeps_raise|].
    apply keeps_bind; [apply keeps_add|]. intros _. apply keeps_bind; [apply keeps_add|]. intros _. apply keeps_modify; reflexivity.
  Qed.
  Lemma keeps_convert ev t ha hb ja jb jc : keeps P (convert ev t ha hb ja jb jc).
  Proof.
    apply keeps_bind; [apply keeps_get|]. intros m. destruct (mtype_eqb _ _); [apply keeps_ret|].
    apply keeps_bind; [apply keeps_modify; reflexivity|]. intros _. apply keeps_bind; [apply keeps_retype|]. intros _.
    apply keeps_bind; [apply keeps_dataframe|]. intros h. apply keeps_bind.
    - apply keeps_mfor. intros r. apply keeps_bind; [apply keeps_update|]. intros _. apply keeps_modify; reflexivity.
    - intros _. apply keeps_bind; [apply keeps_dataframe|]. intros j. apply keeps_conv_Js.
  Qed.
  Lemma pop_split {A} i (l l' : list A) : pop_nth i l = Some l' -> exists l1 x l2, l = l1 ++ x :: l2 /\ l' = l1 ++ l2.
  Proof.
    revert l l'. induction i as [|i IH]; intros [|y l] l'; simpl; try discriminate.
    - intros E; inversion E; subst. exists [], y, l'. auto.
    - destruct (pop_nth i l) as [t|] eqn:E; [|discriminate]. intros E2; inversion E2; subst. apply IH in E. destruct E as (l1 & x & l2 & -> & ->).
      exists (y :: l1), x, l2. auto.
  Qed.
  Lemma keeps_purge n : keeps P (purge_one n).
  Proof.
    intros m m' r E HM. unfold purge_one, bind, get, lift in E. destruct (name_index m n) as [i|e]; [|inversion E; subst; auto].
    destruct (pop_nth i (m_rows m)) as [rows'|] eqn:EP; [|inversion E; subst; auto]. apply pop_split in EP. destruct EP as (l1 & x & l2 & ER & ->).
    rewrite ER in HM. apply (cl_drop P HP) in HM. destruct (pop_cols i [] (m_cols m)) as [cols [u|e]]; inversion E; subst; simpl; auto.
  Qed.
  Lemma clear_same n l : Forall2 same_row (clear_dirty n l) l.
  Proof.
    unfold clear_dirty. rewrite <- (firstn_skipn n l) at 3. apply Forall2_app; [|apply Forall2_refl, same_row_refl].
    induction (firstn n l); simpl; constructor; auto. repeat split.
  Qed.
  Lemma keeps_after fd m0 m1 m' r : after_merge fd m0 m1 = (m', r) -> P (m_rows m0) -> P (m_rows m1) -> P (m_rows m').
  Proof.
    unfold after_merge. intros E H0 H1. destruct (visited m1) as [rows|e]; [|inversion E; subst; auto].
    destruct (agg_rows _ _ _) as [g|e]; [|inversion E; subst; auto]. destruct (ceval _ _); [|inversion E; subst; auto].
    destruct (mfor (g_remove g) purge_one _) as [m3 [u|e]] eqn:EM.
    - inversion E; subst. simpl. apply (cl_same P HP _ _ (clear_same _ _)). apply (keeps_mfor _ _ keeps_purge _ _ _ EM). exact H0.
    - inversion E; subst. apply (keeps_mfor _ _ keeps_purge _ _ _ EM). exact H0.
  Qed.
  Lemma keeps_after_ok fd m0 m1 m' p : after_merge fd m0 m1 = (m', Ok p) -> P (m_rows m0) -> P (m_rows m').
  Proof.
    unfold after_merge. intros E H0. destruct (visited m1) as [rows|e]; [|discriminate].
    destruct (agg_rows _ _ _) as [g|e]; [|discriminate]. destruct (ceval _ _); [|discriminate].
    destruct (mfor (g_remove g) purge_one _) as [m3 [u|e]] eqn:EM; inversion E; subst.
    simpl. apply (cl_same P HP _ _ (clear_same _ _)). apply (keeps_mfor _ _ keeps_purge _ _ _ EM). exact H0.
  Qed.
  (** Every call but to_physical; to_physical without constraints, or when it returns. *)
  Lemma keeps_do ev evs o m : (forall fd, o = OPhysical fd -> m_constrs m = [] \/ snd (do_op ev evs o m) = Ok tt) ->
    P (m_rows m) -> P (m_rows (fst (do_op ev evs o m))).
  Proof.
    intros HC HM.
    assert (HK : forall f : LM unit, keeps P f -> P (m_rows (fst (f m)))).
    { intros f HF. destruct (f m) as [m' r] eqn:E. simpl. eapply HF; eauto. }
    destruct o; cbn [do_op].
    - apply HK, keeps_variables.
    - apply HK, keeps_append.
    - apply HK, keeps_add.
    - apply HK, keeps_update.
    - apply HK, keeps_remove.
    - apply HK, keeps_delete.
    - apply HK, keeps_fix.
    - apply HK. destruct c; [apply keeps_modify; reflexivity|apply keeps_raise].
    - apply HK. intros m0 m' r E. unfold remove_constraint in E. destruct l; [|inversion E; subst; auto]. destruct (dmem s (m_constrs m0)); inversion E; subst; auto.
    - exact HM.
    - destruct (from_pyqubo ev m pq) as [[m' pq'] r] eqn:E. simpl. eapply keeps_pyqubo; eauto.
    - apply (HK (to_ising ev)). unfold to_ising. apply keeps_convert.
    - apply (HK (to_qubo ev)). unfold to_qubo. apply keeps_convert.
    - specialize (HC fd eq_refl). simpl in HC. rewrite to_physical_after in *. destruct HC as [HC|HC].
      + rewrite HC. simpl. destruct (after_merge fd m m) as [m' [p|e]] eqn:E; simpl; eapply keeps_after; eauto.
      + destruct (merge_constrs _ _ _ _ _) as [m1 [u|e]]; [|simpl in HC; discriminate].
        destruct (after_merge fd m m1) as [m' [p|e]] eqn:E; simpl in *; [|discriminate]. eapply keeps_after_ok; eauto.
  Qed.
End Keeps.

Definition wf_rows (l : list row) : Prop := NoDup (map r_name l) /\ Forall key_ok l.
Lemma same_names l l' : Forall2 same_row l' l -> map r_name l' = map r_name l.
Proof. intros H. induction H as [|a b l' l [H _] _ IH]; simpl; congruence. Qed.
Lemma same_keys l l' : Forall2 same_row l' l -> Forall key_ok l -> Forall key_ok l'.
Proof.
  intros H. induction H as [|a b l' l (H1 & H2 & H3) _ IH]; intros F; inversion F as [|? ? [K1 K2] F']; subst; constructor; auto.
  split; [congruence|]. rewrite H2; auto.
Qed.
Lemma closed_wf : closed wf_rows.
Proof.
  constructor.
  - split; constructor.
  - intros l r [H1 H2] HF HK. split.
    + rewrite map_app. apply NoDup_app_iff. split; auto. split; [repeat constructor; auto|]. simpl. intros x HI [<-|[]]. contradiction.
    + apply Forall_app. split; auto.
  - intros l l' HS [H1 H2]. split; [rewrite (same_names _ _ HS); auto|]. eapply same_keys; eauto.
  - intros l1 x l2 [H1 H2]. split.
    + rewrite map_app in *. simpl in H1. eapply NoDup_remove_1; eauto.
    + apply Forall_app in H2. destruct H2 as [H2 H3]. inversion H3; subst. apply Forall_app; auto.
Qed.
Lemma closed_keys : closed (Forall key_ok).
Proof.
  constructor; auto.
  - intros l r H _ HK. apply Forall_app. split; auto.
  - intros l l' HS. eapply same_keys; eauto.
  - intros l1 x l2 H2. apply Forall_app in H2. destruct H2 as [H2 H3]. inversion H3; subst. apply Forall_app; auto.
Qed.

(** ** C01 *)

(** Names stay unique, and key, body and variables agree, in every history in
    which no to_physical raises while there are constraints. *)
Theorem C01_names_partial : forall m, calm m -> names_unique m /\ Forall key_ok (m_rows m).
Proof.
  intros m H. change (wf_rows (m_rows m)). induction H; [apply (cl_nil _ closed_wf)|]. apply keeps_do; auto. apply closed_wf.
Qed.
(** Key, body and variables agree after every history whatsoever, merges included. *)
Lemma eqx_keys l l' : Forall2 eqx l' l -> Forall key_ok l -> Forall key_ok l'.
Proof.
  intros H. induction H as [|a b l' l H _ IH]; intros F; inversion F as [|? ? [K1 K2] F']; subst; constructor; auto.
  apply eqx_fields in H. destruct H as (H1 & H2 & _). split; [congruence|]. rewrite H1. auto.
Qed.
Lemma merge_same_keys ev k o m m' r : merge_same ev k o m = (m', r) -> Forall key_ok (m_rows m) -> Forall key_ok (m_rows o) -> Forall key_ok (m_rows m').
Proof.
  intros E HM HO. unfold merge_same in E. unfold bind at 1 in E. unfold get at 1 in E. unfold guard in E.
  destruct (dims_ok m o); [|inversion E; subst; auto]. unfold bind at 1 in E. unfold ret in E. unfold bind at 1 in E.
  destruct (mfor (m_vars o) merge_var m) as [m1 [u|e]] eqn:EV; apply merge_vars_frame in EV; destruct EV as [vs ->]; [|inversion E; subst; auto].
  unfold bind at 1, get in E. destruct (merge_cols _ o _) as [cols|]; [|inversion E; subst; auto].
  unfold bind at 1, modify in E. cbv beta iota zeta in E.
  assert (HR : forall x y z, Forall key_ok (rename_rows x y z (m_len (with_vars vs m)) 0 (m_rows (with_vars vs m) ++ m_rows o))).
  { intros. eapply eqx_keys; [apply rename_eqx|]. apply Forall_app; auto. }
  destruct (negb _) in E; inversion E; subst; simpl; apply HR.
Qed.
Lemma keeps_to_model P ev c : closed P -> P (m_rows (fst (to_model ev c))).
Proof.
  intros HP. assert (HK : forall f : LM unit, keeps P f -> P (m_rows (fst (f (new_model Qubo))))).
  { intros f HF. destruct (f (new_model Qubo)) as [m' r] eqn:E. simpl. eapply HF; eauto. apply (cl_nil _ HP). }
  assert (H1 : forall l q v, keeps P (cadd1 ev l q v)) by (intros; apply keeps_add; auto).
  assert (H2 : forall l q v w, keeps P (cadd2 ev l q v w)) by (intros; apply keeps_add; auto).
  assert (H3 : forall l q vs v, keeps P (cadd_pairs_of ev l q vs v)).
  { intros. apply keeps_mfor. intros w. destruct (String.ltb _ _); [apply H2|apply keeps_ret]. }
  destruct c; unfold to_model; apply HK.
  - apply keeps_mfor. intros. apply keeps_bind; auto.
  - apply keeps_mfor. intros. auto.
  - apply keeps_bind; [apply keeps_mfor; auto|]. intros _. apply keeps_bind; [apply keeps_mfor; auto|]. intros _.
    apply keeps_bind; [apply keeps_mfor; auto|]. intros _. apply keeps_mfor. intros. apply keeps_mfor. auto.
Qed.
Lemma convert_mtype_keys ev m m' r : convert_mtype ev m = (m', r) -> Forall key_ok (m_rows m) -> Forall key_ok (m_rows m').
Proof.
  unfold convert_mtype, bind, get. destruct (m_mtype m); [unfold to_qubo|unfold to_ising]; apply keeps_convert; apply closed_keys.
Qed.
Lemma merge_keys ev evo k m o m' o' r : merge ev evo k m o = (m', o', r) -> Forall key_ok (m_rows m) -> Forall key_ok (m_rows o) ->
  Forall key_ok (m_rows m') /\ Forall key_ok (m_rows o').
Proof.
  unfold merge. intros E HM HO. destruct (mtype_eqb _ _).
  - destruct (merge_same ev k o m) as [m1 r1] eqn:E1. inversion E; subst. split; auto. eapply merge_same_keys; eauto.
  - destruct (convert_mtype evo o) as [o1 [u|e]] eqn:EC.
    + destruct (merge_same ev k o1 m) as [m1 r1] eqn:E1. inversion E; subst. apply convert_mtype_keys in EC; auto. split; auto. eapply merge_same_keys; eauto.
    + inversion E; subst. apply convert_mtype_keys in EC; auto.
Qed.
Lemma merge_constrs_keys ev evs cs : forall k m m' r, merge_constrs ev evs k cs m = (m', r) -> Forall key_ok (m_rows m) -> Forall key_ok (m_rows m').
Proof.
  induction cs as [|c cs IH]; intros k m m' r E HM; simpl in E; [inversion E; subst; auto|].
  destruct (to_model (evs k) c) as [cm [u|e]] eqn:EC; [|inversion E; subst; auto].
  destruct (merge ev (evs k) k m cm) as [[m1 o1] [u1|e]] eqn:EM; apply merge_keys in EM; auto;
    try (pose proof (keeps_to_model _ (evs k) c closed_keys) as HT; rewrite EC in HT; exact HT).
  - destruct EM. eapply IH; eauto.
  - inversion E; subst. destruct EM; auto.
Qed.
Lemma do_keys ev evs o m : Forall key_ok (m_rows m) -> Forall key_ok (m_rows (fst (do_op ev evs o m))).
Proof.
  intros HM. destruct o; try (apply (keeps_do _ closed_keys); auto; intros; discriminate).
  simpl. rewrite to_physical_after. destruct (merge_constrs _ _ _ _ _) as [m1 [u|e]] eqn:EM; apply merge_constrs_keys in EM; auto.
  destruct (after_merge fd m m1) as [m' [p|e]] eqn:EA; simpl; eapply keeps_after; eauto; apply closed_keys.
Qed.
Theorem C01_keys : forall m, reachable m -> Forall key_ok (m_rows m).
Proof.
  intros m H. induction H.
  - constructor.
  - apply do_keys; auto.
  - destruct (merge ev evo k m o) as [[m' o'] r] eqn:E. apply merge_keys in E; auto. simpl. tauto.
  - destruct (merge ev evo k m o) as [[m' o'] r] eqn:E. apply merge_keys in E; auto. simpl. tauto.
Qed.
(** But a to_physical that raises (a missing placeholder) leaves renamed and
    merged interactions behind, and repeating it makes names collide. *)
Definition failing_ops : list op :=
  [OVariables (VName "q") (ShTuple [ShInt 2]);
   OAdd (TVar (bin "q" 0)) (NStr "") (AC (CPh "lambda")) (num 1) AtNone TsNone;
   OAddConstraint (Some (ZeroOrOne [bin "q" 0; bin "q" 1] "one" (qz 10)));
   OPhysical []; OPhysical []; OPhysical []; OPhysical []].
Definition run_ops (os : list op) (m : lmodel) : lmodel := fold_left (fun m o => fst (do_op env0 evs0 o m)) os m.
Lemma run_history os : forall m, history m -> history (run_ops os m).
Proof. induction os as [|o os IH]; intros m H; simpl; auto. apply IH. constructor; auto. Qed.
Theorem C01_refuted : exists m, history m /\ ~ names_unique m.
Proof.
  exists (run_ops failing_ops (new_model Qubo)). split; [apply run_history; constructor|].
  intros H. assert (HB : forall l : list string, NoDup l -> nodupb l = true).
  { induction l as [|x l IH]; intros N; auto. inversion N; subst. simpl. rewrite IH by auto. destruct (mem x l) eqn:E; auto. apply mem_in in E. contradiction. }
  apply HB in H. revert H. vm_compute. discriminate.
Qed.

(** ** C63: one attribute entry per interaction *)
Definition akeeps {A} (f : LM A) : Prop := forall m m' r, f m = (m', r) -> aligned m -> aligned m'.
Lemma ak_ret {A} (a : A) : akeeps (ret a).
Proof. intros m m' r E. inversion E; subst; auto. Qed.
Lemma ak_raise {A} e : akeeps (raise e : LM A).
Proof. intros m m' r E. inversion E; subst; auto. Qed.
Lemma ak_lift {A} (x : res A) : akeeps (lift x).
Proof. intros m m' r E. unfold lift in E. destruct x; inversion E; subst; auto. Qed.
Lemma ak_get : akeeps get.
Proof. intros m m' r E. inversion E; subst; auto. Qed.
Lemma ak_guard b e : akeeps (guard b e).
Proof. intros m m' r E. unfold guard in E. destruct b; inversion E; subst; auto. Qed.
Definition same_table (m m' : lmodel) : Prop := m_rows m' = m_rows m /\ m_cols m' = m_cols m /\ m_attrs m' = m_attrs m /\ m_len m' = m_len m.
Lemma ak_modify f : (forall m, same_table m (f m)) -> akeeps (modify f).
Proof. intros H m m' r E HA. unfold modify in E. inversion E; subst. destruct (H m) as (H1 & H2 & H3 & H4). eapply aligned_core; eauto. Qed.
Lemma ak_bind {A B} (f : LM A) (g : A -> LM B) : akeeps f -> (forall a, akeeps (g a)) -> akeeps (bind f g).
Proof.
  intros HF HG m m' r E HM. unfold bind in E. destruct (f m) as [m1 [a|e]] eqn:E1.
  - eapply HG; eauto.
  - inversion E; subst. eapply HF; eauto.
Qed.
Lemma ak_mfor {A} (l : list A) f : (forall a, akeeps (f a)) -> akeeps (mfor l f).
Proof. intros H. induction l as [|a l IH]; simpl; [apply ak_ret|]. apply ak_bind; auto. Qed.
Lemma attrs_wf_of a : NoDup (dkeys (attrs_of a)) -> attrs_wf a.
Proof. intros H d ->. exact H. Qed.
Lemma ak_add ev t n co sc a ts : NoDup (dkeys (attrs_of a)) -> akeeps (add_interaction ev t n co sc a ts).
Proof.
  intros HN m m' r E HA. apply attrs_wf_of in HN. destruct r as [[]|e].
  - destruct (C03_effect _ _ _ _ _ _ _ _ _ HA HN E) as (c & s & i & dn & nm & _ & _ & _ & _ & _ & _ & _ & AL & _). exact AL.
  - apply C02_add_atomic in E; auto. subst; auto.
Qed.
Lemma ak_update ev t n co sc a ts m m' r : update_interaction ev t n co sc a ts m = (m', r) ->
  NoDup (dkeys (attrs_of a)) -> (forall k, In k (dkeys (attrs_of a)) -> In (attr_key k) (m_attrs m)) -> aligned m -> aligned m'.
Proof.
  intros E HN HK HA. destruct (update_split ev t n co sc a ts m) as [[e E2]|(c & s & d & q & UA & [(nm & l1 & x & l2 & _ & ER & EN & HF & _ & E2)|(_ & _ & E2)])];
    rewrite E2 in E.
  - inversion E; subst; auto.
  - subst nm. destruct (update_at_rect m l1 x l2 c s d q (aligned_rect _ HA) ER HF) as (m2 & E3 & HR & HC & HL & HAT & _ & _ & _ & HKEYS).
    { intros d' ->. destruct UA as [_ _ UA _]. destruct a; simpl in UA; inversion UA; subst. exact HN. }
    rewrite E3 in E. inversion E; subst m2 r. destruct HR as (R1 & R2 & R3). destruct HA as (A1 & A2 & A3 & A4).
    assert (HD : dkeys (m_cols m') = dkeys (m_cols m)).
    { apply HKEYS. intros k HI. rewrite A2. apply HK. destruct UA as [_ _ UA _]. destruct a; simpl in UA; inversion UA; subst; auto; destruct HI. }
    split; [auto|]. split; [rewrite HD, HAT; auto|]. split; [rewrite HAT; auto|auto].
  - eapply add_aligned; eauto.
Qed.
Lemma ak_remove t n : akeeps (remove_interaction t n).
Proof.
  intros m m' r E HM. apply remove_cases in E. destruct E as [(e & _ & ->)|(_ & nm & l1 & x & l2 & _ & ER & _ & _ & ->)]; auto.
  apply aligned_rows; auto. rewrite ER, !app_length. reflexivity.
Qed.
Lemma ak_select l : akeeps (select_by_variable l).
Proof.
  apply ak_bind; [|intros; apply ak_ret]. intros m m' r E. unfold dataframe in E. destruct (df_ok m); inversion E; subst; auto.
Qed.
Lemma al_vars vs m : aligned m -> aligned (with_vars vs m).
Proof. intros H. eapply aligned_core; eauto. Qed.
Lemma al_constrs vs m : aligned m -> aligned (with_constrs vs m).
Proof. intros H. eapply aligned_core; eauto. Qed.
Lemma ak_delete t : akeeps (delete_variable t).
Proof.
  apply ak_bind; [apply ak_guard|]. intros _. destruct t; try apply ak_raise.
  apply ak_bind; [apply ak_modify; repeat split|]. intros _. apply ak_bind; [apply ak_get|]. intros m.
  apply ak_bind; [apply ak_mfor; intros k m0 m' r E; apply constr_remove_frame in E; destruct E as [cs ->]; apply al_constrs|].
  intros _. apply ak_bind; [apply ak_select|].
  intros sel. apply ak_mfor. intros; apply ak_remove.
Qed.
Lemma ak_plain ev t n co sc ts : akeeps (add_interaction ev t n co sc AtNone ts).
Proof. apply ak_add. constructor. Qed.
Lemma ak_fix ev t v : akeeps (fix_variable ev t v).
Proof.
  apply ak_bind; [apply ak_guard|]. intros _. destruct t; try apply ak_raise.
  apply ak_bind; [apply ak_get|]. intros m. apply ak_bind; [apply ak_guard|]. intros _.
  apply ak_bind; [apply ak_modify; repeat split|]. intros _. apply ak_bind; [apply ak_select|]. intros sel.
  destruct (Qc_eqb v 0); apply ak_mfor; intros n; [apply ak_remove|].
  apply ak_bind; [apply ak_get|]. intros m1. apply ak_bind; [apply ak_lift|]. intros i.
  destruct (nth_error (m_rows m1) i) as [r|]; [|apply ak_raise]. destruct (r_key r).
  - apply ak_bind; [apply ak_modify; repeat split|]. intros; apply ak_remove.
  - apply ak_bind; [apply ak_lift|]. intros t. apply ak_bind; [apply ak_plain|]. intros; apply ak_remove.
Qed.
Lemma ak_pyqubo ev pq m m' pq' r : from_pyqubo ev m pq = (m', pq', r) -> aligned m -> aligned m'.
Proof.
  assert (HS : forall m t m1 c1 r1, pq_step ev m pq t = (m1, c1, r1) -> aligned m -> aligned m1).
  { intros m0 [[k0 k1] c] m1 c1 r1. unfold pq_step. destruct (pq_lookup m0 pq k0); [|intros E; inversion E; subst; auto].
    destruct (pq_lookup m0 pq k1); [|intros E; inversion E; subst; auto]. destruct (add_interaction _ _ _ _ _ _ _ m0) as [m2 r2] eqn:E2.
    intros E; inversion E; subst. revert E2. apply ak_plain. }
  assert (HL : forall l m m1 l1 r1, pq_loop ev m pq l = (m1, l1, r1) -> aligned m -> aligned m1).
  { induction l as [|[k c] l IH]; intros m0 m1 l1 r1 E HM; cbn [pq_loop] in E; [inversion E; subst; auto|].
    destruct (pq_step ev m0 pq (k, c)) as [[m2 c2] [u|e]] eqn:E2.
    - destruct (pq_loop ev m2 pq l) as [[m3 l3] r3] eqn:E3. inversion E; subst. apply HS in E2; auto. eapply IH; eauto.
    - inversion E; subst. eapply HS; eauto. }
  unfold from_pyqubo. destruct (pq_loop ev m pq (pq_terms pq)) as [[m1 l1] [u|e]] eqn:E1; intros E; inversion E; subst; intros HA.
  - eapply aligned_core with (m := m1); eauto.
  - eauto.
Qed.
Lemma ak_convert_mtype ev : akeeps (convert_mtype ev).
Proof.
  apply ak_bind; [apply ak_get|]. intros m. destruct (m_mtype m); intros m0 m' r E; unfold to_qubo, to_ising in E; eapply convert_aligned; eauto.
Qed.
Lemma ak_merge_same ev k o : aligned o -> akeeps (merge_same ev k o).
Proof.
  intros HO m m' r E HM. destruct r as [u|e]; [eapply merge_same_aligned; eauto|].
  unfold merge_same in E. unfold bind at 1 in E. unfold get at 1 in E. unfold guard in E.
  destruct (dims_ok m o); [|inversion E; subst; auto]. unfold bind at 1 in E. unfold ret in E. unfold bind at 1 in E.
  destruct (mfor (m_vars o) merge_var m) as [m1 [u|e1]] eqn:EV; apply merge_vars_frame in EV; destruct EV as [vs ->]; [|inversion E; subst; apply al_vars; auto].
  unfold bind at 1, get in E. destruct (merge_cols _ o _) as [cols|] eqn:EC; [|inversion E; subst; apply al_vars; auto].
  unfold bind at 1, modify in E. cbv beta iota zeta in E. unfold bind in E.
  destruct (negb _) in E; inversion E; subst.
  pose proof (al_vars vs m HM) as HMv.
  split; [|split; [|split]]; simpl.
  - rewrite rename_length, app_length. destruct HM as (H1 & _), HO as (H2 & _). rewrite H1, H2. reflexivity.
  - apply (merge_cols_keys (with_vars vs m) o); auto.
  - destruct HM as (_ & _ & H1 & _), HO as (_ & _ & H2 & _). apply (merge_attrs_nodup (with_vars vs m) o); auto.
  - apply (merge_cols_len (with_vars vs m) o (merge_attrs_list (with_vars vs m) o)); auto.
Qed.
Lemma al_merge ev evo k m o m' o' r : merge ev evo k m o = (m', o', r) -> aligned m -> aligned o -> aligned m' /\ aligned o'.
Proof.
  unfold merge. intros E HM HO. destruct (mtype_eqb _ _).
  - destruct (merge_same ev k o m) as [m1 r1] eqn:E1. inversion E; subst. split; auto. eapply ak_merge_same; eauto.
  - destruct (convert_mtype evo o) as [o1 [u|e]] eqn:EC; apply ak_convert_mtype in EC; auto.
    + destruct (merge_same ev k o1 m) as [m1 r1] eqn:E1. inversion E; subst. split; auto. eapply ak_merge_same; [|eauto|]; eauto.
    + inversion E; subst. auto.
Qed.
Lemma al_new t : aligned (new_model t).
Proof. repeat split; constructor. Qed.
Lemma al_to_model ev c m r : to_model ev c = (m, r) -> aligned m.
Proof.
  assert (HK : forall f : LM unit, akeeps f -> f (new_model Qubo) = (m, r) -> aligned m) by (intros f HF E; eapply HF; eauto; apply al_new).
  assert (H3 : forall l q vs v, akeeps (cadd_pairs_of ev l q vs v)).
  { intros. apply ak_mfor. intros w. destruct (String.ltb _ _); [apply ak_plain|apply ak_ret]. }
  destruct c; unfold to_model; apply HK.
  - apply ak_mfor. intros. apply ak_bind; [apply ak_plain|]; auto.
  - apply ak_mfor. intros. auto.
  - apply ak_bind; [apply ak_mfor; intros; apply ak_plain|]. intros _. apply ak_bind; [apply ak_mfor; auto|]. intros _.
    apply ak_bind; [apply ak_mfor; auto|]. intros _. apply ak_mfor. intros. apply ak_mfor. intros; apply ak_plain.
Qed.
Lemma ak_merge_constrs ev evs cs : forall k, akeeps (merge_constrs ev evs k cs).
Proof.
  induction cs as [|c cs IH]; intros k m m' r E HM; simpl in E; [inversion E; subst; auto|].
  destruct (to_model (evs k) c) as [cm [u|e]] eqn:EC; [|inversion E; subst; auto]. apply al_to_model in EC.
  destruct (merge ev (evs k) k m cm) as [[m1 o1] [u1|e]] eqn:EM; apply al_merge in EM; auto; destruct EM.
  - eapply IH; eauto.
  - inversion E; subst. auto.
Qed.
Lemma ak_purge n : akeeps (purge_one n).
Proof.
  intros m m' r E HA. destruct (name_index m n) as [i|e] eqn:EI.
  - destruct (name_index_split _ _ _ EI) as (l1 & x & l2 & ER & EN & HF & _).
    destruct (purge_one_ok n l1 x l2 m HA ER EN HF) as (m2 & E2 & _ & AL & _). rewrite E2 in E. inversion E; subst; auto.
  - unfold purge_one, bind, get, lift in E. rewrite EI in E. inversion E; subst; auto.
Qed.
Lemma al_physical ev evs fd m m' r : to_physical ev evs fd m = (m', r) -> aligned m -> aligned m'.
Proof.
  rewrite to_physical_after. intros E HA. destruct (merge_constrs _ _ _ _ _) as [m1 [u|e]] eqn:EM; apply ak_merge_constrs in EM; auto; [|inversion E; subst; auto].
  unfold after_merge in E. destruct (visited m1) as [rows|e]; [|inversion E; subst; auto].
  destruct (agg_rows _ _ _) as [g|e]; [|inversion E; subst; auto]. destruct (ceval _ _); [|inversion E; subst; auto].
  destruct (mfor (g_remove g) purge_one _) as [m3 [u3|e]] eqn:EP;
    (assert (A3 : aligned m3) by (apply (ak_mfor _ _ ak_purge _ _ _ EP); destruct HA as (A & B & C & D); repeat split; auto)); inversion E; subst; auto.
  apply aligned_rows; auto. unfold clear_dirty. rewrite app_length, map_length, firstn_length, skipn_length. lia.
Qed.
Lemma al_do ev evs o m : orderly o m -> aligned m -> aligned (fst (do_op ev evs o m)).
Proof.
  intros HO HA.
  assert (HK : forall f : LM unit, akeeps f -> aligned (fst (f m))).
  { intros f HF. destruct (f m) as [m' r] eqn:E. simpl. eapply HF; eauto. }
  destruct o; cbn [do_op]; simpl in HO.
  - apply HK. intros m0 m' r E. apply variables_frame in E. destruct E as [vs ->]. apply al_vars.
  - apply HK. intros m0 m' r E. apply append_frame in E. destruct E as [vs ->]. apply al_vars.
  - apply HK, ak_add; auto.
  - destruct HO. destruct (update_interaction ev t n co sc a ts m) as [m' r] eqn:E. eapply ak_update; eauto.
  - apply HK, ak_remove.
  - apply HK, ak_delete.
  - apply HK, ak_fix.
  - apply HK. destruct c; [apply ak_modify; repeat split|apply ak_raise].
  - apply HK. intros m0 m' r E. unfold remove_constraint in E. destruct l; [|inversion E; subst; auto]. destruct (dmem s (m_constrs m0)); inversion E; subst; auto.
  - eapply aligned_core; eauto.
  - destruct (from_pyqubo ev m pq) as [[m' pq'] r] eqn:E. simpl. eapply ak_pyqubo; eauto.
  - destruct (to_ising ev m) as [m' r] eqn:E. unfold to_ising in E. eapply convert_aligned; eauto.
  - destruct (to_qubo ev m) as [m' r] eqn:E. unfold to_qubo in E. eapply convert_aligned; eauto.
  - destruct (to_physical ev evs fd m) as [m' [p|e]] eqn:E; simpl; eapply al_physical; eauto.
Qed.
(** Every attribute column is registered and has one entry per interaction
    after every history (merges and raising calls included) in which
    update_interaction only sets known attributes. *)
Theorem C63_aligned_partial : forall m, tidy m -> aligned m.
Proof.
  intros m H. induction H.
  - apply al_new.
  - apply al_do; auto.
  - destruct (merge ev evo k m o) as [[m' o'] r] eqn:E. apply al_merge in E; auto. simpl. tauto.
  - destruct (merge ev evo k m o) as [[m' o'] r] eqn:E. apply al_merge in E; auto. simpl. tauto.
Qed.
(** The restriction is needed: a new attribute passed to update_interaction,
    then another add, and the columns have different lengths. *)
Theorem C63_refuted : exists m kc, history m /\ In kc (m_cols m) /\ length (snd kc) <> length (m_rows m).
Proof.
  pose (m := run_ops [OVariables (VName "x") (ShTuple [ShInt 2]);
    OAdd (TVar (spn "x" 0)) (NStr "") (num 1) (num 1) AtNone TsNone;
    OUpdate (TVar (spn "x" 0)) (NStr "") None None (AtDict [("w"%string, ANum (qz 9))]) TsNone;
    OAdd (TVar (spn "x" 1)) (NStr "") (num 1) (num 1) AtNone TsNone] (new_model Ising)).
  exists m, ("attributes.w"%string, [ANum (qz 9)]). split; [apply run_history; constructor|]. split; [|vm_compute; discriminate].
  left. unfold m. vm_compute. reflexivity.
Qed.
(** Histories that meet the two conditions: interactions with attributes, an
    update of a known attribute, a constraint, to_physical. *)
Definition good_ops : list op :=
  [OVariables (VName "q") (ShTuple [ShInt 3]);
   OAdd (TVar (bin "q" 0)) (NStr "") (AC (CPh "lambda")) (num 1) (AtDict [("w"%string, ANum (qz 9))]) TsNone;
   OAdd (TTuple [EVar (bin "q" 1); EVar (bin "q" 0)]) (NStr "") (num 2) (num 1) AtNone TsNone;
   OUpdate TNone (NStr "q[0]") None (Some (num 2)) (AtDict [("w"%string, ANum (qz 8))]) TsNone;
   OAddConstraint (Some (ZeroOrOne [bin "q" 1; bin "q" 2] "one" (qz 10)));
   OPhysical feed0; OQubo; ODelete (TVar (bin "q" 1)); OIsing].
Fixpoint calmb (os : list op) (m : lmodel) : bool :=
  match os with
  | [] => true
  | o :: r => match o with OPhysical _ => okb (do_op env0 evs0 o m) | _ => true end && calmb r (fst (do_op env0 evs0 o m))
  end.
Definition orderlyb (o : op) (m : lmodel) : bool :=
  match o with
  | OAdd _ _ _ _ a _ => nodupb (dkeys (attrs_of a))
  | OUpdate _ _ _ _ a _ => nodupb (dkeys (attrs_of a)) && forallb (fun k => mem (attr_key k) (m_attrs m)) (dkeys (attrs_of a))
  | _ => true
  end.
Fixpoint tidyb (os : list op) (m : lmodel) : bool :=
  match os with [] => true | o :: r => orderlyb o m && tidyb r (fst (do_op env0 evs0 o m)) end.
Lemma calmb_ok os : forall m, calm m -> calmb os m = true -> calm (run_ops os m).
Proof.
  induction os as [|o os IH]; intros m HC E; simpl; auto. cbn [calmb] in E. apply andb_true_iff in E. destruct E as [E1 E2]. apply IH; auto.
  constructor; auto. intros fd ->. right. apply okb_ok in E1. rewrite E1. reflexivity.
Qed.
Lemma tidyb_ok os : forall m, tidy m -> tidyb os m = true -> tidy (run_ops os m).
Proof.
  induction os as [|o os IH]; intros m HC E; simpl; auto. cbn [tidyb] in E. apply andb_true_iff in E. destruct E as [E1 E2]. apply IH; auto.
  constructor; auto. destruct o; simpl in *; auto; [apply nodupb_ok; auto|]. apply andb_true_iff in E1. destruct E1 as [E1 E3].
  split; [apply nodupb_ok; auto|]. rewrite forallb_forall in E3. intros k HI. apply mem_in; auto.
Qed.
Example C01_C63_hyps : calm (run_ops good_ops (new_model Qubo)) /\ tidy (run_ops good_ops (new_model Qubo)) /\
  length (m_rows (run_ops good_ops (new_model Qubo))) = 2.
Proof.
  split; [apply calmb_ok; [constructor|vm_compute; reflexivity]|]. split; [apply tidyb_ok; [constructor|vm_compute; reflexivity]|].
  vm_compute. reflexivity.
Qed.

Print Assumptions C01_names_partial.
Print Assumptions C01_keys.
Print Assumptions C01_refuted.
Print Assumptions C63_aligned_partial.
Print Assumptions C63_refuted.
