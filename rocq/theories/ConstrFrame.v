(** * ConstrFrame: which calls leave the dictionary of constraints alone. *)
From Verif Require Import PyBase PyLemmas Constraint LogicalModel Spec LogicalProofs EnergyProofs ConvertProofs ConstraintProofs MergeProofs PhysicalProofs
  ToPhysicalProofs History PropsConvert PropsMerge EqualitySpec ProperProofs.
Open Scope list_scope.

Section Frame.
  Variable D : dict string constr.
  Definition has_d (m : lmodel) : Prop := m_constrs m = D.
  Definition frame_c {A} (f : LM A) : Prop := forall m m' r, f m = (m', r) -> has_d m -> has_d m'.
  Lemma fc_ret {A} (a : A) : frame_c (ret a). Proof. intros m m' r E. inversion E; subst; auto. Qed.
  Lemma fc_raise {A} e : frame_c (raise e : LM A). Proof. intros m m' r E. inversion E; subst; auto. Qed.
  Lemma fc_lift {A} (x : res A) : frame_c (lift x). Proof. intros m m' r E. inversion E; subst; auto. Qed.
  Lemma fc_get : frame_c get. Proof. intros m m' r E. inversion E; subst; auto. Qed.
  Lemma fc_guard b e : frame_c (guard b e).
  Proof. destruct b; [apply fc_ret|apply fc_raise]. Qed.
  Lemma fc_bind {A B} (f : LM A) (g : A -> LM B) : frame_c f -> (forall a, frame_c (g a)) -> frame_c (bind f g).
  Proof.
    intros HF HG m m' r E HM. unfold bind in E. destruct (f m) as [m1 [a|e]] eqn:E1.
    - eapply HG; eauto.
    - inversion E; subst. eapply HF; eauto.
  Qed.
  Lemma fc_mfor {A} (l : list A) f : (forall a, frame_c (f a)) -> frame_c (mfor l f).
  Proof. intros H. induction l as [|a l IH]; simpl; [apply fc_ret|]. apply fc_bind; auto. Qed.
  Lemma fc_modify f : (forall m, has_d m -> has_d (f m)) -> frame_c (modify f).
  Proof. intros H m m' r E HM. inversion E; subst. auto. Qed.
  Lemma fc_expand : frame_c expand_attrs.
  Proof.
    intros m m' r. unfold expand_attrs. apply (fc_mfor (m_attrs m)). intros a m0 m1 r0 E H.
    destruct (dget a (m_cols m0)) as [c|]; inversion E; subst; auto.
  Qed.
  Lemma fc_new_attr kv : frame_c (set_new_attr kv).
  Proof.
    intros m m' r E H. unfold set_new_attr in E. cbv zeta in E. set (k := attr_key (fst kv)) in *.
    set (m1 := if dmem k (m_cols m) then m else _) in E.
    assert (H1 : has_d m1) by (unfold m1; destruct (dmem k (m_cols m)); auto).
    destruct (dget k (m_cols m1)) as [c|]; [|inversion E; subst; auto]. destruct (set_last (snd kv) c); inversion E; subst; auto.
  Qed.
  Lemma fc_add ev t n co sc a ts : frame_c (add_interaction ev t n co sc a ts).
  Proof.
    unfold add_interaction. apply fc_bind; [apply fc_guard|]. intros _. cbv zeta.
    do 6 (apply fc_bind; [apply fc_lift|]; intros ?). apply fc_bind; [apply fc_get|]. intros m0.
    apply fc_bind; [apply fc_guard|]. intros _. apply fc_bind; [apply fc_modify; auto|]. intros _.
    apply fc_bind; [apply fc_expand|]. intros _. apply fc_bind; [apply fc_mfor; apply fc_new_attr|]. intros _. apply fc_modify; auto.
  Qed.
  Lemma fc_upd_row i f : frame_c (upd_row i f). Proof. apply fc_modify. auto. Qed.
  Lemma fc_opt {A} (o : option A) f : (forall a, frame_c (f a)) -> frame_c (opt_do o f).
  Proof. intros H. destruct o; [apply H|apply fc_ret]. Qed.
  Lemma fc_update_attr i kv : frame_c (update_attr i kv).
  Proof.
    intros m m' r E H. unfold update_attr in E. cbv zeta in E. set (k := attr_key (fst kv)) in *.
    set (m1 := if dmem k (m_cols m) then m else _) in E.
    assert (H1 : has_d m1) by (unfold m1; destruct (dmem k (m_cols m)); auto).
    destruct (dget k (m_cols m1)) as [c|]; [|inversion E; subst; auto]. destruct (set_nth i (snd kv) c); inversion E; subst; auto.
  Qed.
  Lemma fc_update_at nm c s a q : frame_c (update_at nm c s a q).
  Proof.
    unfold update_at. apply fc_bind; [apply fc_get|]. intros m. apply fc_bind; [apply fc_lift|]. intros i.
    apply fc_bind; [apply fc_opt; intros; apply fc_upd_row|]. intros _. apply fc_bind; [apply fc_opt; intros; apply fc_upd_row|]. intros _.
    apply fc_bind; [apply fc_opt; intros; apply fc_mfor, fc_update_attr|]. intros _. apply fc_bind; [apply fc_upd_row|]. intros _. apply fc_upd_row.
  Qed.
  Lemma fc_update ev t n co sc a ts : frame_c (update_interaction ev t n co sc a ts).
  Proof.
    unfold update_interaction. do 2 (apply fc_bind; [apply fc_guard|]; intros _). do 5 (apply fc_bind; [apply fc_lift|]; intros ?).
    apply fc_bind; [apply fc_get|]. intros m0. destruct (n_truthy n).
    - destruct n; try apply fc_raise. apply fc_bind; [apply fc_guard|]. intros _. apply fc_bind; [apply fc_lift|]. intros ?.
      apply fc_bind; [apply fc_guard|]. intros _. apply fc_update_at.
    - destruct a4 as [inf|]; [|apply fc_raise]. destruct (has_name m0 (in_name inf)); [|apply fc_add].
      apply fc_bind; [apply fc_lift|]. intros ?. apply fc_bind; [apply fc_guard|]. intros _. apply fc_update_at.
  Qed.
  Lemma fc_internal t n : frame_c (internal_name t n).
  Proof.
    unfold internal_name. do 2 (apply fc_bind; [apply fc_guard|]; intros _). apply fc_bind; [apply fc_lift|]. intros inf.
    apply fc_bind; [apply fc_get|]. intros m0. destruct (n_truthy n).
    - destruct n; try apply fc_raise. apply fc_bind; [apply fc_guard|]. intros _. apply fc_ret.
    - destruct inf; [|apply fc_raise]. apply fc_bind; [apply fc_guard|]. intros _. apply fc_ret.
  Qed.
  Lemma fc_remove t n : frame_c (remove_interaction t n).
  Proof.
    unfold remove_interaction. apply fc_bind; [apply fc_internal|]. intros nm. apply fc_bind; [apply fc_get|]. intros m0.
    apply fc_bind; [apply fc_lift|]. intros i. apply fc_bind; [apply fc_upd_row|]. intros _. apply fc_upd_row.
  Qed.
  Lemma fc_dataframe : frame_c dataframe.
  Proof. intros m m' r E. unfold dataframe in E. destruct (df_ok m); inversion E; subst; auto. Qed.
  Lemma fc_select l : frame_c (select_by_variable l).
  Proof. apply fc_bind; [apply fc_dataframe|]. intros; apply fc_ret. Qed.
  Lemma fc_fix ev t v : frame_c (fix_variable ev t v).
  Proof.
    apply fc_bind; [apply fc_guard|]. intros _. destruct t; try apply fc_raise.
    apply fc_bind; [apply fc_get|]. intros m. apply fc_bind; [apply fc_guard|]. intros _.
    apply fc_bind; [apply fc_modify; auto|]. intros _. apply fc_bind; [apply fc_select|]. intros sel.
    destruct (Qc_eqb v 0); apply fc_mfor; intros n; [apply fc_remove|].
    apply fc_bind; [apply fc_get|]. intros m1. apply fc_bind; [apply fc_lift|]. intros i.
    destruct (nth_error (m_rows m1) i) as [r|]; [|apply fc_raise]. destruct (r_key r).
    - apply fc_bind; [apply fc_modify; auto|]. intros; apply fc_remove.
    - apply fc_bind; [apply fc_lift|]. intros t. apply fc_bind; [apply fc_add|]. intros; apply fc_remove.
  Qed.
  Lemma fc_variables n sh : frame_c (variables n sh).
  Proof.
    intros m m' r E H. unfold variables in E. destruct n as [nm|a|].
    - destruct (check_shape false sh); [|inversion E; subst; auto]. destruct (array_create _ _ _); inversion E; subst; auto.
    - destruct (a_bits a) as [|v]; [inversion E; subst; auto|]. destruct (negb _); [inversion E; subst; auto|].
      destruct (before_char _ _); inversion E; subst; auto.
    - inversion E; subst; auto.
  Qed.
  Lemma fc_append n sh : frame_c (append n sh).
  Proof.
    intros m m' r E H. unfold append in E. destruct n as [nm|a|]; try (inversion E; subst; auto; fail).
    destruct (check_shape true sh); [|inversion E; subst; auto]. destruct (dget nm (m_vars m)); [|eapply fc_variables; eauto].
    destruct (array_create _ _ _); inversion E; subst; auto.
  Qed.
  Lemma fc_retype : frame_c update_variables_type.
  Proof.
    intros m m' r E H. unfold update_variables_type in E. destruct (recreate _ [] (m_vars m)) as [vs [u|e]].
    - cbv zeta in E. destruct (df_ok _); inversion E; subst; auto.
    - inversion E; subst; auto.
  Qed.
  Lemma fc_convert ev t ha hb ja jb jc : frame_c (convert ev t ha hb ja jb jc).
  Proof.
    unfold convert. apply fc_bind; [apply fc_get|]. intros m. destruct (mtype_eqb _ _); [apply fc_ret|].
    apply fc_bind; [apply fc_modify; auto|]. intros _. apply fc_bind; [apply fc_retype|]. intros _. apply fc_bind; [apply fc_dataframe|]. intros h.
    apply fc_bind. { apply fc_mfor. intros r. unfold conv_h. apply fc_bind; [apply fc_update|]. intros _. apply fc_modify; auto. }
    intros _. apply fc_bind; [apply fc_dataframe|]. intros j. generalize 0. induction (filter body2_active j) as [|r l IH]; intros k; cbn [conv_Js]; [apply fc_ret|].
    apply fc_bind; [|intros _; apply IH]. unfold conv_J. apply fc_bind; [apply fc_update|]. intros _.
    destruct (r_inter r), (r_key r); try apply fc_raise. do 2 (apply fc_bind; [apply fc_add|]; intros _). apply fc_modify; auto.
  Qed.
  Lemma fc_convert_mtype ev : frame_c (convert_mtype ev).
  Proof. unfold convert_mtype. apply fc_bind; [apply fc_get|]. intros m. destruct (m_mtype m); unfold to_ising, to_qubo; apply fc_convert. Qed.
  Lemma fc_merge_var kv : frame_c (merge_var kv).
  Proof.
    intros m m' r E H. unfold merge_var in E. destruct (dget _ _); [eapply fc_append; eauto|]. inversion E; subst; auto.
  Qed.
  Lemma fc_merge_same ev k o : m_constrs o = [] -> frame_c (merge_same ev k o).
  Proof.
    intros HO. unfold merge_same. apply fc_bind; [apply fc_get|]. intros m0. apply fc_bind; [apply fc_guard|]. intros _.
    apply fc_bind; [apply fc_mfor; apply fc_merge_var|]. intros _. apply fc_bind; [apply fc_get|]. intros m.
    destruct (merge_cols m o (merge_attrs_list m o)) as [cols|]; [|apply fc_raise].
    apply fc_bind; [apply fc_modify; auto|]. intros _. apply fc_bind; [apply fc_guard|]. intros _. apply fc_modify. intros m1 H1.
    unfold has_d. change (dupdate (m_constrs m1) (m_constrs o) = D). rewrite HO. exact H1.
  Qed.
  (** A failed merge leaves the constraints of self alone; a successful one adds those of other. *)
  Lemma fc_merge_same_full ev k o m m' r : merge_same ev k o m = (m', r) -> has_d m ->
    m_constrs m' = match r with Ok _ => dupdate D (m_constrs o) | Err _ => D end.
  Proof.
    intros E HD. unfold merge_same in E. unfold bind at 1, get at 1 in E.
    destruct (dims_ok m o); [|cbn in E; inversion E; subst; exact HD]. cbn [guard] in E. unfold bind at 1, ret at 1 in E.
    unfold bind at 1 in E. destruct (mfor (m_vars o) merge_var m) as [m1 [u|e]] eqn:E1;
      assert (H1 := fc_mfor _ _ fc_merge_var _ _ _ E1 HD); [|inversion E; subst; exact H1].
    unfold bind at 1, get at 1 in E. destruct (merge_cols m1 o (merge_attrs_list m1 o)) as [cols|]; [|inversion E; subst; exact H1].
    unfold bind at 1, modify at 1 in E. unfold bind at 1 in E.
    destruct (negb _); cbn [guard] in E; [|inversion E; subst; exact H1]. unfold ret at 1 in E. unfold modify in E. inversion E; subst m' r.
    change (dupdate (m_constrs m1) (m_constrs o) = dupdate D (m_constrs o)). rewrite H1. reflexivity.
  Qed.
  Lemma fc_purge n : frame_c (purge_one n).
  Proof.
    intros m m' r E H. unfold purge_one, bind, get, lift in E. destruct (name_index m n) as [i|e]; [|inversion E; subst; auto].
    destruct (pop_nth i (m_rows m)) as [rows|]; [|inversion E; subst; auto].
    destruct (pop_cols i [] (m_cols m)) as [cols [u|e]]; inversion E; subst; auto.
  Qed.
  Lemma fc_pyqubo ev pq m m' pq' r : from_pyqubo ev m pq = (m', pq', r) -> has_d m -> has_d m'.
  Proof.
    assert (HS : forall m t m1 c1 r1, pq_step ev m pq t = (m1, c1, r1) -> has_d m -> has_d m1).
    { intros m0 [[k0 k1] c] m1 c1 r1. unfold pq_step. destruct (pq_lookup m0 pq k0); [|intros E; inversion E; subst; auto].
      destruct (pq_lookup m0 pq k1); [|intros E; inversion E; subst; auto]. destruct (add_interaction _ _ _ _ _ _ _ m0) as [m2 r2] eqn:E2.
      intros E; inversion E; subst. revert E2. apply fc_add. }
    assert (HL : forall l m m1 l1 r1, pq_loop ev m pq l = (m1, l1, r1) -> has_d m -> has_d m1).
    { induction l as [|[k c] l IH]; intros m0 m1 l1 r1 E HM; cbn [pq_loop] in E; [inversion E; subst; auto|].
      destruct (pq_step ev m0 pq (k, c)) as [[m2 c2] [u|e]] eqn:E2.
      - destruct (pq_loop ev m2 pq l) as [[m3 l3] r3] eqn:E3. inversion E; subst. apply HS in E2; auto. eapply IH; eauto.
      - inversion E; subst. eapply HS; eauto. }
    unfold from_pyqubo. destruct (pq_loop ev m pq (pq_terms pq)) as [[m1 l1] [u|e]] eqn:E1; intros E; inversion E; subst; intros HA.
    - exact (HL _ _ _ _ _ E1 HA).
    - eauto.
  Qed.
End Frame.

Lemma fc_to_model ev c m r : to_model ev c = (m, r) -> m_constrs m = [].
Proof.
  assert (HK : forall f : LM unit, frame_c [] f -> f (new_model Qubo) = (m, r) -> m_constrs m = []) by (intros f HF E; eapply HF; eauto; reflexivity).
  assert (H3 : forall l q vs v, frame_c [] (cadd_pairs_of ev l q vs v)).
  { intros. apply fc_mfor. intros w. destruct (String.ltb _ _); [apply fc_add|apply fc_ret]. }
  destruct c; unfold to_model; apply HK.
  - apply fc_mfor. intros. apply fc_bind; [apply fc_add|]; auto.
  - apply fc_mfor. intros. auto.
  - apply fc_bind; [apply fc_mfor; intros; apply fc_add|]. intros _. apply fc_bind; [apply fc_mfor; auto|]. intros _.
    apply fc_bind; [apply fc_mfor; auto|]. intros _. apply fc_mfor. intros. apply fc_mfor. intros; apply fc_add.
Qed.
(** The constraints after merge: other keeps its own; self gets them too when merge returns. *)
Lemma fc_merge ev evo k m o m' o' r : merge ev evo k m o = (m', o', r) ->
  m_constrs o' = m_constrs o /\ m_constrs m' = match r with Ok _ => dupdate (m_constrs m) (m_constrs o) | Err _ => m_constrs m end.
Proof.
  unfold merge. intros E. destruct (mtype_eqb _ _).
  - destruct (merge_same ev k o m) as [m1 r1] eqn:E1. inversion E; subst. split; auto. exact (fc_merge_same_full _ _ _ _ _ _ _ E1 eq_refl).
  - destruct (convert_mtype evo o) as [o1 [u|e]] eqn:EC; assert (ER := fc_convert_mtype _ _ _ _ _ EC eq_refl); unfold has_d in ER.
    + destruct (merge_same ev k o1 m) as [m1 r1] eqn:E1. inversion E; subst. split; auto. rewrite <- ER.
      exact (fc_merge_same_full _ _ _ _ _ _ _ E1 eq_refl).
    + inversion E; subst. auto.
Qed.
Lemma fc_merge_constrs D ev evs cs : forall k, frame_c D (merge_constrs ev evs k cs).
Proof.
  induction cs as [|c cs IH]; intros k m m' r E HM; simpl in E; [inversion E; subst; auto|].
  destruct (to_model (evs k) c) as [cm [u|e]] eqn:EC; [|inversion E; subst; auto]. apply fc_to_model in EC.
  destruct (merge ev (evs k) k m cm) as [[m1 o1] [u1|e]] eqn:EM; apply fc_merge in EM; destruct EM as [_ EM].
  - rewrite EC in EM. eapply IH; eauto. unfold has_d. rewrite EM. exact HM.
  - inversion E; subst. unfold has_d. rewrite EM. exact HM.
Qed.
Lemma fc_physical D ev evs fd m m' r : to_physical ev evs fd m = (m', r) -> has_d D m -> has_d D m'.
Proof.
  rewrite to_physical_after. intros E HA. destruct (merge_constrs _ _ _ _ _) as [m1 [u|e]] eqn:EM; apply (fc_merge_constrs D) in EM; auto; [|inversion E; subst; auto].
  unfold after_merge in E. destruct (visited m1) as [rows|e]; [|inversion E; subst; auto].
  destruct (agg_rows _ _ _) as [g|e]; [|inversion E; subst; auto]. destruct (ceval _ _); [|inversion E; subst; auto].
  destruct (mfor (g_remove g) purge_one _) as [m3 [u3|e]] eqn:EP; assert (A3 : has_d D m3); try (inversion E; subst; exact A3).
  all: apply (fc_mfor D _ _ (fc_purge D) _ _ _ EP); exact (EM HA).
Qed.

(** Calls that do not name constraints. *)
Definition plain (o : op) : bool := match o with ODelete _ | OAddConstraint _ | ORemoveConstraint _ => false | _ => true end.
Lemma fc_do ev evs o m : plain o = true -> m_constrs (fst (do_op ev evs o m)) = m_constrs m.
Proof.
  intros HP.
  assert (HK : forall f : LM unit, frame_c (m_constrs m) f -> m_constrs (fst (f m)) = m_constrs m).
  { intros f HF. destruct (f m) as [m' r] eqn:E. simpl. eapply HF; eauto. reflexivity. }
  destruct o; try discriminate; cbn [do_op].
  - apply HK, fc_variables.
  - apply HK, fc_append.
  - apply HK, fc_add.
  - apply HK, fc_update.
  - apply HK, fc_remove.
  - apply HK, fc_fix.
  - reflexivity.
  - destruct (from_pyqubo ev m pq) as [[m' pq'] r] eqn:E. simpl. exact (fc_pyqubo _ _ _ _ _ _ _ E eq_refl).
  - apply HK. unfold to_ising. apply fc_convert.
  - apply HK. unfold to_qubo. apply fc_convert.
  - destruct (to_physical ev evs fd m) as [m' [p|e]] eqn:E; simpl; exact (fc_physical _ _ _ _ _ _ _ E eq_refl).
Qed.
