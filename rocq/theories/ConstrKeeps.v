(** * ConstrKeeps: what holds of every constraint object given to a model holds of every constraint in it. *)
From Verif Require Import PyBase PyLemmas Constraint LogicalModel Spec LogicalProofs EnergyProofs ConvertProofs ConstraintProofs MergeProofs PhysicalProofs
  ToPhysicalProofs History PropsConvert PropsMerge EqualitySpec ProperProofs.
Open Scope list_scope.

Section Keeps.
  Variable P : constr -> Prop.
  Hypothesis closed : forall a c c' r, c_remove_variable a c = (c', r) -> P c -> P c'.
  Definition allc (m : lmodel) : Prop := forall l c, dget l (m_constrs m) = Some c -> P c.
  Definition keeps_c {A} (f : LM A) : Prop := forall m m' r, f m = (m', r) -> allc m -> allc m'.
  Lemma kc_ret {A} (a : A) : keeps_c (ret a). Proof. intros m m' r E. inversion E; subst; auto. Qed.
  Lemma kc_raise {A} e : keeps_c (raise e : LM A). Proof. intros m m' r E. inversion E; subst; auto. Qed.
  Lemma kc_lift {A} (x : res A) : keeps_c (lift x). Proof. intros m m' r E. inversion E; subst; auto. Qed.
  Lemma kc_get : keeps_c get. Proof. intros m m' r E. inversion E; subst; auto. Qed.
  Lemma kc_guard b e : keeps_c (guard b e).
  Proof. destruct b; [apply kc_ret|apply kc_raise]. Qed.
  Lemma kc_bind {A B} (f : LM A) (g : A -> LM B) : keeps_c f -> (forall a, keeps_c (g a)) -> keeps_c (bind f g).
  Proof.
    intros HF HG m m' r E HM. unfold bind in E. destruct (f m) as [m1 [a|e]] eqn:E1.
    - eapply HG; eauto.
    - inversion E; subst. eapply HF; eauto.
  Qed.
  Lemma kc_mfor {A} (l : list A) f : (forall a, keeps_c (f a)) -> keeps_c (mfor l f).
  Proof. intros H. induction l as [|a l IH]; simpl; [apply kc_ret|]. apply kc_bind; auto. Qed.
  Lemma kc_modify f : (forall m, allc m -> allc (f m)) -> keeps_c (modify f).
  Proof. intros H m m' r E HM. inversion E; subst. auto. Qed.
  Lemma kc_expand : keeps_c expand_attrs.
  Proof.
    intros m m' r. unfold expand_attrs. apply (kc_mfor (m_attrs m)). intros a m0 m1 r0 E H.
    destruct (dget a (m_cols m0)) as [c|]; inversion E; subst; auto.
  Qed.
  Lemma kc_new_attr kv : keeps_c (set_new_attr kv).
  Proof.
    intros m m' r E H. unfold set_new_attr in E. cbv zeta in E. set (k := attr_key (fst kv)) in *.
    set (m1 := if dmem k (m_cols m) then m else _) in E.
    assert (H1 : allc m1) by (unfold m1; destruct (dmem k (m_cols m)); auto).
    destruct (dget k (m_cols m1)) as [c|]; [|inversion E; subst; auto]. destruct (set_last (snd kv) c); inversion E; subst; auto.
  Qed.
  Lemma kc_add ev t n co sc a ts : keeps_c (add_interaction ev t n co sc a ts).
  Proof.
    unfold add_interaction. apply kc_bind; [apply kc_guard|]. intros _. cbv zeta.
    do 6 (apply kc_bind; [apply kc_lift|]; intros ?). apply kc_bind; [apply kc_get|]. intros m0.
    apply kc_bind; [apply kc_guard|]. intros _. apply kc_bind; [apply kc_modify; auto|]. intros _.
    apply kc_bind; [apply kc_expand|]. intros _. apply kc_bind; [apply kc_mfor; apply kc_new_attr|]. intros _. apply kc_modify; auto.
  Qed.
  Lemma kc_upd_row i f : keeps_c (upd_row i f). Proof. apply kc_modify. auto. Qed.
  Lemma kc_opt {A} (o : option A) f : (forall a, keeps_c (f a)) -> keeps_c (opt_do o f).
  Proof. intros H. destruct o; [apply H|apply kc_ret]. Qed.
  Lemma kc_update_attr i kv : keeps_c (update_attr i kv).
  Proof.
    intros m m' r E H. unfold update_attr in E. cbv zeta in E. set (k := attr_key (fst kv)) in *.
    set (m1 := if dmem k (m_cols m) then m else _) in E.
    assert (H1 : allc m1) by (unfold m1; destruct (dmem k (m_cols m)); auto).
    destruct (dget k (m_cols m1)) as [c|]; [|inversion E; subst; auto]. destruct (set_nth i (snd kv) c); inversion E; subst; auto.
  Qed.
  Lemma kc_update_at nm c s a q : keeps_c (update_at nm c s a q).
  Proof.
    unfold update_at. apply kc_bind; [apply kc_get|]. intros m. apply kc_bind; [apply kc_lift|]. intros i.
    apply kc_bind; [apply kc_opt; intros; apply kc_upd_row|]. intros _. apply kc_bind; [apply kc_opt; intros; apply kc_upd_row|]. intros _.
    apply kc_bind; [apply kc_opt; intros; apply kc_mfor, kc_update_attr|]. intros _. apply kc_bind; [apply kc_upd_row|]. intros _. apply kc_upd_row.
  Qed.
  Lemma kc_update ev t n co sc a ts : keeps_c (update_interaction ev t n co sc a ts).
  Proof.
    unfold update_interaction. do 2 (apply kc_bind; [apply kc_guard|]; intros _). do 5 (apply kc_bind; [apply kc_lift|]; intros ?).
    apply kc_bind; [apply kc_get|]. intros m0. destruct (n_truthy n).
    - destruct n; try apply kc_raise. apply kc_bind; [apply kc_guard|]. intros _. apply kc_bind; [apply kc_lift|]. intros ?.
      apply kc_bind; [apply kc_guard|]. intros _. apply kc_update_at.
    - destruct a4 as [inf|]; [|apply kc_raise]. destruct (has_name m0 (in_name inf)); [|apply kc_add].
      apply kc_bind; [apply kc_lift|]. intros ?. apply kc_bind; [apply kc_guard|]. intros _. apply kc_update_at.
  Qed.
  Lemma kc_internal t n : keeps_c (internal_name t n).
  Proof.
    unfold internal_name. do 2 (apply kc_bind; [apply kc_guard|]; intros _). apply kc_bind; [apply kc_lift|]. intros inf.
    apply kc_bind; [apply kc_get|]. intros m0. destruct (n_truthy n).
    - destruct n; try apply kc_raise. apply kc_bind; [apply kc_guard|]. intros _. apply kc_ret.
    - destruct inf; [|apply kc_raise]. apply kc_bind; [apply kc_guard|]. intros _. apply kc_ret.
  Qed.
  Lemma kc_remove t n : keeps_c (remove_interaction t n).
  Proof.
    unfold remove_interaction. apply kc_bind; [apply kc_internal|]. intros nm. apply kc_bind; [apply kc_get|]. intros m0.
    apply kc_bind; [apply kc_lift|]. intros i. apply kc_bind; [apply kc_upd_row|]. intros _. apply kc_upd_row.
  Qed.
  Lemma kc_dataframe : keeps_c dataframe.
  Proof. intros m m' r E. unfold dataframe in E. destruct (df_ok m); inversion E; subst; auto. Qed.
  Lemma kc_select l : keeps_c (select_by_variable l).
  Proof. apply kc_bind; [apply kc_dataframe|]. intros; apply kc_ret. Qed.
  Lemma allc_set k c m : P c -> allc m -> allc (with_constrs (dset k c (m_constrs m)) m).
  Proof.
    intros HP H l x E. cbn [m_constrs with_constrs] in E. destruct (string_dec l k) as [->|NE].
    - rewrite dget_dset_same in E. inversion E; subst; auto.
    - rewrite dget_dset_other in E by auto. eauto.
  Qed.
  Lemma kc_constr_remove k v : keeps_c (constr_remove k v).
  Proof.
    intros m m' r E H. unfold constr_remove in E. destruct (dget k (m_constrs m)) as [c|] eqn:EC; [|inversion E; subst; auto].
    destruct (c_remove_variable (VA_one v) c) eqn:ER. inversion E; subst. apply allc_set; auto. eapply closed; eauto.
  Qed.
  Lemma kc_delete t : keeps_c (delete_variable t).
  Proof.
    apply kc_bind; [apply kc_guard|]. intros _. destruct t; try apply kc_raise.
    apply kc_bind; [apply kc_modify; auto|]. intros _. apply kc_bind; [apply kc_get|]. intros m.
    apply kc_bind; [apply kc_mfor; intros; apply kc_constr_remove|]. intros _. apply kc_bind; [apply kc_select|].
    intros sel. apply kc_mfor. intros; apply kc_remove.
  Qed.
  Lemma kc_fix ev t v : keeps_c (fix_variable ev t v).
  Proof.
    apply kc_bind; [apply kc_guard|]. intros _. destruct t; try apply kc_raise.
    apply kc_bind; [apply kc_get|]. intros m. apply kc_bind; [apply kc_guard|]. intros _.
    apply kc_bind; [apply kc_modify; auto|]. intros _. apply kc_bind; [apply kc_select|]. intros sel.
    destruct (Qc_eqb v 0); apply kc_mfor; intros n; [apply kc_remove|].
    apply kc_bind; [apply kc_get|]. intros m1. apply kc_bind; [apply kc_lift|]. intros i.
    destruct (nth_error (m_rows m1) i) as [r|]; [|apply kc_raise]. destruct (r_key r).
    - apply kc_bind; [apply kc_modify; auto|]. intros; apply kc_remove.
    - apply kc_bind; [apply kc_lift|]. intros t. apply kc_bind; [apply kc_add|]. intros; apply kc_remove.
  Qed.
  Lemma kc_variables n sh : keeps_c (variables n sh).
  Proof.
    intros m m' r E H. unfold variables in E. destruct n as [nm|a|].
    - destruct (check_shape false sh); [|inversion E; subst; auto]. destruct (array_create _ _ _); inversion E; subst; auto.
    - destruct (a_bits a) as [|v]; [inversion E; subst; auto|]. destruct (negb _); [inversion E; subst; auto|].
      destruct (before_char _ _); inversion E; subst; auto.
    - inversion E; subst; auto.
  Qed.
  Lemma kc_append n sh : keeps_c (append n sh).
  Proof.
    intros m m' r E H. unfold append in E. destruct n as [nm|a|]; try (inversion E; subst; auto; fail).
    destruct (check_shape true sh); [|inversion E; subst; auto]. destruct (dget nm (m_vars m)); [|eapply kc_variables; eauto].
    destruct (array_create _ _ _); inversion E; subst; auto.
  Qed.
  Lemma kc_retype : keeps_c update_variables_type.
  Proof.
    intros m m' r E H. unfold update_variables_type in E. destruct (recreate _ [] (m_vars m)) as [vs [u|e]].
    - cbv zeta in E. destruct (df_ok _); inversion E; subst; auto.
    - inversion E; subst; auto.
  Qed.
  Lemma kc_convert ev t ha hb ja jb jc : keeps_c (convert ev t ha hb ja jb jc).
  Proof.
    unfold convert. apply kc_bind; [apply kc_get|]. intros m. destruct (mtype_eqb _ _); [apply kc_ret|].
    apply kc_bind; [apply kc_modify; auto|]. intros _. apply kc_bind; [apply kc_retype|]. intros _. apply kc_bind; [apply kc_dataframe|]. intros h.
    apply kc_bind. { apply kc_mfor. intros r. unfold conv_h. apply kc_bind; [apply kc_update|]. intros _. apply kc_modify; auto. }
    intros _. apply kc_bind; [apply kc_dataframe|]. intros j. generalize 0. induction (filter body2_active j) as [|r l IH]; intros k; cbn [conv_Js]; [apply kc_ret|].
    apply kc_bind; [|intros _; apply IH]. unfold conv_J. apply kc_bind; [apply kc_update|]. intros _.
    destruct (r_inter r), (r_key r); try apply kc_raise. do 2 (apply kc_bind; [apply kc_add|]; intros _). apply kc_modify; auto.
  Qed.
  Lemma kc_convert_mtype ev : keeps_c (convert_mtype ev).
  Proof. unfold convert_mtype. apply kc_bind; [apply kc_get|]. intros m. destruct (m_mtype m); unfold to_ising, to_qubo; apply kc_convert. Qed.
  Lemma kc_merge_var kv : keeps_c (merge_var kv).
  Proof.
    intros m m' r E H. unfold merge_var in E. destruct (dget _ _); [eapply kc_append; eauto|]. inversion E; subst; auto.
  Qed.
  Lemma dupdate_from {V} (b : dict string V) : forall a k v, dget k (dupdate a b) = Some v -> dget k a = Some v \/ In v (map snd b).
  Proof.
    induction b as [|[k0 v0] b IH]; intros a k v E; [left; exact E|]. change (dupdate a ((k0, v0) :: b)) with (dupdate (dset k0 v0 a) b) in E.
    apply IH in E. destruct E as [E|E]; [|right; simpl; auto]. destruct (string_dec k k0) as [->|NE].
    - rewrite dget_dset_same in E. inversion E; subst. right; simpl; auto.
    - rewrite dget_dset_other in E by auto. auto.
  Qed.
  Lemma kc_merge_same ev k o : NoDup (dkeys (m_constrs o)) -> allc o -> keeps_c (merge_same ev k o).
  Proof.
    intros N HO. unfold merge_same. apply kc_bind; [apply kc_get|]. intros m0. apply kc_bind; [apply kc_guard|]. intros _.
    apply kc_bind; [apply kc_mfor; apply kc_merge_var|]. intros _. apply kc_bind; [apply kc_get|]. intros m.
    destruct (merge_cols m o (merge_attrs_list m o)) as [cols|]; [|apply kc_raise].
    apply kc_bind; [apply kc_modify; auto|]. intros _. apply kc_bind; [apply kc_guard|]. intros _. apply kc_modify. intros m1 H1 l c E.
    change (dget l (dupdate (m_constrs m1) (m_constrs o)) = Some c) in E. rewrite dupdate_get in E by auto.
    destruct (dget l (m_constrs o)) eqn:EO; [inversion E; subst|]; eauto.
  Qed.
  Lemma kc_merge ev evo k m o m' o' r : merge ev evo k m o = (m', o', r) -> reg o -> allc m -> allc o -> allc m' /\ allc o'.
  Proof.
    unfold merge. intros E HR HM HO. destruct (mtype_eqb _ _).
    - destruct (merge_same ev k o m) as [m1 r1] eqn:E1. inversion E; subst. split; auto. eapply kc_merge_same; eauto. apply HR.
    - destruct (convert_mtype evo o) as [o1 [u|e]] eqn:EC; assert (ER := kr_convert_mtype _ _ _ _ EC HR); assert (EC' := kc_convert_mtype _ _ _ _ EC HO).
      + destruct (merge_same ev k o1 m) as [m1 r1] eqn:E1. inversion E; subst. split; auto. assert (N : NoDup (dkeys (m_constrs o'))) by apply ER. exact (kc_merge_same ev k _ N EC' _ _ _ E1 HM).
      + inversion E; subst. auto.
  Qed.
  Lemma kc_to_model ev c m r : to_model ev c = (m, r) -> allc m.
  Proof.
    assert (HK : forall f : LM unit, keeps_c f -> f (new_model Qubo) = (m, r) -> allc m) by (intros f HF E; eapply HF; eauto; intros l x; discriminate).
    assert (H3 : forall l q vs v, keeps_c (cadd_pairs_of ev l q vs v)).
    { intros. apply kc_mfor. intros w. destruct (String.ltb _ _); [apply kc_add|apply kc_ret]. }
    destruct c; unfold to_model; apply HK.
    - apply kc_mfor. intros. apply kc_bind; [apply kc_add|]; auto.
    - apply kc_mfor. intros. auto.
    - apply kc_bind; [apply kc_mfor; intros; apply kc_add|]. intros _. apply kc_bind; [apply kc_mfor; auto|]. intros _.
      apply kc_bind; [apply kc_mfor; auto|]. intros _. apply kc_mfor. intros. apply kc_mfor. intros; apply kc_add.
  Qed.
  Lemma kc_merge_constrs ev evs cs : forall k, keeps_c (merge_constrs ev evs k cs).
  Proof.
    induction cs as [|c cs IH]; intros k m m' r E HM; simpl in E; [inversion E; subst; auto|].
    destruct (to_model (evs k) c) as [cm [u|e]] eqn:EC; [|inversion E; subst; auto]. assert (ER := EC). apply reg_to_model in ER. apply kc_to_model in EC.
    destruct (merge ev (evs k) k m cm) as [[m1 o1] [u1|e]] eqn:EM; apply kc_merge in EM; auto; destruct EM.
    - eapply IH; eauto.
    - inversion E; subst. auto.
  Qed.
  Lemma kc_purge n : keeps_c (purge_one n).
  Proof.
    intros m m' r E H. unfold purge_one, bind, get, lift in E. destruct (name_index m n) as [i|e]; [|inversion E; subst; auto].
    destruct (pop_nth i (m_rows m)) as [rows|]; [|inversion E; subst; auto].
    destruct (pop_cols i [] (m_cols m)) as [cols [u|e]]; inversion E; subst; auto.
  Qed.
  Lemma kc_physical ev evs fd m m' r : to_physical ev evs fd m = (m', r) -> allc m -> allc m'.
  Proof.
    rewrite to_physical_after. intros E HA. destruct (merge_constrs _ _ _ _ _) as [m1 [u|e]] eqn:EM; apply kc_merge_constrs in EM; auto; [|inversion E; subst; auto].
    unfold after_merge in E. destruct (visited m1) as [rows|e]; [|inversion E; subst; auto].
    destruct (agg_rows _ _ _) as [g|e]; [|inversion E; subst; auto]. destruct (ceval _ _); [|inversion E; subst; auto].
    destruct (mfor (g_remove g) purge_one _) as [m3 [u3|e]] eqn:EP; assert (A3 : allc m3); try (inversion E; subst; exact A3).
    all: apply (kc_mfor _ _ kc_purge _ _ _ EP); exact (EM HA).
  Qed.
  Lemma kc_pyqubo ev pq m m' pq' r : from_pyqubo ev m pq = (m', pq', r) -> allc m -> allc m'.
  Proof.
    assert (HS : forall m t m1 c1 r1, pq_step ev m pq t = (m1, c1, r1) -> allc m -> allc m1).
    { intros m0 [[k0 k1] c] m1 c1 r1. unfold pq_step. destruct (pq_lookup m0 pq k0); [|intros E; inversion E; subst; auto].
      destruct (pq_lookup m0 pq k1); [|intros E; inversion E; subst; auto]. destruct (add_interaction _ _ _ _ _ _ _ m0) as [m2 r2] eqn:E2.
      intros E; inversion E; subst. revert E2. apply kc_add. }
    assert (HL : forall l m m1 l1 r1, pq_loop ev m pq l = (m1, l1, r1) -> allc m -> allc m1).
    { induction l as [|[k c] l IH]; intros m0 m1 l1 r1 E HM; cbn [pq_loop] in E; [inversion E; subst; auto|].
      destruct (pq_step ev m0 pq (k, c)) as [[m2 c2] [u|e]] eqn:E2.
      - destruct (pq_loop ev m2 pq l) as [[m3 l3] r3] eqn:E3. inversion E; subst. apply HS in E2; auto. eapply IH; eauto.
      - inversion E; subst. eapply HS; eauto. }
    unfold from_pyqubo. destruct (pq_loop ev m pq (pq_terms pq)) as [[m1 l1] [u|e]] eqn:E1; intros E; inversion E; subst; intros HA.
    - intros l c. apply (HL _ _ _ _ _ E1 HA).
    - eauto.
  Qed.
  Definition given (o : op) : Prop := match o with OAddConstraint (Some c) => P c | _ => True end.
  Lemma allc_do ev evs o m : reg m -> given o -> allc m -> allc (fst (do_op ev evs o m)).
  Proof.
    intros HR HG HA.
    assert (HK : forall f : LM unit, keeps_c f -> allc (fst (f m))).
    { intros f HF. destruct (f m) as [m' r] eqn:E. simpl. eapply HF; eauto. }
    destruct o; cbn [do_op].
    - apply HK, kc_variables.
    - apply HK, kc_append.
    - apply HK, kc_add.
    - apply HK, kc_update.
    - apply HK, kc_remove.
    - apply HK, kc_delete.
    - apply HK, kc_fix.
    - apply HK. destruct c as [c|]; [apply kc_modify; intros m0 H; apply allc_set; auto|apply kc_raise].
    - unfold remove_constraint. destruct l as [s|]; [|exact HA]. destruct (dmem s (m_constrs m)); [|exact HA]. intros l c E.
      cbn [fst m_constrs with_constrs] in E. apply (HA l). assert (N : NoDup (dkeys (m_constrs m))) by apply HR. revert E N. clear.
      generalize (m_constrs m). intros d. induction d as [|[a b] d IH]; simpl; auto. intros E N. inversion N as [|? ? N1 N2]; subst.
      destruct (String.eqb s a); simpl in E.
      + destruct (String.eqb l a) eqn:E2; auto. apply String.eqb_eq in E2. subst. exfalso. apply N1. apply dget_some_in. eauto.
      + destruct (String.eqb l a); auto.
    - exact HA.
    - destruct (from_pyqubo ev m pq) as [[m' pq'] r] eqn:E. simpl. eapply kc_pyqubo; eauto.
    - apply HK. unfold to_ising. apply kc_convert.
    - apply HK. unfold to_qubo. apply kc_convert.
    - destruct (to_physical ev evs fd m) as [m' [p|e]] eqn:E; simpl; eapply kc_physical; eauto.
  Qed.
End Keeps.

(** Histories in which every constraint given to add_constraint satisfies [P]. *)
Inductive reachable_with (P : constr -> Prop) : lmodel -> Prop :=
| rw_new t : reachable_with P (new_model t)
| rw_op ev evs o m : reachable_with P m -> given P o -> reachable_with P (fst (do_op ev evs o m))
| rw_merge ev evo k m o : reachable_with P m -> reachable_with P o -> reachable_with P (fst (fst (merge ev evo k m o)))
| rw_merged ev evo k m o : reachable_with P m -> reachable_with P o -> reachable_with P (snd (fst (merge ev evo k m o))).
Lemma reachable_with_reachable P m : reachable_with P m -> reachable m.
Proof. induction 1; constructor; auto. Qed.
Lemma reachable_all (P : constr -> Prop) : (forall a c c' r, c_remove_variable a c = (c', r) -> P c -> P c') -> forall m, reachable_with P m -> allc P m.
Proof.
  intros HC m H. assert (HK : reg m /\ allc P m); [|apply HK]. induction H.
  - split; [apply reg_new|]. intros l c E. discriminate.
  - destruct IHreachable_with. split; [apply reg_do; auto|apply allc_do; auto].
  - destruct IHreachable_with1, IHreachable_with2. destruct (merge ev evo k m o) as [[m' o'] r] eqn:E. assert (E' := E). apply kr_merge in E; auto. eapply kc_merge in E'; eauto. split; [apply E|apply E'].
  - destruct IHreachable_with1, IHreachable_with2. destruct (merge ev evo k m o) as [[m' o'] r] eqn:E. assert (E' := E). apply kr_merge in E; auto. eapply kc_merge in E'; eauto. split; [apply E|apply E'].
Qed.
