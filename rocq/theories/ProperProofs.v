(** * ProperProofs: every dictionary of a reachable model has distinct keys. *)
From Verif Require Import PyBase PyLemmas Constraint LogicalModel Spec LogicalProofs EnergyProofs ConvertProofs ConstraintProofs MergeProofs PhysicalProofs
  ToPhysicalProofs History PropsConvert PropsMerge EqualitySpec.
Open Scope list_scope.

Definition reg (m : lmodel) : Prop := proper m /\ incl (m_attrs m) (dkeys (m_cols m)).
Definition keeps_r {A} (f : LM A) : Prop := forall m m' r, f m = (m', r) -> reg m -> reg m'.
Lemma kr_ret {A} (a : A) : keeps_r (ret a). Proof. intros m m' r E. inversion E; subst; auto. Qed.
Lemma kr_raise {A} e : keeps_r (raise e : LM A). Proof. intros m m' r E. inversion E; subst; auto. Qed.
Lemma kr_lift {A} (x : res A) : keeps_r (lift x). Proof. intros m m' r E. inversion E; subst; auto. Qed.
Lemma kr_get : keeps_r get. Proof. intros m m' r E. inversion E; subst; auto. Qed.
Lemma kr_guard b e : keeps_r (guard b e).
Proof. destruct b; [apply kr_ret|apply kr_raise]. Qed.
Lemma kr_bind {A B} (f : LM A) (g : A -> LM B) : keeps_r f -> (forall a, keeps_r (g a)) -> keeps_r (bind f g).
Proof.
  intros HF HG m m' r E HM. unfold bind in E. destruct (f m) as [m1 [a|e]] eqn:E1.
  - eapply HG; eauto.
  - inversion E; subst. eapply HF; eauto.
Qed.
Lemma kr_mfor {A} (l : list A) f : (forall a, keeps_r (f a)) -> keeps_r (mfor l f).
Proof. intros H. induction l as [|a l IH]; simpl; [apply kr_ret|]. apply kr_bind; auto. Qed.
Lemma kr_modify f : (forall m, reg m -> reg (f m)) -> keeps_r (modify f).
Proof. intros H m m' r E HM. inversion E; subst. auto. Qed.

Lemma reg_rows l m : reg m -> reg (with_rows l m). Proof. exact (fun H => H). Qed.
Lemma reg_len n m : reg m -> reg (with_len n m). Proof. exact (fun H => H). Qed.
Lemma reg_offset n m : reg m -> reg (with_offset n m). Proof. exact (fun H => H). Qed.
Lemma reg_mtype n m : reg m -> reg (with_mtype n m). Proof. exact (fun H => H). Qed.
Lemma reg_vars vs m : NoDup (dkeys vs) -> reg m -> reg (with_vars vs m).
Proof. intros N ((H1 & H2) & H3). split; [split; auto|auto]. Qed.
Lemma reg_deleted d m : NoDup (dkeys d) -> reg m -> reg (with_deleted d m).
Proof. intros N ((H1 & H2 & H3) & H4). split; [split; [auto|split; auto]|auto]. Qed.
Lemma reg_fixed d m : NoDup (dkeys d) -> reg m -> reg (with_fixed d m).
Proof. intros N ((H1 & H2 & H3 & H5) & H4). split; [split; [auto|split; [auto|split; auto]]|auto]. Qed.
Lemma reg_constrs d m : NoDup (dkeys d) -> reg m -> reg (with_constrs d m).
Proof. intros N ((H1 & H2 & H3 & H5 & H6) & H4). split; [split; [auto|split; [auto|split; [auto|split; auto]]]|auto]. Qed.
Lemma reg_cols c m : NoDup (dkeys c) -> incl (m_attrs m) (dkeys c) -> reg m -> reg (with_cols c m).
Proof. intros N I ((H1 & H2 & H3 & H5 & H6 & H7) & H4). split; [split; [auto|split; [auto|split; [auto|split; [auto|split; auto]]]]|auto]. Qed.
Lemma dset_incl {V} (k : string) (v : V) d l : incl l (dkeys d) -> incl l (dkeys (dset k v d)).
Proof. intros H x Hx. apply dset_in_iff. right. auto. Qed.
Lemma reg_col k c m : reg m -> reg (with_cols (dset k c (m_cols m)) m).
Proof. intros H. apply reg_cols; auto; [apply dset_nodup, H|apply dset_incl, H]. Qed.

Lemma kr_expand : keeps_r expand_attrs.
Proof.
  intros m m' r. unfold expand_attrs. apply (kr_mfor (m_attrs m)). intros a m0 m1 r0 E H.
  destruct (dget a (m_cols m0)) as [c|]; inversion E; subst; auto. apply reg_col; auto.
Qed.
Lemma kr_new_attr kv : keeps_r (set_new_attr kv).
Proof.
  intros m m' r E H. unfold set_new_attr in E. cbv zeta in E. set (k := attr_key (fst kv)) in *.
  set (m1 := if dmem k (m_cols m) then m else _) in E.
  assert (H1 : reg m1).
  { unfold m1. destruct (dmem k (m_cols m)) eqn:D; auto. apply dmem_nin in D.
    destruct H as ((N1 & N2 & N3 & N4 & N5 & N6) & HI). split; [|intros x Hx; simpl in Hx; apply in_app_or in Hx; simpl; apply dset_in_iff].
    - split; [auto|]. split; [auto|]. split; [auto|]. split; [auto|]. split; [simpl; apply dset_nodup; auto|].
      simpl. apply NoDup_snoc. split; auto.
    - destruct Hx as [Hx|[<-|[]]]; auto. }
  destruct (dget k (m_cols m1)) as [c|]; [|inversion E; subst; auto]. destruct (set_last (snd kv) c); inversion E; subst; auto. apply reg_col; auto.
Qed.
Lemma kr_add ev t n co sc a ts : keeps_r (add_interaction ev t n co sc a ts).
Proof.
  unfold add_interaction. apply kr_bind; [apply kr_guard|]. intros _. cbv zeta.
  do 6 (apply kr_bind; [apply kr_lift|]; intros ?). apply kr_bind; [apply kr_get|]. intros m0.
  apply kr_bind; [apply kr_guard|]. intros _. apply kr_bind; [apply kr_modify; auto|]. intros _.
  apply kr_bind; [apply kr_expand|]. intros _. apply kr_bind; [apply kr_mfor; apply kr_new_attr|]. intros _. apply kr_modify; auto.
Qed.
Lemma kr_upd_row i f : keeps_r (upd_row i f). Proof. apply kr_modify. auto. Qed.
Lemma kr_opt {A} (o : option A) f : (forall a, keeps_r (f a)) -> keeps_r (opt_do o f).
Proof. intros H. destruct o; [apply H|apply kr_ret]. Qed.
Lemma kr_update_attr i kv : keeps_r (update_attr i kv).
Proof.
  intros m m' r E H. unfold update_attr in E. cbv zeta in E. set (k := attr_key (fst kv)) in *.
  set (m1 := if dmem k (m_cols m) then m else _) in E.
  assert (H1 : reg m1) by (unfold m1; destruct (dmem k (m_cols m)); auto; apply reg_col; auto).
  destruct (dget k (m_cols m1)) as [c|]; [|inversion E; subst; auto]. destruct (set_nth i (snd kv) c); inversion E; subst; auto. apply reg_col; auto.
Qed.
Lemma kr_update_at nm c s a q : keeps_r (update_at nm c s a q).
Proof.
  unfold update_at. apply kr_bind; [apply kr_get|]. intros m. apply kr_bind; [apply kr_lift|]. intros i.
  apply kr_bind; [apply kr_opt; intros; apply kr_upd_row|]. intros _. apply kr_bind; [apply kr_opt; intros; apply kr_upd_row|]. intros _.
  apply kr_bind; [apply kr_opt; intros; apply kr_mfor, kr_update_attr|]. intros _. apply kr_bind; [apply kr_upd_row|]. intros _. apply kr_upd_row.
Qed.
Lemma kr_update ev t n co sc a ts : keeps_r (update_interaction ev t n co sc a ts).
Proof.
  unfold update_interaction. do 2 (apply kr_bind; [apply kr_guard|]; intros _). do 5 (apply kr_bind; [apply kr_lift|]; intros ?).
  apply kr_bind; [apply kr_get|]. intros m0. destruct (n_truthy n).
  - destruct n; try apply kr_raise. apply kr_bind; [apply kr_guard|]. intros _. apply kr_bind; [apply kr_lift|]. intros ?.
    apply kr_bind; [apply kr_guard|]. intros _. apply kr_update_at.
  - destruct a4 as [inf|]; [|apply kr_raise]. destruct (has_name m0 (in_name inf)); [|apply kr_add].
    apply kr_bind; [apply kr_lift|]. intros ?. apply kr_bind; [apply kr_guard|]. intros _. apply kr_update_at.
Qed.
Lemma kr_internal t n : keeps_r (internal_name t n).
Proof.
  unfold internal_name. do 2 (apply kr_bind; [apply kr_guard|]; intros _). apply kr_bind; [apply kr_lift|]. intros inf.
  apply kr_bind; [apply kr_get|]. intros m0. destruct (n_truthy n).
  - destruct n; try apply kr_raise. apply kr_bind; [apply kr_guard|]. intros _. apply kr_ret.
  - destruct inf; [|apply kr_raise]. apply kr_bind; [apply kr_guard|]. intros _. apply kr_ret.
Qed.
Lemma kr_remove t n : keeps_r (remove_interaction t n).
Proof.
  unfold remove_interaction. apply kr_bind; [apply kr_internal|]. intros nm. apply kr_bind; [apply kr_get|]. intros m0.
  apply kr_bind; [apply kr_lift|]. intros i. apply kr_bind; [apply kr_upd_row|]. intros _. apply kr_upd_row.
Qed.
Lemma kr_dataframe : keeps_r dataframe.
Proof. intros m m' r E. unfold dataframe in E. destruct (df_ok m); inversion E; subst; auto. Qed.
Lemma kr_select l : keeps_r (select_by_variable l).
Proof. apply kr_bind; [apply kr_dataframe|]. intros; apply kr_ret. Qed.
Lemma kr_constr_remove k v : keeps_r (constr_remove k v).
Proof.
  intros m m' r E H. unfold constr_remove in E. destruct (dget k (m_constrs m)); [|inversion E; subst; auto].
  destruct (c_remove_variable (VA_one v) c). inversion E; subst. apply reg_constrs; auto. apply dset_nodup, H.
Qed.
Lemma kr_delete t : keeps_r (delete_variable t).
Proof.
  apply kr_bind; [apply kr_guard|]. intros _. destruct t; try apply kr_raise.
  apply kr_bind; [apply kr_modify; intros m H; apply reg_deleted; auto; apply dset_nodup, H|]. intros _. apply kr_bind; [apply kr_get|]. intros m.
  apply kr_bind; [apply kr_mfor; intros; apply kr_constr_remove|]. intros _. apply kr_bind; [apply kr_select|].
  intros sel. apply kr_mfor. intros; apply kr_remove.
Qed.
Lemma kr_fix ev t v : keeps_r (fix_variable ev t v).
Proof.
  apply kr_bind; [apply kr_guard|]. intros _. destruct t; try apply kr_raise.
  apply kr_bind; [apply kr_get|]. intros m. apply kr_bind; [apply kr_guard|]. intros _.
  apply kr_bind; [apply kr_modify; intros m0 H; apply reg_fixed; auto; apply dset_nodup, H|]. intros _. apply kr_bind; [apply kr_select|]. intros sel.
  destruct (Qc_eqb v 0); apply kr_mfor; intros n; [apply kr_remove|].
  apply kr_bind; [apply kr_get|]. intros m1. apply kr_bind; [apply kr_lift|]. intros i.
  destruct (nth_error (m_rows m1) i) as [r|]; [|apply kr_raise]. destruct (r_key r).
  - apply kr_bind; [apply kr_modify; auto|]. intros; apply kr_remove.
  - apply kr_bind; [apply kr_lift|]. intros t. apply kr_bind; [apply kr_add|]. intros; apply kr_remove.
Qed.
Lemma kr_variables n sh : keeps_r (variables n sh).
Proof.
  intros m m' r E H. unfold variables in E. destruct n as [nm|a|].
  - destruct (check_shape false sh); [|inversion E; subst; auto]. destruct (array_create _ _ _); inversion E; subst; auto.
    apply reg_vars; auto. apply dset_nodup, H.
  - destruct (a_bits a) as [|v]; [inversion E; subst; auto|]. destruct (negb _); [inversion E; subst; auto|].
    destruct (before_char _ _); inversion E; subst; auto. apply reg_vars; auto. apply dset_nodup, H.
  - inversion E; subst; auto.
Qed.
Lemma kr_append n sh : keeps_r (append n sh).
Proof.
  intros m m' r E H. unfold append in E. destruct n as [nm|a|]; try (inversion E; subst; auto; fail).
  destruct (check_shape true sh); [|inversion E; subst; auto]. destruct (dget nm (m_vars m)); [|eapply kr_variables; eauto].
  destruct (array_create _ _ _); inversion E; subst; auto. apply reg_vars; auto. apply dset_nodup, H.
Qed.
Lemma recreate_keys vt todo : forall done vs r, recreate vt done todo = (vs, r) -> dkeys vs = dkeys (done ++ todo).
Proof.
  induction todo as [|[n a] todo IH]; intros done vs r E; cbn [recreate] in E.
  - inversion E; subst. rewrite app_nil_r. auto.
  - destruct (array_create n (a_shape a) vt) as [a'|e]; [|inversion E; subst; auto]. apply IH in E. rewrite E.
    unfold dkeys. rewrite !map_app, <- app_assoc. reflexivity.
Qed.
Lemma kr_retype : keeps_r update_variables_type.
Proof.
  intros m m' r E H. unfold update_variables_type in E. destruct (recreate _ [] (m_vars m)) as [vs [u|e]] eqn:ER; pose proof (recreate_keys _ _ _ _ _ ER) as HK; cbn [app] in HK.
  - cbv zeta in E. destruct (df_ok _); inversion E; subst; [apply reg_rows|]; apply reg_vars; auto; rewrite HK; apply H.
  - inversion E; subst. apply reg_vars; auto. rewrite HK; apply H.
Qed.
Lemma kr_convert ev t ha hb ja jb jc : keeps_r (convert ev t ha hb ja jb jc).
Proof.
  unfold convert. apply kr_bind; [apply kr_get|]. intros m. destruct (mtype_eqb _ _); [apply kr_ret|].
  apply kr_bind; [apply kr_modify; auto|]. intros _. apply kr_bind; [apply kr_retype|]. intros _. apply kr_bind; [apply kr_dataframe|]. intros h.
  apply kr_bind. { apply kr_mfor. intros r. unfold conv_h. apply kr_bind; [apply kr_update|]. intros _. apply kr_modify; auto. }
  intros _. apply kr_bind; [apply kr_dataframe|]. intros j. generalize 0. induction (filter body2_active j) as [|r l IH]; intros k; cbn [conv_Js]; [apply kr_ret|].
  apply kr_bind; [|intros _; apply IH]. unfold conv_J. apply kr_bind; [apply kr_update|]. intros _.
  destruct (r_inter r), (r_key r); try apply kr_raise. do 2 (apply kr_bind; [apply kr_add|]; intros _). apply kr_modify; auto.
Qed.
Lemma kr_convert_mtype ev : keeps_r (convert_mtype ev).
Proof. unfold convert_mtype. apply kr_bind; [apply kr_get|]. intros m. destruct (m_mtype m); unfold to_ising, to_qubo; apply kr_convert. Qed.
Lemma dupdate_nodup {A} (b : dict string A) : forall a, NoDup (dkeys a) -> NoDup (dkeys (dupdate a b)).
Proof. induction b as [|[k v] b IH]; intros a N; unfold dupdate in *; simpl; auto. apply IH. apply dset_nodup; auto. Qed.
Lemma kr_merge_var kv : keeps_r (merge_var kv).
Proof.
  intros m m' r E H. unfold merge_var in E. destruct (dget _ _); [eapply kr_append; eauto|]. inversion E; subst. apply reg_vars; auto. apply dset_nodup, H.
Qed.
Lemma reg_table cols l n rows m : NoDup l -> dkeys cols = l -> reg m -> reg (with_len n (with_attrs l (with_cols cols (with_rows rows m)))).
Proof.
  intros NA HK ((H1 & H2 & H3 & H5 & H6 & H7) & H4). split; [|simpl; rewrite HK; apply incl_refl].
  split; [auto|split; [auto|split; [auto|split; [auto|split; simpl; [rewrite HK; auto|auto]]]]].
Qed.
Lemma kr_merge_same ev k o : reg o -> keeps_r (merge_same ev k o).
Proof.
  intros HO. unfold merge_same. apply kr_bind; [apply kr_get|]. intros m0. apply kr_bind; [apply kr_guard|]. intros _.
  apply kr_bind; [apply kr_mfor; apply kr_merge_var|]. intros _ m m' r E H. unfold bind at 1, get in E.
  destruct (merge_cols m o (merge_attrs_list m o)) as [cols|] eqn:EC; [|inversion E; subst; auto].
  pose proof (merge_cols_keys _ _ _ _ EC) as HK.
  assert (NA : NoDup (merge_attrs_list m o)) by (apply merge_attrs_nodup; [apply H|apply HO]).
  revert E H. match goal with |- bind (modify ?f) ?g m = _ -> _ -> _ =>
    assert (HB : forall m1 m2 r2, bind (modify f) g m1 = (m2, r2) -> reg m1 -> reg m2); [|apply HB] end.
  apply (kr_bind (modify _)); [apply kr_modify; intros m1 H1; apply reg_table; auto|]. intros _.
  apply kr_bind; [apply kr_guard|]. intros _. apply kr_modify. intros m1 H1.
  apply reg_fixed; [apply dupdate_nodup, H1|]. apply reg_deleted; [apply dupdate_nodup, H1|]. apply reg_offset. apply reg_constrs; [apply dupdate_nodup, H1|auto].
Qed.

Lemma kr_merge ev evo k m o m' o' r : merge ev evo k m o = (m', o', r) -> reg m -> reg o -> reg m' /\ reg o'.
Proof.
  unfold merge. intros E HM HO. destruct (mtype_eqb _ _).
  - destruct (merge_same ev k o m) as [m1 r1] eqn:E1. inversion E; subst. split; auto. eapply kr_merge_same; eauto.
  - destruct (convert_mtype evo o) as [o1 [u|e]] eqn:EC; apply kr_convert_mtype in EC; auto.
    + destruct (merge_same ev k o1 m) as [m1 r1] eqn:E1. inversion E; subst. split; auto. eapply kr_merge_same; [|eauto|]; eauto.
    + inversion E; subst. auto.
Qed.
Lemma reg_new t : reg (new_model t).
Proof. split; [repeat split; constructor|intros x []]. Qed.
Lemma reg_to_model ev c m r : to_model ev c = (m, r) -> reg m.
Proof.
  assert (HK : forall f : LM unit, keeps_r f -> f (new_model Qubo) = (m, r) -> reg m) by (intros f HF E; eapply HF; eauto; apply reg_new).
  assert (H3 : forall l q vs v, keeps_r (cadd_pairs_of ev l q vs v)).
  { intros. apply kr_mfor. intros w. destruct (String.ltb _ _); [apply kr_add|apply kr_ret]. }
  destruct c; unfold to_model; apply HK.
  - apply kr_mfor. intros. apply kr_bind; [apply kr_add|]; auto.
  - apply kr_mfor. intros. auto.
  - apply kr_bind; [apply kr_mfor; intros; apply kr_add|]. intros _. apply kr_bind; [apply kr_mfor; auto|]. intros _.
    apply kr_bind; [apply kr_mfor; auto|]. intros _. apply kr_mfor. intros. apply kr_mfor. intros; apply kr_add.
Qed.
Lemma kr_merge_constrs ev evs cs : forall k, keeps_r (merge_constrs ev evs k cs).
Proof.
  induction cs as [|c cs IH]; intros k m m' r E HM; simpl in E; [inversion E; subst; auto|].
  destruct (to_model (evs k) c) as [cm [u|e]] eqn:EC; [|inversion E; subst; auto]. apply reg_to_model in EC.
  destruct (merge ev (evs k) k m cm) as [[m1 o1] [u1|e]] eqn:EM; apply kr_merge in EM; auto; destruct EM.
  - eapply IH; eauto.
  - inversion E; subst. auto.
Qed.
Lemma pop_cols_keys i todo : forall done cols r, pop_cols i done todo = (cols, r) -> dkeys cols = dkeys (done ++ todo).
Proof.
  induction todo as [|[k c] todo IH]; intros done cols r E; cbn [pop_cols] in E.
  - inversion E; subst. rewrite app_nil_r. auto.
  - destruct (pop_nth i c) as [c'|]; [|inversion E; subst; auto]. apply IH in E. rewrite E.
    unfold dkeys. rewrite !map_app, <- app_assoc. reflexivity.
Qed.
Lemma kr_purge n : keeps_r (purge_one n).
Proof.
  intros m m' r E H. unfold purge_one, bind, get, lift in E. destruct (name_index m n) as [i|e]; [|inversion E; subst; auto].
  destruct (pop_nth i (m_rows m)) as [rows|]; [|inversion E; subst; auto].
  destruct (pop_cols i [] (m_cols m)) as [cols [u|e]] eqn:EP; apply pop_cols_keys in EP; cbn [app] in EP; inversion E; subst;
    [apply reg_len|]; apply (reg_cols cols (with_rows rows m)); try (rewrite EP; apply H); apply reg_rows; auto.
Qed.
Lemma reg_physical ev evs fd m m' r : to_physical ev evs fd m = (m', r) -> reg m -> reg m'.
Proof.
  rewrite to_physical_after. intros E HA. destruct (merge_constrs _ _ _ _ _) as [m1 [u|e]] eqn:EM; apply kr_merge_constrs in EM; [|inversion E; subst; auto].
  unfold after_merge in E. destruct (visited m1) as [rows|e]; [|inversion E; subst; auto].
  destruct (agg_rows _ _ _) as [g|e]; [|inversion E; subst; auto]. destruct (ceval _ _); [|inversion E; subst; auto].
  destruct (mfor (g_remove g) purge_one _) as [m3 [u3|e]] eqn:EP;
    assert (A3 : reg m3); try (inversion E; subst; exact A3).
  all: specialize (EM HA); apply (kr_mfor _ _ kr_purge _ _ _ EP); destruct EM as ((M1 & M2 & M3 & M4 & M5 & M6) & M7); destruct HA as ((A & B & C & D & F & G) & K);
       split; [split; [exact M1|split; [exact B|split; [exact C|split; [exact M4|split; [exact F|exact G]]]]]|exact K].
Qed.
Lemma kr_pyqubo ev pq m m' pq' r : from_pyqubo ev m pq = (m', pq', r) -> reg m -> reg m'.
Proof.
  assert (HS : forall m t m1 c1 r1, pq_step ev m pq t = (m1, c1, r1) -> reg m -> reg m1).
  { intros m0 [[k0 k1] c] m1 c1 r1. unfold pq_step. destruct (pq_lookup m0 pq k0); [|intros E; inversion E; subst; auto].
    destruct (pq_lookup m0 pq k1); [|intros E; inversion E; subst; auto]. destruct (add_interaction _ _ _ _ _ _ _ m0) as [m2 r2] eqn:E2.
    intros E; inversion E; subst. revert E2. apply kr_add. }
  assert (HL : forall l m m1 l1 r1, pq_loop ev m pq l = (m1, l1, r1) -> reg m -> reg m1).
  { induction l as [|[k c] l IH]; intros m0 m1 l1 r1 E HM; cbn [pq_loop] in E; [inversion E; subst; auto|].
    destruct (pq_step ev m0 pq (k, c)) as [[m2 c2] [u|e]] eqn:E2.
    - destruct (pq_loop ev m2 pq l) as [[m3 l3] r3] eqn:E3. inversion E; subst. apply HS in E2; auto. eapply IH; eauto.
    - inversion E; subst. eapply HS; eauto. }
  unfold from_pyqubo. destruct (pq_loop ev m pq (pq_terms pq)) as [[m1 l1] [u|e]] eqn:E1; intros E; inversion E; subst; intros HA.
  - apply reg_offset. eauto.
  - eauto.
Qed.
Lemma ddel_nodup {V} (k : string) (d : dict string V) : NoDup (dkeys d) -> NoDup (dkeys (ddel k d)).
Proof.
  induction d as [|[k' v] d IH]; simpl; intros N; auto. inversion N; subst. destruct (String.eqb k k'); auto. simpl. constructor; auto.
  intros HI. apply H1. clear -HI. induction d as [|[a b] d IH]; simpl in *; auto. destruct (String.eqb k a); simpl in *; tauto.
Qed.
Lemma reg_do ev evs o m : reg m -> reg (fst (do_op ev evs o m)).
Proof.
  intros HA.
  assert (HK : forall f : LM unit, keeps_r f -> reg (fst (f m))).
  { intros f HF. destruct (f m) as [m' r] eqn:E. simpl. eapply HF; eauto. }
  destruct o; cbn [do_op].
  - apply HK, kr_variables.
  - apply HK, kr_append.
  - apply HK, kr_add.
  - apply HK, kr_update.
  - apply HK, kr_remove.
  - apply HK, kr_delete.
  - apply HK, kr_fix.
  - apply HK. destruct c; [apply kr_modify; intros m0 H; apply reg_constrs; auto; apply dset_nodup, H|apply kr_raise].
  - apply HK. intros m0 m' r E H. unfold remove_constraint in E. destruct l as [s|]; [|inversion E; subst; auto].
    destruct (dmem s (m_constrs m0)); inversion E; subst; auto. apply reg_constrs; auto. apply ddel_nodup, H.
  - apply reg_offset; auto.
  - destruct (from_pyqubo ev m pq) as [[m' pq'] r] eqn:E. simpl. eapply kr_pyqubo; eauto.
  - apply HK. unfold to_ising. apply kr_convert.
  - apply HK. unfold to_qubo. apply kr_convert.
  - destruct (to_physical ev evs fd m) as [m' [p|e]] eqn:E; simpl; eapply reg_physical; eauto.
Qed.
Lemma reachable_regular m : reachable m -> reg m.
Proof.
  induction 1.
  - apply reg_new.
  - apply reg_do; auto.
  - destruct (merge ev evo k m o) as [[m' o'] r] eqn:E. apply kr_merge in E; auto. apply E.
  - destruct (merge ev evo k m o) as [[m' o'] r] eqn:E. apply kr_merge in E; auto. apply E.
Qed.
