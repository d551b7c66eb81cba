(** * PropsOffset: C94, what sets and what leaves the offset. *)
From Verif Require Import PyBase PyLemmas Constraint LogicalModel Spec LogicalProofs EnergyProofs ConvertProofs ConstraintProofs MergeProofs PhysicalProofs
  ToPhysicalProofs History Samples PropsHistory.
Open Scope list_scope.

(** ** Setting it *)
Theorem C94_offset : forall c m, exists m', set_offset c m = (m', Ok tt) /\ m_offset m' = c /\
  m_mtype m' = m_mtype m /\ m_vars m' = m_vars m /\ m_rows m' = m_rows m /\ m_cols m' = m_cols m /\ m_attrs m' = m_attrs m /\
  m_constrs m' = m_constrs m /\ m_deleted m' = m_deleted m /\ m_fixed m' = m_fixed m /\
  (forall fd s, energy fd s m' = (energy fd s m - value fd (m_offset m) + value fd c)%Qc) /\
  (forall c2, set_offset c2 m' = set_offset c2 m).
Proof.
  intros c m. eexists. split; [reflexivity|]. repeat (split; [reflexivity|]). split; [|reflexivity].
  intros fd s. unfold energy. simpl. ring.
Qed.

(** ** Leaving it *)
Definition ko {A} (f : LM A) : Prop := forall m m' r, f m = (m', r) -> m_offset m' = m_offset m.
Lemma ko_ret {A} (a : A) : ko (ret a). Proof. intros m m' r E. inversion E; subst; auto. Qed.
Lemma ko_raise {A} e : ko (raise e : LM A). Proof. intros m m' r E. inversion E; subst; auto. Qed.
Lemma ko_lift {A} (x : res A) : ko (lift x). Proof. intros m m' r E. inversion E; subst; auto. Qed.
Lemma ko_get : ko get. Proof. intros m m' r E. inversion E; subst; auto. Qed.
Lemma ko_guard b e : ko (guard b e). Proof. destruct b; [apply ko_ret|apply ko_raise]. Qed.
Lemma ko_bind {A B} (f : LM A) (g : A -> LM B) : ko f -> (forall a, ko (g a)) -> ko (bind f g).
Proof.
  intros HF HG m m' r E. unfold bind in E. destruct (f m) as [m1 [a|e]] eqn:E1; apply HF in E1.
  - apply HG in E. congruence.
  - inversion E; subst; auto.
Qed.
Lemma ko_mfor {A} (l : list A) f : (forall a, ko (f a)) -> ko (mfor l f).
Proof. intros H. induction l as [|a l IH]; simpl; [apply ko_ret|]. apply ko_bind; auto. Qed.
Lemma ko_modify f : (forall m, m_offset (f m) = m_offset m) -> ko (modify f).
Proof. intros H m m' r E. inversion E; subst. auto. Qed.
Lemma ko_add ev t n co sc a ts : ko (add_interaction ev t n co sc a ts).
Proof. intros m m' r E. apply add_any_core in E. destruct E as [->|(c & s & q & inf & nm & d & _ & E)]; auto. apply core_offset in E. exact E. Qed.
Lemma ko_update_attr i kv : ko (update_attr i kv).
Proof.
  intros m m' r E. unfold update_attr in E. cbv zeta in E. set (k := attr_key (fst kv)) in *.
  destruct (dmem k (m_cols m)); (destruct (dget k _); [destruct (set_nth _ _ _)|]; inversion E; subst; auto).
Qed.
Lemma ko_opt {A} (o : option A) f : (forall a, ko (f a)) -> ko (opt_do o f).
Proof. intros H. destruct o; [apply H|apply ko_ret]. Qed.
Lemma ko_update_at nm c s a q : ko (update_at nm c s a q).
Proof.
  unfold update_at. apply ko_bind; [apply ko_get|]. intros m. apply ko_bind; [apply ko_lift|]. intros i.
  apply ko_bind; [apply ko_opt; intros; apply ko_modify; auto|]. intros _. apply ko_bind; [apply ko_opt; intros; apply ko_modify; auto|]. intros _.
  apply ko_bind; [apply ko_opt; intros; apply ko_mfor; intros; apply ko_update_attr|]. intros _. apply ko_bind; [apply ko_modify; auto|]. intros _. apply ko_modify; auto.
Qed.
Lemma ko_update ev t n co sc a ts : ko (update_interaction ev t n co sc a ts).
Proof.
  unfold update_interaction. do 2 (apply ko_bind; [apply ko_guard|]; intros _). do 5 (apply ko_bind; [apply ko_lift|]; intros ?).
  apply ko_bind; [apply ko_get|]. intros m0. destruct (n_truthy n).
  - destruct n; try apply ko_raise. apply ko_bind; [apply ko_guard|]. intros _. apply ko_bind; [apply ko_lift|]. intros ?.
    apply ko_bind; [apply ko_guard|]. intros _. apply ko_update_at.
  - destruct a4 as [inf|]; [|apply ko_raise]. destruct (has_name m0 (in_name inf)); [|apply ko_add].
    apply ko_bind; [apply ko_lift|]. intros ?. apply ko_bind; [apply ko_guard|]. intros _. apply ko_update_at.
Qed.
Lemma ko_remove t n : ko (remove_interaction t n).
Proof. intros m m' r E. apply remove_cases in E. destruct E as [(e & _ & ->)|(_ & nm & l1 & x & l2 & _ & _ & _ & _ & ->)]; auto. Qed.
Lemma ko_select l : ko (select_by_variable l).
Proof. apply ko_bind; [intros m m' r E; unfold dataframe in E; destruct (df_ok m); inversion E; subst; auto|]. intros; apply ko_ret. Qed.
Lemma ko_delete t : ko (delete_variable t).
Proof.
  apply ko_bind; [apply ko_guard|]. intros _. destruct t; try apply ko_raise.
  apply ko_bind; [apply ko_modify; auto|]. intros _. apply ko_bind; [apply ko_get|]. intros m.
  apply ko_bind. { apply ko_mfor. intros k m0 m' r E. apply constr_remove_frame in E. destruct E as [cs ->]. auto. }
  intros _. apply ko_bind; [apply ko_select|]. intros sel. apply ko_mfor. intros; apply ko_remove.
Qed.
Lemma ko_purge n : ko (purge_one n).
Proof.
  intros m m' r E. unfold purge_one, bind, get, lift in E. destruct (name_index m n) as [i|e]; [|inversion E; subst; auto].
  destruct (pop_nth i (m_rows m)) as [rows|]; [|inversion E; subst; auto]. destruct (pop_cols i [] (m_cols m)) as [cols [u|e]]; inversion E; subst; auto.
Qed.

(** Every method leaves the offset alone, returning or raising, except
    offset() itself, from_pyqubo (C31, C32), fix_variable (C17), the
    conversions (C19, C20) and to_physical when it raises (C12). *)
Definition sets_offset (ev : env) (evs : nat -> env) (o : op) (m : lmodel) : Prop :=
  match o with
  | OOffset _ | OPyqubo _ | OFix _ _ | OIsing | OQubo => True
  | OPhysical _ => snd (do_op ev evs o m) <> Ok tt
  | _ => False
  end.
Theorem C94_others : forall ev evs o m, ~ sets_offset ev evs o m -> m_offset (fst (do_op ev evs o m)) = m_offset m.
Proof.
  intros ev evs o m HS.
  assert (HK : forall f : LM unit, ko f -> m_offset (fst (f m)) = m_offset m).
  { intros f HF. destruct (f m) as [m' r] eqn:E. simpl. eapply HF; eauto. }
  destruct o; cbn [do_op]; simpl in HS; try tauto.
  - apply HK. intros m0 m' r E. apply variables_frame in E. destruct E as [vs ->]. auto.
  - apply HK. intros m0 m' r E. apply append_frame in E. destruct E as [vs ->]. auto.
  - apply HK, ko_add.
  - apply HK, ko_update.
  - apply HK, ko_remove.
  - apply HK, ko_delete.
  - apply HK. destruct c; [apply ko_modify; auto|apply ko_raise].
  - apply HK. intros m0 m' r E. unfold remove_constraint in E. destruct l; [|inversion E; subst; auto]. destruct (dmem s (m_constrs m0)); inversion E; subst; auto.
  - destruct (to_physical ev evs fd m) as [m' [p|e]] eqn:E; simpl in *; [|exfalso; apply HS; discriminate]. rewrite to_physical_after in E.
    destruct (merge_constrs ev evs 0 (dvals (m_constrs m)) m) as [m1 [u|e]]; [|discriminate].
    unfold after_merge in E. destruct (visited m1); [|discriminate]. destruct (agg_rows _ _ _) as [g|e]; [|discriminate]. destruct (ceval _ _); [|discriminate].
    cbv zeta in E. destruct (mfor (g_remove g) purge_one _) as [m3 [u3|e]] eqn:EP; [|discriminate]. apply (ko_mfor _ _ ko_purge) in EP. inversion E; subst. exact EP.
Qed.
(** The offset of a new model is zero. *)
Theorem C94_initial : forall t, m_offset (new_model t) = CNum 0%Qc.
Proof. reflexivity. Qed.
(** Calls that meet the hypothesis, on a model with interactions, a constraint and an offset. *)
Example C94_hyps : ~ sets_offset env0 evs0 (OPhysical feed0) qubo_model /\ ~ sets_offset env0 evs0 (ODelete (TVar (bin "q" 0))) qubo_model /\
  snd (do_op env0 evs0 (OPhysical feed0) qubo_model) = Ok tt /\ m_constrs qubo_model <> [].
Proof.
  assert (H : snd (do_op env0 evs0 (OPhysical feed0) qubo_model) = Ok tt) by (vm_compute; reflexivity).
  split; [intros HS; apply HS; exact H|]. split; [intros HS; exact HS|]. split; [exact H|]. vm_compute. discriminate.
Qed.
Print Assumptions C94_offset.
Print Assumptions C94_others.
Print Assumptions C94_initial.
