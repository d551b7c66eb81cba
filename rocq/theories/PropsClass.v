(** * PropsClass: C93, the variables a model is made of are of its own type. *)
From Verif Require Import PyBase PyLemmas Constraint LogicalModel Spec LogicalProofs EnergyProofs ConvertProofs ConstraintProofs MergeProofs PhysicalProofs
  ToPhysicalProofs History Samples PropsConvert PropsMerge PropsHistory PropsDeclare.
Open Scope list_scope.

(** ** Statement *)
Definition made_of (vt : vtype) (i : inter) : Prop :=
  match i with I1 v => v_type v = vt | I2 v w => v_type v = vt /\ v_type w = vt end.
(** All declared variables and the variables of all active interactions are
    Spin variables in an Ising model and Binary variables in a QUBO. *)
Definition one_class (m : lmodel) : Prop :=
  (forall n a v, In (n, a) (m_vars m) -> In v (a_bits a) -> v_type v = kind_of (m_mtype m)) /\
  (forall r, In r (m_rows m) -> active r -> made_of (kind_of (m_mtype m)) (r_inter r)).

(** What a caller has to observe: targets are variables of the model's type,
    arrays come from Array.create, fix_variable is not called for a variable
    of a removed interaction, and to_physical does not raise while the model
    has constraints. *)
Definition target_vars (t : target) : list var :=
  match t with
  | TVar v => [v]
  | TTuple l => flat_map (fun e => match e with EVar v => [v] | EOther => [] end) l
  | _ => []
  end.
Definition mentions (l : string) (i : inter) : Prop :=
  match i with I1 v => v_label v = l | I2 v w => v_label v = l \/ v_label w = l end.
Definition suits (ev : env) (evs : nat -> env) (o : op) (m : lmodel) : Prop :=
  match o with
  | OVariables (VArray a) _ => exists n sh, has_char "["%char n = false /\ array_create n sh (kind_of (m_mtype m)) = Ok a
  | OAdd t _ _ _ _ _ | OUpdate t _ _ _ _ _ => forall v, In v (target_vars t) -> v_type v = kind_of (m_mtype m)
  | OFix (TVar v) _ => forall r, In r (m_rows m) -> r_removed r = true -> ~ mentions (v_label v) (r_inter r)
  | OPhysical fd => m_constrs m = [] \/ snd (do_op ev evs o m) = Ok tt
  | _ => True
  end.
Inductive careful : lmodel -> Prop :=
| k_new t : careful (new_model t)
| k_op ev evs o m : careful m -> orderly o m -> suits ev evs o m -> careful (fst (do_op ev evs o m))
| k_merge ev evo k m o : careful m -> careful o -> careful (fst (fst (merge ev evo k m o)))
| k_merged ev evo k m o : careful m -> careful o -> careful (snd (fst (merge ev evo k m o))).

(** ** Proof *)
Definition created (m : lmodel) : Prop :=
  forall n a, In (n, a) (m_vars m) -> exists sh, array_create n sh (vt_of (m_mtype m)) = Ok a.
Definition rows_ok (t : mtype) (l : list row) : Prop := Forall (fun r => r_removed r = false -> made_of (vt_of t) (r_inter r)) l.
Definition cl (m : lmodel) : Prop := created m /\ rows_ok (m_mtype m) (m_rows m).
Lemma create_class n sh vt a v : array_create n sh vt = Ok a -> In v (a_bits a) -> v_type v = vt.
Proof.
  unfold array_create. destruct (has_char "*"%char n); [discriminate|]. destruct sh as [|z sh]; [discriminate|].
  destruct (forallb _ _); [|discriminate]. intros E. inversion E; subst. simpl. rewrite in_map_iff. intros (i & <- & _). reflexivity.
Qed.
Lemma cl_one m : cl m -> one_class m.
Proof.
  intros [H1 H2]. split.
  - intros n a v HI HV. destruct (H1 _ _ HI) as [sh E]. eapply create_class; eauto.
  - intros r HI HA. unfold rows_ok in H2. rewrite Forall_forall in H2. apply H2; auto.
Qed.
Definition kt {A} (t : mtype) (f : LM A) : Prop := forall m m' r, f m = (m', r) -> m_mtype m = t -> cl m -> m_mtype m' = t /\ cl m'.
Lemma kt_use {A} t (f : LM A) m m' r : f m = (m', r) -> kt t f -> m_mtype m = t -> cl m -> m_mtype m' = t /\ cl m'.
Proof. intros E H. apply (H _ _ _ E). Qed.
Lemma kt_ret {A} t (a : A) : kt t (ret a). Proof. intros m m' r E. inversion E; subst; auto. Qed.
Lemma kt_raise {A} t e : kt t (raise e : LM A). Proof. intros m m' r E. inversion E; subst; auto. Qed.
Lemma kt_lift {A} t (x : res A) : kt t (lift x). Proof. intros m m' r E. inversion E; subst; auto. Qed.
Lemma kt_get t : kt t get. Proof. intros m m' r E. inversion E; subst; auto. Qed.
Lemma kt_guard t b e : kt t (guard b e). Proof. destruct b; [apply kt_ret|apply kt_raise]. Qed.
Lemma kt_bind {A B} t (f : LM A) (g : A -> LM B) : kt t f -> (forall a, kt t (g a)) -> kt t (bind f g).
Proof.
  intros HF HG m m' r E HT HM. unfold bind in E. destruct (f m) as [m1 [a|e]] eqn:E1.
  - destruct (HF _ _ _ E1 HT HM). eapply HG; eauto.
  - inversion E; subst. eapply HF; eauto.
Qed.
Lemma kt_mfor {A} t (l : list A) f : (forall a, In a l -> kt t (f a)) -> kt t (mfor l f).
Proof. induction l as [|a l IH]; intros H; simpl; [apply kt_ret|]. apply kt_bind; [apply H; simpl; auto|]. intros _. apply IH. intros b HB. apply H. simpl; auto. Qed.
Lemma kt_modify t f : (forall m, m_mtype m = t -> cl m -> m_mtype (f m) = t /\ cl (f m)) -> kt t (modify f).
Proof. intros H m m' r E HT HM. inversion E; subst. auto. Qed.
(** Anything that leaves type, arrays and interactions alone. *)
Lemma kt_frame {A} t (f : LM A) : (forall m m' r, f m = (m', r) -> m_mtype m' = m_mtype m /\ m_vars m' = m_vars m /\ m_rows m' = m_rows m) -> kt t f.
Proof.
  intros H m m' r E HT [H1 H2]. destruct (H _ _ _ E) as (E1 & E2 & E3). split; [congruence|]. unfold cl, created. rewrite E1, E2, E3. auto.
Qed.
Lemma kt_expand t : kt t expand_attrs.
Proof.
  intros m m' r. unfold expand_attrs. apply (kt_mfor t (m_attrs m)). intros a _. apply kt_frame. intros m0 m1 r0 E.
  destruct (dget a (m_cols m0)) as [c|]; inversion E; subst; auto.
Qed.
Lemma kt_new_attr t kv : kt t (set_new_attr kv).
Proof.
  apply kt_frame. intros m m' r E. unfold set_new_attr in E. cbv zeta in E. set (k := attr_key (fst kv)) in *.
  destruct (dmem k (m_cols m)); (destruct (dget k _); [destruct (set_last _ _)|]; inversion E; subst; auto).
Qed.
Lemma cl_rows l m : rows_ok (m_mtype m) l -> cl m -> cl (with_rows l m).
Proof. intros H [H1 H2]. split; auto. Qed.
Lemma info_made t inf vt : interaction_info t = Ok inf -> (forall v, In v (target_vars t) -> v_type v = vt) -> made_of vt (in_inter inf).
Proof.
  intros E H. destruct t as [|v|l|b]; try discriminate.
  - inversion E; subst. simpl. apply H. simpl; auto.
  - destruct l as [|[x|] [|[y|] [|z l]]]; try discriminate. cbn [interaction_info] in E. destruct (String.eqb _ _); [discriminate|].
    assert (HX : v_type x = vt) by (apply H; simpl; auto). assert (HY : v_type y = vt) by (apply H; simpl; auto).
    destruct (String.ltb _ _); inversion E; subst; simpl; auto.
Qed.
Lemma kt_add t ev tg n co sc a ts : (forall v, In v (target_vars tg) -> v_type v = vt_of t) -> kt t (add_interaction ev tg n co sc a ts).
Proof.
  intros HV. unfold add_interaction. apply kt_bind; [apply kt_guard|]. intros _. cbv zeta.
  do 4 (apply kt_bind; [apply kt_lift|]; intros ?).
  destruct (interaction_info tg) as [inf|e] eqn:EI; [|intros m m' r E; inversion E; subst; auto].
  apply (info_made _ _ (vt_of t)) in EI; auto.
  intros m m' r E. unfold bind at 1, lift at 1 in E. revert m m' r E.
  match goal with |- forall m m' r, ?f m = (m', r) -> _ => change (kt t f) end.
  apply kt_bind; [apply kt_lift|]; intros nm. apply kt_bind; [apply kt_get|]. intros m0.
  apply kt_bind; [apply kt_guard|]. intros _. apply kt_bind.
  { apply kt_modify. intros m HT HC. split; auto. apply cl_rows; auto. apply Forall_app. split; [apply HC|]. repeat constructor. intros _. rewrite HT. exact EI. }
  intros _. apply kt_bind; [apply kt_expand|]. intros _. apply kt_bind; [apply kt_mfor; intros; apply kt_new_attr|]. intros _.
  apply kt_frame. intros m m' r E. inversion E; subst. auto.
Qed.
Lemma rows_upd t i f l : (forall r, r_inter (f r) = r_inter r /\ (r_removed (f r) = false -> r_removed r = false)) -> rows_ok t l -> rows_ok t (upd_nth i f l).
Proof.
  intros HF. revert i. induction l as [|r l IH]; intros i H; [destruct i; auto|]. inversion H; subst. destruct i; simpl; constructor; auto.
  - destruct (HF r) as [E1 E2]. intros HR. rewrite E1. auto.
  - apply IH; auto.
Qed.
Lemma kt_upd t i f : (forall r, r_inter (f r) = r_inter r /\ (r_removed (f r) = false -> r_removed r = false)) -> kt t (upd_row i f).
Proof. intros HF. apply kt_modify. intros m HT HC. split; auto. apply cl_rows; auto. apply rows_upd; auto. apply HC. Qed.
Lemma kt_opt {A} t (o : option A) f : (forall a, kt t (f a)) -> kt t (opt_do o f).
Proof. intros H. destruct o; [apply H|apply kt_ret]. Qed.
Lemma kt_update_attr t i kv : kt t (update_attr i kv).
Proof.
  apply kt_frame. intros m m' r E. unfold update_attr in E. cbv zeta in E. set (k := attr_key (fst kv)) in *.
  destruct (dmem k (m_cols m)); (destruct (dget k _); [destruct (set_nth _ _ _)|]; inversion E; subst; auto).
Qed.
Lemma kt_update_at t nm c s a q : kt t (update_at nm c s a q).
Proof.
  unfold update_at. apply kt_bind; [apply kt_get|]. intros m. apply kt_bind; [apply kt_lift|]. intros i.
  apply kt_bind; [apply kt_opt; intros; apply kt_upd; auto|]. intros _. apply kt_bind; [apply kt_opt; intros; apply kt_upd; auto|]. intros _.
  apply kt_bind; [apply kt_opt; intros; apply kt_mfor; intros; apply kt_update_attr|]. intros _. apply kt_bind; [apply kt_upd; auto|]. intros _. apply kt_upd; auto.
Qed.
Lemma kt_update t ev tg n co sc a ts : (forall v, In v (target_vars tg) -> v_type v = vt_of t) -> kt t (update_interaction ev tg n co sc a ts).
Proof.
  intros HV. unfold update_interaction. do 2 (apply kt_bind; [apply kt_guard|]; intros _). do 5 (apply kt_bind; [apply kt_lift|]; intros ?).
  apply kt_bind; [apply kt_get|]. intros m0. destruct (n_truthy n).
  - destruct n; try apply kt_raise. apply kt_bind; [apply kt_guard|]. intros _. apply kt_bind; [apply kt_lift|]. intros ?.
    apply kt_bind; [apply kt_guard|]. intros _. apply kt_update_at.
  - destruct a4 as [inf|]; [|apply kt_raise]. destruct (has_name m0 (in_name inf)); [|apply kt_add; auto].
    apply kt_bind; [apply kt_lift|]. intros ?. apply kt_bind; [apply kt_guard|]. intros _. apply kt_update_at.
Qed.
Lemma internal_same t n m m' r : internal_name t n m = (m', r) -> m' = m.
Proof. apply internal_name_state. Qed.
Lemma kt_remove t tg n : kt t (remove_interaction tg n).
Proof.
  unfold remove_interaction. apply kt_bind; [apply kt_frame; intros m m' r E; apply internal_same in E; subst; auto|]. intros nm. apply kt_bind; [apply kt_get|]. intros m0.
  apply kt_bind; [apply kt_lift|]. intros i. apply kt_bind; [apply kt_upd; intros r; split; [auto|discriminate]|]. intros _. apply kt_upd; auto.
Qed.
Lemma kt_dataframe t : kt t dataframe.
Proof. apply kt_frame. intros m m' r E. unfold dataframe in E. destruct (df_ok m); inversion E; subst; auto. Qed.
Lemma kt_select t l : kt t (select_by_variable l).
Proof. apply kt_bind; [apply kt_dataframe|]. intros; apply kt_ret. Qed.
Lemma kt_delete t tg : kt t (delete_variable tg).
Proof.
  apply kt_bind; [apply kt_guard|]. intros _. destruct tg; try apply kt_raise.
  apply kt_bind; [apply kt_frame; intros m m' r E; inversion E; subst; auto|]. intros _. apply kt_bind; [apply kt_get|]. intros m.
  apply kt_bind. { apply kt_mfor. intros k _. apply kt_frame. intros m0 m' r E. apply constr_remove_frame in E. destruct E as [cs ->]. auto. }
  intros _. apply kt_bind; [apply kt_select|]. intros sel. apply kt_mfor. intros; apply kt_remove.
Qed.

(** fix_variable: interactions that mention the variable, removed or not, stay of the model's type. *)
Definition near (l : string) (t : mtype) (m : lmodel) : Prop := Forall (fun r => mentions l (r_inter r) -> made_of (vt_of t) (r_inter r)) (m_rows m).
Lemma near_upd l t i f rows : (forall r, r_inter (f r) = r_inter r) -> Forall (fun r => mentions l (r_inter r) -> made_of (vt_of t) (r_inter r)) rows ->
  Forall (fun r => mentions l (r_inter r) -> made_of (vt_of t) (r_inter r)) (upd_nth i f rows).
Proof.
  intros HF. revert i. induction rows as [|r rows IH]; intros i H; [destruct i; auto|]. inversion H; subst. destruct i; simpl; constructor; auto.
  rewrite HF. auto.
Qed.
Lemma near_remove l t n m m' r : remove_interaction TNone (NStr n) m = (m', r) -> near l t m -> near l t m'.
Proof.
  intros E H. apply remove_cases in E. destruct E as [(e & _ & ->)|(_ & nm & l1 & x & l2 & _ & ER & _ & _ & ->)]; auto.
  unfold near in *. rewrite ER in H. simpl. apply Forall_app in H. destruct H as [H1 H2]. inversion H2; subst. apply Forall_app. split; [auto|constructor; auto].
Qed.
Lemma near_add l t ev v n co sc ts m m' r : add_interaction ev (TVar v) n co sc AtNone ts m = (m', r) -> v_type v = vt_of t -> near l t m -> near l t m'.
Proof.
  intros E HV H. apply add_any_core in E. destruct E as [->|(c & s & q & inf & nm & d & AA & E)]; auto.
  apply core_rows in E. change (m_rows m' = m_rows m ++ [new_row nm inf c s q]) in E. unfold near in *. rewrite E. apply Forall_app. split; auto.
  repeat constructor. intros _. destruct AA as [_ _ _ _ HI _ _ _]. apply (info_made _ _ (vt_of t)) in HI; [exact HI|]. intros w [<-|[]]. exact HV.
Qed.
Lemma fix_one_class t ev l q n m m' r : fix_one ev l q n m = (m', r) -> m_mtype m = t -> cl m -> near l t m -> m_mtype m' = t /\ cl m' /\ near l t m'.
Proof.
  intros E HT HC HN. unfold fix_one in E. unfold bind at 1, get at 1 in E. unfold bind at 1, lift at 1 in E.
  destruct (name_index m n) as [i|e]; [|inversion E; subst; auto]. destruct (nth_error (m_rows m) i) as [x|] eqn:EX; [|inversion E; subst; auto].
  apply nth_error_In in EX. destruct (r_key x).
  - unfold bind, modify in E. set (m1 := with_offset _ m) in E. assert (H1 : m_mtype m1 = t) by exact HT. assert (HC1 : cl m1) by exact HC.
    destruct (kt_remove _ _ _ _ _ _ E H1 HC1). split; [auto|]. split; [auto|]. eapply near_remove; eauto.
  - unfold near in HN. assert (HX := proj1 (Forall_forall _ _) HN _ EX). cbv beta in HX. fold (near l t m) in HN.
    unfold bind at 1, lift at 1 in E. destruct (r_inter x) as [v|a b]; [inversion E; subst; auto|].
    assert (HV : forall v, (if String.eqb (v_label a) l then Ok b else if String.eqb (v_label b) l then Ok a else Err UnboundLocalError) = Ok v -> v_type v = vt_of t).
    { intros v. destruct (String.eqb_spec (v_label a) l) as [EA|_]; [|destruct (String.eqb_spec (v_label b) l) as [EB|_]; [|discriminate]];
        intros EV; inversion EV; subst v; apply HX; simpl; auto. }
    destruct (if String.eqb (v_label a) l then Ok b else if String.eqb (v_label b) l then Ok a else Err UnboundLocalError) as [v|e]; [|inversion E; subst; auto].
    specialize (HV v eq_refl). unfold bind in E. destruct (add_interaction _ _ _ _ _ _ _ m) as [m1 [u|e]] eqn:EA.
    + assert (N1 := near_add _ _ _ _ _ _ _ _ _ _ _ EA HV HN). apply (kt_use t) in EA; auto; [|apply kt_add; intros w [<-|[]]; exact HV]. destruct EA as [T1 C1].
      destruct (kt_remove _ _ _ _ _ _ E T1 C1). split; [auto|]. split; [auto|]. eapply near_remove; eauto.
    + inversion E; subst m' r. assert (N1 := near_add _ _ _ _ _ _ _ _ _ _ _ EA HV HN). apply (kt_use t) in EA; auto; [|apply kt_add; intros w [<-|[]]; exact HV]. tauto.
Qed.
Lemma fix_loop_class t ev l q sel : forall m m' r, mfor sel (fix_one ev l q) m = (m', r) -> m_mtype m = t -> cl m -> near l t m -> m_mtype m' = t /\ cl m'.
Proof.
  induction sel as [|n sel IH]; intros m m' r E HT HC HN; cbn [mfor] in E; [inversion E; subst; auto|]. unfold bind in E.
  destruct (fix_one ev l q n m) as [m1 [u|e]] eqn:E1; destruct (fix_one_class t _ _ _ _ _ _ _ E1 HT HC HN) as (T1 & C1 & N1).
  - eapply IH; eauto.
  - inversion E; subst m' r; auto.
Qed.
Lemma fix_class ev v q m m' r : fix_variable ev (TVar v) q m = (m', r) -> cl m ->
  (forall r, In r (m_rows m) -> r_removed r = true -> ~ mentions (v_label v) (r_inter r)) -> m_mtype m' = m_mtype m /\ cl m'.
Proof.
  intros E HC HR. unfold fix_variable in E. unfold bind at 1, guard at 1, ret at 1 in E. cbn [t_truthy] in E.
  unfold bind at 1, get at 1 in E. unfold bind at 1, guard at 1 in E. destruct (legal_value _ _); [|inversion E; subst; auto]. unfold ret at 1 in E.
  unfold bind at 1, modify at 1 in E. set (m1 := with_fixed _ m) in E. unfold bind at 1 in E.
  destruct (select_by_variable (v_label v) m1) as [m2 [sel|e]] eqn:ES.
  - assert (E2 : m2 = m1). { unfold select_by_variable, bind, dataframe, ret in ES. destruct (df_ok m1); inversion ES; auto. } subst m2.
    assert (C1 : cl m1) by exact HC. destruct (Qc_eqb q 0).
    + apply (kt_use (m_mtype m)) in E; auto. apply kt_mfor. intros; apply kt_remove.
    + eapply (fix_loop_class (m_mtype m)); eauto. unfold near. apply Forall_forall. intros x HI HM. destruct (r_removed x) eqn:EX.
      * exfalso. eapply HR; eauto.
      * destruct HC as [_ HC]. unfold rows_ok in HC. rewrite Forall_forall in HC. apply HC; auto.
  - inversion E; subst m' r. apply (kt_use (m_mtype m)) in ES; auto. apply kt_select.
Qed.
Lemma cl_vars vs m : (forall n a, In (n, a) vs -> exists sh, array_create n sh (vt_of (m_mtype m)) = Ok a) -> cl m -> cl (with_vars vs m).
Proof. intros H [_ H2]. split; auto. Qed.
Lemma cl_dset n a sh m : array_create n sh (vt_of (m_mtype m)) = Ok a -> cl m -> cl (with_vars (dset n a (m_vars m)) m).
Proof.
  intros E HC. apply cl_vars; auto. intros k b HI. apply dset_in in HI. destruct HI as [[-> ->]|HI]; eauto. apply HC; auto.
Qed.
Lemma class_variables ev evs n sh m m' r : variables n sh m = (m', r) -> suits ev evs (OVariables n sh) m -> cl m -> m_mtype m' = m_mtype m /\ cl m'.
Proof.
  intros E HS HC. unfold variables in E. destruct n as [nm|a|].
  - destruct (check_shape false sh); [|inversion E; subst; auto]. destruct (array_create _ _ _) eqn:EA; inversion E; subst; auto. split; auto. eapply cl_dset; eauto.
  - destruct HS as (n & d & HB & EA). assert (EA' := EA). unfold array_create in EA. destruct (has_char "*"%char n); [discriminate|]. destruct d as [|z d]; [discriminate|].
    destruct (forallb _ _); [|discriminate]. injection EA as EA.
    destruct (a_bits a) as [|v l] eqn:EB; [inversion E; subst; auto|]. destruct (negb _); [inversion E; subst; auto|].
    assert (HV : In v (a_bits a)) by (rewrite EB; simpl; auto). rewrite <- EA in HV. simpl in HV.
    assert (HL : exists i rest, v_label v = n +++ brackets (i :: rest)).
    { apply in_map_iff in HV. destruct HV as (idx & <- & HI). cbn [map indices] in HI. apply in_flat_map in HI. destruct HI as (i & _ & HI).
      apply in_map_iff in HI. destruct HI as (rest & <- & _). exists i, rest. reflexivity. }
    destruct HL as (i & rest & HL). cbn [brackets] in HL. change ("[" +++ str_of_nat i +++ "]" +++ brackets rest) with (String "["%char (str_of_nat i +++ "]" +++ brackets rest)) in HL.
    rewrite HL, before_char_app in E by auto. inversion E; subst m' r. split; auto. eapply cl_dset; eauto.
  - inversion E; subst; auto.
Qed.
Lemma class_append n sh : forall t, kt t (append n sh).
Proof.
  intros t m m' r E HT HC. unfold append in E. destruct n as [nm|a|]; try (inversion E; subst; auto; fail).
  destruct (check_shape true sh); [|inversion E; subst; auto]. destruct (dget nm (m_vars m)).
  - destruct (array_create _ _ _) eqn:EA; inversion E; subst; auto. split; auto. eapply cl_dset; eauto.
  - apply (class_variables env0 evs0) in E; simpl; auto. destruct E. split; congruence.
Qed.

Lemma pyqubo_class ev pq m m' pq' r : from_pyqubo ev m pq = (m', pq', r) -> cl m -> m_mtype m' = m_mtype m /\ cl m'.
Proof.
  assert (HV : forall m l v, pq_lookup m pq l = Ok v -> cl m -> v_type v = vt_of (m_mtype m)).
  { intros m0 l v E HC. apply cl_one in HC. destruct HC as [HC _]. unfold pq_lookup in E. destruct (dget l (pq_struct pq)) as [[nm idx]|]; [|discriminate].
    destruct (dget nm (m_vars m0)) as [a|] eqn:EG; [|discriminate]. apply dget_in in EG. unfold array_get in E. destruct (flat_pos _ _); [|discriminate].
    destruct (nth_error (a_bits a) n) eqn:EN; [|discriminate]. inversion E; subst. apply nth_error_In in EN. eauto. }
  assert (HS : forall m x m1 c1 r1, pq_step ev m pq x = (m1, c1, r1) -> cl m -> m_mtype m1 = m_mtype m /\ cl m1).
  { intros m0 [[k0 k1] c] m1 c1 r1. unfold pq_step. destruct (pq_lookup m0 pq k0) as [t0|] eqn:E0; [|intros E; inversion E; subst; auto].
    destruct (pq_lookup m0 pq k1) as [t1|] eqn:E1; [|intros E; inversion E; subst; auto]. destruct (add_interaction _ _ _ _ _ _ _ m0) as [m2 r2] eqn:E2.
    intros E HC; inversion E; subst. apply (kt_use (m_mtype m0)) in E2; auto.
    apply kt_add. intros v HI. destruct (String.eqb k0 k1); simpl in HI; repeat destruct HI as [<-|HI]; try contradiction; eauto. }
  assert (HL : forall l m m1 l1 r1, pq_loop ev m pq l = (m1, l1, r1) -> cl m -> m_mtype m1 = m_mtype m /\ cl m1).
  { induction l as [|[k c] l IH]; intros m0 m1 l1 r1 E HM; cbn [pq_loop] in E; [inversion E; subst; auto|].
    destruct (pq_step ev m0 pq (k, c)) as [[m2 c2] [u|e]] eqn:E2.
    - destruct (pq_loop ev m2 pq l) as [[m3 l3] r3] eqn:E3. inversion E; subst. apply HS in E2; auto. destruct E2 as [T2 C2].
      destruct (IH _ _ _ _ E3 C2). split; congruence.
    - inversion E; subst. eapply HS; eauto. }
  unfold from_pyqubo. destruct (pq_loop ev m pq (pq_terms pq)) as [[m1 l1] [u|e]] eqn:E1; intros E; inversion E; subst; intros HA; apply HL in E1; auto.
Qed.

(** Conversion. *)
Lemma recreate_created vt vt' todo : forall done, (forall n a, In (n, a) todo -> exists sh, array_create n sh vt = Ok a) ->
  exists vs, recreate vt' done todo = (done ++ vs, Ok tt) /\ forall n a, In (n, a) vs -> exists sh, array_create n sh vt' = Ok a.
Proof.
  induction todo as [|[n a] todo IH]; intros done H; cbn [recreate].
  - exists []. rewrite app_nil_r. split; auto. intros n a [].
  - destruct (H n a) as [sh E]; [simpl; auto|].
    assert (EC : exists a', array_create n (a_shape a) vt' = Ok a').
    { unfold array_create in *. destruct (has_char "*"%char n); [discriminate|]. destruct sh as [|z sh]; [discriminate|].
      destruct (forallb _ (z :: sh)) eqn:EF; [|discriminate]. inversion E; subst a. cbn [a_shape]. rewrite EF. eauto. }
    destruct EC as [a' EC]. rewrite EC. destruct (IH (done ++ [(n, a')])) as (vs & E1 & H1); [intros k b HI; apply H; simpl; auto|].
    exists ((n, a') :: vs). split; [rewrite E1, <- app_assoc; reflexivity|]. intros k b [[= <- <-]|HI]; eauto.
Qed.
Lemma aligned_df m : aligned m -> df_ok m = true.
Proof.
  intros (H1 & H2 & H3 & H4). unfold df_ok. apply forallb_forall. intros x HI. apply Nat.eqb_eq. rewrite Forall_forall in H4. rewrite (H4 _ HI). auto.
Qed.
Lemma retype_made t i : made_of (vt_of t) (retype_inter t i).
Proof. destruct i; simpl; auto. Qed.
Lemma kt_convert_rest ev t ha hb ja jb jc : kt t (h_df <- dataframe ;; mfor (filter body1_active h_df) (conv_h ev ha hb) ;;;
    (j_df <- dataframe ;; conv_Js ev ja jb jc 0 (filter body2_active j_df)))%py.
Proof.
  apply kt_bind; [apply kt_dataframe|]. intros h. apply kt_bind.
  { apply kt_mfor. intros r _. unfold conv_h. apply kt_bind; [apply kt_update; intros v []|]. intros _. apply kt_frame. intros m m' x E. inversion E; subst; auto. }
  intros _ m m' r E HT HC. unfold bind, dataframe in E. destruct (df_ok m); [|inversion E; subst; auto].
  assert (HR : Forall (fun r => body2_active r = true -> made_of (vt_of t) (r_inter r)) (m_rows m)).
  { destruct HC as [_ HC]. rewrite HT in HC. eapply Forall_impl; [|exact HC]. intros x Hx HB. apply Hx. unfold body2_active in HB. destruct (r_removed x); [discriminate|auto]. }
  assert (HL : Forall (fun r => made_of (vt_of t) (r_inter r)) (filter body2_active (m_rows m))).
  { apply Forall_forall. intros x HI. apply filter_In in HI. destruct HI as [HI HB]. rewrite Forall_forall in HR. auto. }
  clear HR. revert E HT HC. change (conv_Js ev ja jb jc 0 (filter body2_active (m_rows m)) m = (m', r) -> m_mtype m = t -> cl m -> m_mtype m' = t /\ cl m').
  revert m m' r HL. assert (HK : forall l k, Forall (fun r => made_of (vt_of t) (r_inter r)) l -> kt t (conv_Js ev ja jb jc k l)).
  { induction l as [|x l IH]; intros k HL; cbn [conv_Js]; [apply kt_ret|]. inversion HL; subst. apply kt_bind; [|intros _; apply IH; auto].
    unfold conv_J. apply kt_bind; [apply kt_update; intros v []|]. intros _. destruct (r_inter x) as [v|v w], (r_key x); try apply kt_raise.
    simpl in H1. destruct H1. do 2 (apply kt_bind; [apply kt_add; intros z [<-|[]]; auto|]; intros _). apply kt_frame. intros m m' r E. inversion E; subst; auto. }
  intros m m' r HL E. apply (HK _ _ HL _ _ _ E).
Qed.
Lemma convert_class ev t ha hb ja jb jc m m' r : convert ev t ha hb ja jb jc m = (m', r) -> aligned m -> cl m -> m_mtype m' = t /\ cl m'.
Proof.
  intros E HA HC. unfold convert in E. unfold bind at 1, get at 1 in E. destruct (mtype_eqb (m_mtype m) t) eqn:ET.
  - inversion E; subst. split; auto. destruct (m_mtype m'), t; auto; discriminate.
  - unfold bind at 1, modify at 1 in E. set (m1 := with_mtype t m) in E. unfold bind at 1 in E.
    destruct HC as [H1 H2]. destruct (recreate_created _ (vt_of t) _ [] H1) as (vs & EV & HV). cbn [app] in EV.
    assert (ED : df_ok (with_vars vs m1) = true) by exact (aligned_df m HA).
    assert (EU : update_variables_type m1 = (with_rows (map (fun r => if r_removed r then r else set_inter (retype_inter t (r_inter r)) r) (m_rows m)) (with_vars vs m1), Ok tt)).
    { unfold update_variables_type. change (m_vars m1) with (m_vars m). change (m_mtype m1) with t. rewrite EV. cbv zeta. rewrite ED. reflexivity. }
    rewrite EU in E. apply (kt_use t) in E; auto; [apply kt_convert_rest|]. split; [exact HV|].
    cbn [m_rows with_rows]. apply Forall_forall. intros x HI. apply in_map_iff in HI. destruct HI as (y & <- & HI). destruct (r_removed y) eqn:EY; [congruence|].
    intros _. apply retype_made.
Qed.
Lemma convert_mtype_class ev m m' r : convert_mtype ev m = (m', r) -> aligned m -> cl m -> m_mtype m' <> m_mtype m /\ cl m'.
Proof.
  unfold convert_mtype, bind, get. intros E HA HC. destruct (m_mtype m) eqn:ET; unfold to_ising, to_qubo in E; apply convert_class in E; auto; destruct E as [-> E]; split; auto; discriminate.
Qed.

(** merge. *)
Lemma kt_merge_var t kv : (exists sh, array_create (fst kv) sh (vt_of t) = Ok (snd kv)) -> kt t (merge_var kv).
Proof.
  intros [sh EA] m m' r E HT HC. unfold merge_var in E. destruct (dget (fst kv) (m_vars m)).
  - revert E HT HC. apply class_append.
  - inversion E; subst. split; auto. eapply cl_dset; eauto.
Qed.
Lemma rename_ok t dup a b len l : forall i, rows_ok t l -> rows_ok t (rename_rows dup a b len i l).
Proof.
  induction l as [|r l IH]; intros i H; simpl; [constructor|]. inversion H; subst. constructor; [|apply IH; auto].
  destruct (mem (r_name r) dup); auto.
Qed.
Lemma kt_merge_same t ev k o : m_mtype o = t -> cl o -> kt t (merge_same ev k o).
Proof.
  intros HTO HO. unfold merge_same. apply kt_bind; [apply kt_get|]. intros m0. apply kt_bind; [apply kt_guard|]. intros _.
  apply kt_bind. { apply kt_mfor. intros [n a] HI. apply kt_merge_var. simpl. rewrite <- HTO. apply HO; auto. }
  intros _ m m' r E HT HC. unfold bind at 1, get in E. destruct (merge_cols m o (merge_attrs_list m o)) as [cols|]; [|inversion E; subst; auto].
  unfold bind at 1, modify at 1 in E. set (m1 := with_len _ _) in E.
  assert (C1 : cl m1). { destruct HC as [H1 H2], HO as [H3 H4]. split; [exact H1|]. apply rename_ok. apply Forall_app. split; auto. change (rows_ok (m_mtype m) (m_rows o)). rewrite HT, <- HTO. exact H4. }
  assert (T1 : m_mtype m1 = t) by exact HT. clearbody m1. apply (kt_use t) in E; auto. apply kt_bind; [apply kt_guard|]. intros _.
  apply kt_frame. intros x x' y EX. inversion EX; subst; auto.
Qed.
Lemma merge_class ev evo k m o m' o' r : merge ev evo k m o = (m', o', r) -> aligned o -> cl m -> cl o -> cl m' /\ cl o'.
Proof.
  intros E HA HM HO. unfold merge in E. destruct (mtype_eqb (m_mtype m) (m_mtype o)) eqn:ET.
  - destruct (merge_same ev k o m) as [m1 r1] eqn:E1. inversion E; subst. assert (EQ : m_mtype o' = m_mtype m) by (destruct (m_mtype m), (m_mtype o'); auto; discriminate).
    apply (kt_use (m_mtype m)) in E1; auto; [tauto|]. apply kt_merge_same; auto.
  - destruct (convert_mtype evo o) as [o1 [u|e]] eqn:EC; apply convert_mtype_class in EC; auto; destruct EC as [T1 C1].
    + destruct (merge_same ev k o1 m) as [m1 r1] eqn:E1. inversion E; subst. assert (EQ : m_mtype o' = m_mtype m) by (destruct (m_mtype m), (m_mtype o), (m_mtype o'); auto; congruence || discriminate).
      apply (kt_use (m_mtype m)) in E1; auto; [tauto|]. apply kt_merge_same; auto.
    + inversion E; subst. auto.
Qed.

(** to_physical. *)
Lemma pop_sub {A} (P : A -> Prop) l : forall i l', pop_nth i l = Some l' -> Forall P l -> Forall P l'.
Proof.
  induction l as [|x l IH]; intros i l' E H; [destruct i; discriminate|]. inversion H; subst. destruct i; cbn [pop_nth] in E; [inversion E; subst; auto|].
  destruct (pop_nth i l) as [l1|] eqn:E1; inversion E; subst. constructor; eauto.
Qed.
Lemma kt_purge t n : kt t (purge_one n).
Proof.
  intros m m' r E HT HC. unfold purge_one, bind, get, lift in E. destruct (name_index m n) as [i|e]; [|inversion E; subst; auto].
  destruct (pop_nth i (m_rows m)) as [rows|] eqn:EP; [|inversion E; subst; auto]. destruct HC as [H1 H2].
  destruct (pop_cols i [] (m_cols m)) as [cols [u|e]]; inversion E; subst; (split; [reflexivity|]); (split; [exact H1|]); simpl; eapply pop_sub; eauto.
Qed.
Lemma physical_class ev evs fd m m' r : to_physical ev evs fd m = (m', r) -> aligned m -> cl m -> (m_constrs m = [] \/ exists p, r = Ok p) -> cl m'.
Proof.
  rewrite to_physical_after. intros E HA HC HS.
  destruct (merge_constrs ev evs 0 (dvals (m_constrs m)) m) as [m1 [u|e]] eqn:EM.
  2:{ inversion E; subst. destruct HS as [HS|[p HS]]; [|discriminate]. rewrite HS in EM. discriminate. }
  assert (HF : frame m1 = frame m).
  { apply merge_constrs_ok in EM; [|apply HA]. destruct EM as (cms & _ & HM). apply (mg_frame _ _ _ HM). }
  assert (HT1 : m_mtype m1 = m_mtype m) by (apply (f_equal (fun z => fst (fst (fst (fst (fst z)))))) in HF; exact HF).
  assert (HV1 : m_vars m1 = m_vars m) by (apply (f_equal (fun z => snd (fst (fst (fst (fst z)))))) in HF; exact HF).
  assert (HM1 : m_constrs m = [] -> cl m1). { intros H0. rewrite H0 in EM. inversion EM; subst; auto. }
  assert (HE : forall e, r = Err e -> cl m1). { intros e ->. destruct HS as [HS|[p HS]]; [auto|discriminate]. }
  unfold after_merge in E. destruct (visited m1) as [rows|e]; [|inversion E; subst; eauto].
  destruct (agg_rows _ _ _) as [g|e]; [|inversion E; subst; eauto]. destruct (ceval _ _); [|inversion E; subst; eauto].
  match type of E with (let p := ?p in let m2 := ?m2 in _) = _ => idtac | _ => idtac end.
  cbv zeta in E. set (m2 := mkModel (m_mtype m1) _ _ _ _ _ _ _ _ _ _) in E.
  assert (C2 : cl m2). { destruct HC as [H1 H2]. split; [unfold created, m2; simpl; rewrite HT1, HV1; exact H1|]. unfold m2; simpl. rewrite HT1. exact H2. }
  destruct (mfor (g_remove g) purge_one m2) as [m3 [u3|e]] eqn:EP; (assert (C3 : cl m3) by (apply (kt_use (m_mtype m2)) in EP; auto; [tauto|]; apply kt_mfor; intros; apply kt_purge)).
  - inversion E; subst. apply cl_rows; auto. destruct C3 as [_ C3]. unfold clear_dirty. apply Forall_app.
    rewrite <- (firstn_skipn (m_len m3) (m_rows m3)) in C3. apply Forall_app in C3. destruct C3 as [C3 C4]. split; auto.
    apply Forall_map. eapply Forall_impl; [|exact C3]. auto.
  - inversion E; subst. auto.
Qed.

Lemma careful_tidy m : careful m -> tidy m.
Proof. induction 1; [constructor|constructor; auto|constructor; auto|constructor; auto]. Qed.
Lemma do_class ev evs o m : aligned m -> cl m -> suits ev evs o m -> cl (fst (do_op ev evs o m)).
Proof.
  intros HA HC HS.
  assert (HK : forall f : LM unit, kt (m_mtype m) f -> cl (fst (f m))).
  { intros f HF. destruct (f m) as [m' r] eqn:E. simpl. eapply HF; eauto. }
  destruct o; cbn [do_op].
  - destruct (variables n sh m) as [m' r] eqn:E. eapply class_variables; eauto.
  - apply HK, class_append.
  - apply HK, kt_add, HS.
  - apply HK, kt_update, HS.
  - apply HK, kt_remove.
  - apply HK, kt_delete.
  - destruct (fix_variable ev t v m) as [m' r] eqn:E. destruct t; try (inversion E; subst; exact HC); try (destruct truthy; inversion E; subst; exact HC).
    + eapply fix_class; eauto.
    + destruct l; inversion E; subst; exact HC.
  - apply HK. destruct c; [apply kt_frame; intros m0 m' r E; inversion E; subst; auto|apply kt_raise].
  - apply HK. apply kt_frame. intros m0 m' r E. unfold remove_constraint in E. destruct l; [|inversion E; subst; auto]. destruct (dmem s (m_constrs m0)); inversion E; subst; auto.
  - exact HC.
  - destruct (from_pyqubo ev m pq) as [[m' pq'] r] eqn:E. simpl. eapply pyqubo_class; eauto.
  - destruct (to_ising ev m) as [m' r] eqn:E. unfold to_ising in E. eapply convert_class; eauto.
  - destruct (to_qubo ev m) as [m' r] eqn:E. unfold to_qubo in E. eapply convert_class; eauto.
  - simpl in HS. destruct (to_physical ev evs fd m) as [m' [p|e]] eqn:E; simpl in *; eapply physical_class; eauto. destruct HS as [HS|HS]; [auto|discriminate].
Qed.
Lemma careful_cl m : careful m -> cl m.
Proof.
  induction 1.
  - split; [intros n a []|constructor].
  - apply do_class; auto. apply C63_aligned_partial, careful_tidy; auto.
  - destruct (merge ev evo k m o) as [[m' o'] r] eqn:E. apply merge_class in E; auto; [tauto|apply C63_aligned_partial, careful_tidy; auto].
  - destruct (merge ev evo k m o) as [[m' o'] r] eqn:E. apply merge_class in E; auto; [tauto|apply C63_aligned_partial, careful_tidy; auto].
Qed.
Theorem C93_class_partial : forall m, careful m -> one_class m.
Proof. intros m H. apply cl_one, careful_cl, H. Qed.

(** The conversion itself, whether or not it raises half-way. *)
Theorem C93_conversion : forall ev m, careful m ->
  (forall m' r, to_ising ev m = (m', r) -> m_mtype m' = Ising /\ one_class m') /\
  (forall m' r, to_qubo ev m = (m', r) -> m_mtype m' = Qubo /\ one_class m').
Proof.
  intros ev m H. assert (HA := C63_aligned_partial _ (careful_tidy _ H)). assert (HC := careful_cl _ H).
  split; intros m' r E; unfold to_ising, to_qubo in E; apply convert_class in E; auto; destruct E as [HT E]; split; auto; apply cl_one; auto.
Qed.
(** The code does not keep it: fix_variable brings back a removed interaction
    (C18), and its variables still are those of the type the model had. Every
    target of this history is a variable of the model's type at the time. *)
Definition stale_ops : list op :=
  [OVariables (VName "x") (ShTuple [ShInt 2]);
   OAdd (TTuple [EVar (bin "x" 0); EVar (bin "x" 1)]) (NStr "") (num 1) (num 1) AtNone TsNone;
   ORemove (TTuple [EVar (bin "x" 0); EVar (bin "x" 1)]) (NStr ""); OIsing; OFix (TVar (spn "x" 0)) 1%Qc].
Theorem C93_refuted : exists m, history m /\ ~ one_class m /\ m_mtype m = Ising /\
  exists r, In r (m_rows m) /\ active r /\ r_inter r = I1 (bin "x" 1).
Proof.
  exists (run_ops stale_ops (new_model Qubo)). split; [apply run_history; constructor|].
  assert (HI : exists r, nth_error (m_rows (run_ops stale_ops (new_model Qubo))) 1 = Some r /\ r_removed r = false /\ r_inter r = I1 (bin "x" 1)).
  { eexists. split; [vm_compute; reflexivity|]. split; reflexivity. }
  destruct HI as (r & HI & HA & HR). apply nth_error_In in HI.
  assert (HT : m_mtype (run_ops stale_ops (new_model Qubo)) = Ising) by (vm_compute; reflexivity).
  split; [|split; [exact HT|exists r; auto]]. intros [_ H]. specialize (H _ HI HA). rewrite HR, HT in H. discriminate.
Qed.
(** Nor does add_interaction look at the type of its target. *)
Theorem C93_any_target : exists m, history m /\ ~ one_class m.
Proof.
  pose (os := [OAdd (TVar (bin "x" 0)) (NStr "") (num 1) (num 1) AtNone TsNone]).
  exists (run_ops os (new_model Ising)). split; [apply run_history; constructor|]. intros [_ H].
  specialize (H (mkRow "x[0]" (K1 "x[0]") (I1 (bin "x" 0)) (CNum (qz 1)) (CNum (qz 1)) (Some (e_now env0)) true false) (or_introl eq_refl) eq_refl). discriminate.
Qed.

(** A careful history: a declared and a given array, pairs, an update, a
    removed interaction, a constraint, to_physical, both conversions, fixing. *)
Definition given_array : array := match array_create "y" [2%Z] Binary with Ok a => a | _ => mkArray [] [] end.
Definition careful_ops : list op :=
  [OVariables (VName "x") (ShTuple [ShInt 3]); OVariables (VArray given_array) ShBad;
   OAdd (TTuple [EVar (bin "x" 0); EVar (bin "y" 1)]) (NStr "") (num 4) (num 1) AtNone TsNone;
   OAdd (TVar (bin "x" 2)) (NStr "h") (num 3) (num 1) AtNone TsNone;
   OUpdate (TVar (bin "x" 1)) (NStr "") (Some (num 2)) None AtNone TsNone;
   OAddConstraint (Some (ZeroOrOne [bin "x" 1; bin "x" 2] "one" (qz 10)));
   OPhysical []; ORemoveConstraint (Some "one"%string); OIsing;
   ORemove TNone (NStr "h"); OFix (TVar (spn "x" 0)) 1%Qc; OQubo].
Fixpoint carefully (os : list op) (m : lmodel) : Prop :=
  match os with [] => True | o :: r => orderly o m /\ suits env0 evs0 o m /\ carefully r (fst (do_op env0 evs0 o m)) end.
Lemma carefully_ok os : forall m, careful m -> carefully os m -> careful (run_ops os m).
Proof. induction os as [|o os IH]; intros m H HC; simpl; auto. destruct HC as (H1 & H2 & H3). apply IH; auto. apply k_op; auto. Qed.
Example C93_hyps : careful (run_ops careful_ops (new_model Qubo)) /\
  map r_inter (filter (fun r => negb (r_removed r)) (m_rows (run_ops careful_ops (new_model Qubo)))) =
    [I1 (bin "x" 1); I1 (bin "y" 1); I1 (bin "y" 1)].
Proof.
  split; [|vm_compute; reflexivity]. apply carefully_ok; [constructor|]. unfold careful_ops.
  assert (HT : forall (t : target) m vt, vt_of (m_mtype m) = vt -> Forall (fun v => v_type v = vt) (target_vars t) -> forall v, In v (target_vars t) -> v_type v = vt_of (m_mtype m)).
  { intros t m vt <- H v HI. rewrite Forall_forall in H. auto. }
  cbn [carefully orderly suits attrs_of dkeys map].
  split; [exact I|]. split; [exact I|].
  split; [exact I|]. split. { exists "y"%string, [2%Z]. split; vm_compute; reflexivity. }
  split; [constructor|]. split. { apply HT with Binary; [vm_compute; reflexivity|repeat constructor]. }
  split; [constructor|]. split. { apply HT with Binary; [vm_compute; reflexivity|repeat constructor]. }
  split; [split; [constructor|intros k []]|]. split. { apply HT with Binary; [vm_compute; reflexivity|repeat constructor]. }
  split; [exact I|]. split; [exact I|].
  split; [exact I|]. split. { right. vm_compute. reflexivity. }
  split; [exact I|]. split; [exact I|]. split; [exact I|]. split; [exact I|]. split; [exact I|]. split; [exact I|].
  split; [exact I|]. split; [|split; [exact I|split; [exact I|exact I]]].
  match goal with |- forall r, In r (m_rows ?x) -> _ => assert (HF : forall r, In r (m_rows x) -> r_removed r = true -> r_inter r = I1 (spn "x" 2) \/ r_inter r = I1 (bin "x" 2)) end.
  { intros r HI HR. apply (in_map (fun r => (r_removed r, r_inter r))) in HI. rewrite HR in HI. revert HI.
    match goal with |- In _ (map ?f ?l) -> _ => let v := eval vm_compute in (map f l) in assert (EV : map f l = v) by (vm_compute; reflexivity); rewrite EV; clear EV end.
    simpl. intros HI. repeat (destruct HI as [HI|HI]; [try discriminate; injection HI as <-; auto|]). contradiction. }
  intros r HI HR HM. destruct (HF r HI HR) as [E|E]; rewrite E in HM; discriminate.
Qed.
Print Assumptions C93_class_partial.
Print Assumptions C93_conversion.
Print Assumptions C93_refuted.
Print Assumptions C93_any_target.
