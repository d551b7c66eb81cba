(** * PropsRagged: C36, C63 - exactly what a new attribute passed to update_interaction does to the model. *)
From Verif Require Import PyBase PyLemmas Constraint LogicalModel Spec LogicalProofs EnergyProofs ConvertProofs ConstraintProofs MergeProofs PhysicalProofs
  ToPhysicalProofs InteractionProofs History Samples PropsPhysical PropsInteractions PropsState PropsMerge PropsHistory Select.
Open Scope list_scope.

(** ** Specification *)

(** The table has a column for attribute [k] that the model does not know of,
    and it has [n] entries. *)
Definition stray (k : string) (n : nat) (m : lmodel) : Prop :=
  ~ In k (m_attrs m) /\ exists c, dget k (m_cols m) = Some c /\ length c = n.
(** ... and fewer entries than there are interactions. *)
Definition ragged (k : string) (m : lmodel) : Prop := exists n, stray k n m /\ n < length (m_rows m).
(** The call is an accepted update of an existing interaction that sets an
    attribute the model does not know of. *)
Definition introduces (ev : env) (o : op) (m : lmodel) : Prop :=
  match o with
  | OUpdate t n co sc (AtDict d) ts =>
      snd (update_interaction ev t n co sc (AtDict d) ts m) = Ok tt /\
      (exists nm, refers t n nm /\ In nm (names m)) /\
      exists k, In k (dkeys d) /\ ~ In ("attributes." +++ k)%string (m_attrs m)
  | _ => False
  end.
(** Attribute dictionaries are Python dictionaries. *)
Definition dicts_ok (o : op) : Prop :=
  match o with OAdd _ _ _ _ a _ | OUpdate _ _ _ _ a _ => attrs_wf a | _ => True end.
(** What can be made of a model by calls other than to_physical, whether they
    return or raise, and by merging it into other models. *)
Inductive later (m : lmodel) : lmodel -> Prop :=
| later_now : later m m
| later_op ev evs o m1 : later m m1 -> (forall fd, o <> OPhysical fd) -> later m (fst (do_op ev evs o m1))
| later_merged ev evo k x m1 : later m m1 -> later m (snd (fst (merge ev evo k x m1))).

(** ** A stray column is never extended *)
Section Held.
  Variables (K : string) (L R : nat).
  Definition held (m : lmodel) : Prop := stray K L m /\ R <= length (m_rows m).
  Definition keeps_h {A} (f : LM A) : Prop := forall m m' r, f m = (m', r) -> held m -> held m'.
  Lemma held_frame m m' : m_cols m' = m_cols m -> m_attrs m' = m_attrs m -> length (m_rows m') = length (m_rows m) -> held m -> held m'.
  Proof. intros A B C [[D E] F]. split; [split|]; rewrite ?A, ?B, ?C; auto. Qed.
  Lemma kh_ret {A} (a : A) : keeps_h (ret a). Proof. intros m m' r E. inversion E; subst; auto. Qed.
  Lemma kh_raise {A} e : keeps_h (raise e : LM A). Proof. intros m m' r E. inversion E; subst; auto. Qed.
  Lemma kh_lift {A} (x : res A) : keeps_h (lift x). Proof. intros m m' r E. inversion E; subst; auto. Qed.
  Lemma kh_get : keeps_h get. Proof. intros m m' r E. inversion E; subst; auto. Qed.
  Lemma kh_guard b e : keeps_h (guard b e).
  Proof. destruct b; [apply kh_ret|apply kh_raise]. Qed.
  Lemma kh_bind {A B} (f : LM A) (g : A -> LM B) : keeps_h f -> (forall a, keeps_h (g a)) -> keeps_h (bind f g).
  Proof.
    intros HF HG m m' r E HM. unfold bind in E. destruct (f m) as [m1 [a|e]] eqn:E1.
    - eapply HG; eauto.
    - inversion E; subst. eapply HF; eauto.
  Qed.
  Lemma kh_mfor {A} (l : list A) f : (forall a, In a l -> keeps_h (f a)) -> keeps_h (mfor l f).
  Proof. intros H. induction l as [|a l IH]; simpl; [apply kh_ret|]. apply kh_bind; [apply H; simpl; auto|]. intros _. apply IH. intros; apply H; simpl; auto. Qed.
  Lemma kh_modify f : (forall m, m_cols (f m) = m_cols m /\ m_attrs (f m) = m_attrs m /\ length (m_rows (f m)) = length (m_rows m)) -> keeps_h (modify f).
  Proof. intros H m m' r E HM. inversion E; subst. destruct (H m) as (A & B & C). eapply held_frame; eauto. Qed.
  Lemma upd_nth_length {A} i (f : A -> A) l : length (upd_nth i f l) = length l.
  Proof. revert i; induction l as [|a l IH]; intros [|i]; simpl; auto. Qed.
  Lemma kh_upd_row i f : keeps_h (upd_row i f).
  Proof. apply kh_modify. intros m. simpl. rewrite upd_nth_length. auto. Qed.
  Lemma held_col k c m : held m -> (k = K -> length c = L) -> held (with_cols (dset k c (m_cols m)) m).
  Proof.
    intros [[A (c0 & B & C)] D] HC. split; [split; [exact A|]|exact D]. cbn [m_cols with_cols].
    destruct (string_dec K k) as [<-|NE].
    - exists c. rewrite dget_dset_same. split; auto.
    - exists c0. rewrite dget_dset_other by auto. auto.
  Qed.
  Lemma kh_expand : keeps_h expand_attrs.
  Proof.
    intros m m' r E HM. unfold expand_attrs in E. assert (HN : forall a, In a (m_attrs m) -> a <> K) by (intros a HI ->; apply (proj1 HM) in HI; auto).
    revert E HM. generalize m at 2 3 as m0. intros m0. revert m0 m' r. change (keeps_h (mfor (m_attrs m) (fun a m1 =>
      match dget a (m_cols m1) with None => (m1, Err KeyError) | Some col => (with_cols (dset a (col ++ [ANan]) (m_cols m1)) m1, Ok tt) end))).
    apply kh_mfor. intros a HI m1 m2 r E HM. destruct (dget a (m_cols m1)) as [c|]; inversion E; subst; auto.
    apply held_col; auto. intros ->. exfalso. eapply HN; eauto.
  Qed.
  Lemma set_last_length {A} (v : A) l l' : set_last v l = Some l' -> length l' = length l.
  Proof.
    destruct l as [|a l]; [discriminate|]. unfold set_last. intros E. assert (El : l' = removelast (a :: l) ++ [v]) by congruence.
    rewrite El, app_length. rewrite (removelast_length (a :: l)). cbn [length Nat.pred]. lia.
  Qed.
  Lemma held_new_attr k m : held m -> dmem k (m_cols m) = false ->
    held (with_attrs (m_attrs m ++ [k]) (with_cols (dset k (repeat ANan (S (m_len m))) (m_cols m)) m)).
  Proof.
    intros HM EM. assert (NE : k <> K).
    { intros ->. apply dmem_nin in EM. apply EM. destruct HM as [[_ (c & E & _)] _]. apply dget_some_in. eauto. }
    assert (H1 := held_col k (repeat ANan (S (m_len m))) m HM (fun E => False_ind _ (NE E))).
    destruct H1 as [[A B] C]. split; [split|]; auto. cbn [m_attrs with_attrs]. rewrite in_app_iff. intros [HI|[->|[]]]; auto.
  Qed.
  Lemma kh_new_attr kv : keeps_h (set_new_attr kv).
  Proof.
    intros m m' r E HM. unfold set_new_attr in E. cbv zeta in E. set (k := attr_key (fst kv)) in *.
    set (m1 := if dmem k (m_cols m) then m else _) in E.
    assert (H1 : held m1) by (unfold m1; destruct (dmem k (m_cols m)) eqn:EM; [exact HM|apply held_new_attr; auto]).
    destruct (dget k (m_cols m1)) as [c|] eqn:EC; [|inversion E; subst; auto].
    destruct (set_last (snd kv) c) as [c'|] eqn:ES; inversion E; subst; auto. apply held_col; auto. intros EK.
    apply set_last_length in ES. destruct H1 as [[_ (c0 & E0 & L0)] _]. rewrite <- EK, EC in E0. congruence.
  Qed.
  Lemma kh_update_attr i kv : keeps_h (update_attr i kv).
  Proof.
    intros m m' r E HM. unfold update_attr in E. cbv zeta in E. set (k := attr_key (fst kv)) in *.
    set (m1 := if dmem k (m_cols m) then m else _) in E.
    assert (H1 : held m1).
    { unfold m1. destruct (dmem k (m_cols m)) eqn:EM; [exact HM|]. apply held_col; auto. intros ->. exfalso.
      apply dmem_nin in EM. apply EM. destruct HM as [[_ (c & Ec & _)] _]. apply dget_some_in. eauto. }
    destruct (dget k (m_cols m1)) as [c|] eqn:EC; [|inversion E; subst; auto].
    destruct (set_nth i (snd kv) c) as [c'|] eqn:ES; inversion E; subst; auto. apply held_col; auto. intros EK.
    apply set_nth_length in ES. destruct H1 as [[_ (c0 & E0 & L0)] _]. rewrite <- EK, EC in E0. congruence.
  Qed.
  Lemma kh_body nm inf c s q d m m' r : add_body nm inf c s q d m = (m', r) -> stray K L m -> R <= S (length (m_rows m)) -> held m'.
  Proof.
    intros E HS HR. unfold add_body in E. unfold bind at 1, modify at 1 in E. cbv beta iota in E.
    assert (H0 : held (with_rows (m_rows m ++ [new_row nm inf c s q]) m)).
    { split; [exact HS|]. cbn [m_rows with_rows]. rewrite app_length. simpl. lia. }
    revert E H0. generalize (with_rows (m_rows m ++ [new_row nm inf c s q]) m). intros m0. revert m0 m' r.
    change (keeps_h (expand_attrs ;;; mfor d set_new_attr ;;; modify (fun m => with_len (S (m_len m)) m))).
    apply kh_bind; [apply kh_expand|]. intros _. apply kh_bind; [apply kh_mfor; intros; apply kh_new_attr|]. intros _. apply kh_modify. auto.
  Qed.
  Lemma kh_add ev t n co sc a ts : keeps_h (add_interaction ev t n co sc a ts).
  Proof.
    intros m m' r E HM. destruct (add_split ev t n co sc a ts m) as [(e & E2 & _)|(c & s & q & inf & nm & d & _ & E2)]; rewrite E2 in E.
    - inversion E; subst; auto.
    - destruct HM as [H1 H2]. eapply kh_body; eauto.
  Qed.
  Lemma kh_opt {A} (o : option A) f : (forall a, keeps_h (f a)) -> keeps_h (opt_do o f).
  Proof. intros H. destruct o; [apply H|apply kh_ret]. Qed.
  Lemma kh_update_at nm c s a q : keeps_h (update_at nm c s a q).
  Proof.
    unfold update_at. apply kh_bind; [apply kh_get|]. intros m. apply kh_bind; [apply kh_lift|]. intros i.
    apply kh_bind; [apply kh_opt; intros; apply kh_upd_row|]. intros _. apply kh_bind; [apply kh_opt; intros; apply kh_upd_row|]. intros _.
    apply kh_bind; [apply kh_opt; intros; apply kh_mfor; intros; apply kh_update_attr|]. intros _. apply kh_bind; [apply kh_upd_row|]. intros _. apply kh_upd_row.
  Qed.
  Lemma kh_update ev t n co sc a ts : keeps_h (update_interaction ev t n co sc a ts).
  Proof.
    unfold update_interaction. do 2 (apply kh_bind; [apply kh_guard|]; intros _). do 5 (apply kh_bind; [apply kh_lift|]; intros ?).
    apply kh_bind; [apply kh_get|]. intros m0. destruct (n_truthy n).
    - destruct n; try apply kh_raise. apply kh_bind; [apply kh_guard|]. intros _. apply kh_bind; [apply kh_lift|]. intros ?.
      apply kh_bind; [apply kh_guard|]. intros _. apply kh_update_at.
    - destruct a4 as [inf|]; [|apply kh_raise]. destruct (has_name m0 (in_name inf)); [|apply kh_add].
      apply kh_bind; [apply kh_lift|]. intros ?. apply kh_bind; [apply kh_guard|]. intros _. apply kh_update_at.
  Qed.
  Lemma kh_internal t n : keeps_h (internal_name t n).
  Proof.
    unfold internal_name. do 2 (apply kh_bind; [apply kh_guard|]; intros _). apply kh_bind; [apply kh_lift|]. intros inf.
    apply kh_bind; [apply kh_get|]. intros m0. destruct (n_truthy n).
    - destruct n; try apply kh_raise. apply kh_bind; [apply kh_guard|]. intros _. apply kh_ret.
    - destruct inf; [|apply kh_raise]. apply kh_bind; [apply kh_guard|]. intros _. apply kh_ret.
  Qed.
  Lemma kh_remove t n : keeps_h (remove_interaction t n).
  Proof.
    unfold remove_interaction. apply kh_bind; [apply kh_internal|]. intros nm. apply kh_bind; [apply kh_get|]. intros m0.
    apply kh_bind; [apply kh_lift|]. intros i. apply kh_bind; [apply kh_upd_row|]. intros _. apply kh_upd_row.
  Qed.
  Lemma kh_dataframe : keeps_h dataframe.
  Proof. intros m m' r E. unfold dataframe in E. destruct (df_ok m); inversion E; subst; auto. Qed.
  Lemma kh_select l : keeps_h (select_by_variable l).
  Proof. apply kh_bind; [apply kh_dataframe|]. intros; apply kh_ret. Qed.
  Lemma kh_constr_remove k v : keeps_h (constr_remove k v).
  Proof.
    intros m m' r E HM. unfold constr_remove in E. destruct (dget k (m_constrs m)) as [c|]; [|inversion E; subst; auto].
    destruct (c_remove_variable (VA_one v) c). inversion E; subst. revert HM. apply held_frame; reflexivity.
  Qed.
  Lemma kh_delete t : keeps_h (delete_variable t).
  Proof.
    apply kh_bind; [apply kh_guard|]. intros _. destruct t; try apply kh_raise.
    apply kh_bind; [apply kh_modify; auto|]. intros _. apply kh_bind; [apply kh_get|]. intros m.
    apply kh_bind; [apply kh_mfor; intros; apply kh_constr_remove|]. intros _. apply kh_bind; [apply kh_select|].
    intros sel. apply kh_mfor. intros; apply kh_remove.
  Qed.
  Lemma kh_fix ev t v : keeps_h (fix_variable ev t v).
  Proof.
    apply kh_bind; [apply kh_guard|]. intros _. destruct t; try apply kh_raise.
    apply kh_bind; [apply kh_get|]. intros m. apply kh_bind; [apply kh_guard|]. intros _.
    apply kh_bind; [apply kh_modify; auto|]. intros _. apply kh_bind; [apply kh_select|]. intros sel.
    destruct (Qc_eqb v 0); apply kh_mfor; intros n _; [apply kh_remove|].
    apply kh_bind; [apply kh_get|]. intros m1. apply kh_bind; [apply kh_lift|]. intros i.
    destruct (nth_error (m_rows m1) i) as [r|]; [|apply kh_raise]. destruct (r_key r).
    - apply kh_bind; [apply kh_modify; auto|]. intros; apply kh_remove.
    - apply kh_bind; [apply kh_lift|]. intros t. apply kh_bind; [apply kh_add|]. intros; apply kh_remove.
  Qed.
  Lemma kh_variables n sh : keeps_h (variables n sh).
  Proof. intros m m' r E. apply variables_frame in E. destruct E as [vs ->]. apply held_frame; reflexivity. Qed.
  Lemma kh_append n sh : keeps_h (append n sh).
  Proof. intros m m' r E. apply append_frame in E. destruct E as [vs ->]. apply held_frame; reflexivity. Qed.
  Lemma kh_retype : keeps_h update_variables_type.
  Proof.
    intros m m' r E. unfold update_variables_type in E. destruct (recreate _ [] (m_vars m)) as [vs [u|e]].
    - cbv zeta in E. destruct (df_ok _); inversion E; subst; apply held_frame; try reflexivity. cbn [m_rows with_rows]. apply map_length.
    - inversion E; subst. apply held_frame; reflexivity.
  Qed.
  Lemma kh_convert ev t ha hb ja jb jc : keeps_h (convert ev t ha hb ja jb jc).
  Proof.
    unfold convert. apply kh_bind; [apply kh_get|]. intros m. destruct (mtype_eqb _ _); [apply kh_ret|].
    apply kh_bind; [apply kh_modify; auto|]. intros _. apply kh_bind; [apply kh_retype|]. intros _. apply kh_bind; [apply kh_dataframe|]. intros h.
    apply kh_bind. { apply kh_mfor. intros r _. unfold conv_h. apply kh_bind; [apply kh_update|]. intros _. apply kh_modify; auto. }
    intros _. apply kh_bind; [apply kh_dataframe|]. intros j. generalize 0. induction (filter body2_active j) as [|r l IH]; intros k; cbn [conv_Js]; [apply kh_ret|].
    apply kh_bind; [|intros _; apply IH]. unfold conv_J. apply kh_bind; [apply kh_update|]. intros _.
    destruct (r_inter r), (r_key r); try apply kh_raise. do 2 (apply kh_bind; [apply kh_add|]; intros _). apply kh_modify; auto.
  Qed.
  Lemma kh_convert_mtype ev : keeps_h (convert_mtype ev).
  Proof. unfold convert_mtype. apply kh_bind; [apply kh_get|]. intros m. destruct (m_mtype m); unfold to_ising, to_qubo; apply kh_convert. Qed.
  Lemma kh_pyqubo ev pq m m' pq' r : from_pyqubo ev m pq = (m', pq', r) -> held m -> held m'.
  Proof.
    assert (HS : forall m t m1 c1 r1, pq_step ev m pq t = (m1, c1, r1) -> held m -> held m1).
    { intros m0 [[k0 k1] c] m1 c1 r1. unfold pq_step. destruct (pq_lookup m0 pq k0); [|intros E; inversion E; subst; auto].
      destruct (pq_lookup m0 pq k1); [|intros E; inversion E; subst; auto]. destruct (add_interaction _ _ _ _ _ _ _ m0) as [m2 r2] eqn:E2.
      intros E; inversion E; subst. revert E2. apply kh_add. }
    assert (HL : forall l m m1 l1 r1, pq_loop ev m pq l = (m1, l1, r1) -> held m -> held m1).
    { induction l as [|[k c] l IH]; intros m0 m1 l1 r1 E HM; cbn [pq_loop] in E; [inversion E; subst; auto|].
      destruct (pq_step ev m0 pq (k, c)) as [[m2 c2] [u|e]] eqn:E2.
      - destruct (pq_loop ev m2 pq l) as [[m3 l3] r3] eqn:E3. inversion E; subst. apply HS in E2; auto. eapply IH; eauto.
      - inversion E; subst. eapply HS; eauto. }
    unfold from_pyqubo. destruct (pq_loop ev m pq (pq_terms pq)) as [[m1 l1] [u|e]] eqn:E1; intros E; inversion E; subst; intros HA.
    - assert (H1 := HL _ _ _ _ _ E1 HA). revert H1. apply held_frame; reflexivity.
    - eauto.
  Qed.
  Lemma held_do ev evs o m : (forall fd, o <> OPhysical fd) -> held m -> held (fst (do_op ev evs o m)).
  Proof.
    intros HP HA.
    assert (HK : forall f : LM unit, keeps_h f -> held (fst (f m))).
    { intros f HF. destruct (f m) as [m' r] eqn:E. simpl. eapply HF; eauto. }
    destruct o; cbn [do_op].
    - apply HK, kh_variables.
    - apply HK, kh_append.
    - apply HK, kh_add.
    - apply HK, kh_update.
    - apply HK, kh_remove.
    - apply HK, kh_delete.
    - apply HK, kh_fix.
    - apply HK. destruct c as [c|]; [apply kh_modify; auto|apply kh_raise].
    - unfold remove_constraint. destruct l as [s|]; [|exact HA]. destruct (dmem s (m_constrs m)); exact HA.
    - exact HA.
    - destruct (from_pyqubo ev m pq) as [[m' pq'] r] eqn:E. simpl. eapply kh_pyqubo; eauto.
    - apply HK. unfold to_ising. apply kh_convert.
    - apply HK. unfold to_qubo. apply kh_convert.
    - exfalso. eapply HP; eauto.
  Qed.
  Lemma held_later m m' : held m -> later m m' -> held m'.
  Proof.
    intros H. induction 1; auto.
    - apply held_do; auto.
    - unfold merge. destruct (mtype_eqb _ _); [destruct (merge_same _ _ _ _); exact IHlater|].
      destruct (convert_mtype evo m1) as [o1 [u|e]] eqn:EC; [destruct (merge_same _ _ _ _)|]; simpl; eapply kh_convert_mtype; eauto.
  Qed.
End Held.

(** ** What the model then refuses *)
Lemma ragged_frame k m : ragged k m -> df_ok m = false.
Proof.
  intros (n & [_ (c & E & L)] & HR). destruct (df_ok m) eqn:EF; auto. unfold df_ok in EF. rewrite forallb_forall in EF.
  apply dget_in in E. apply EF in E. simpl in E. apply Nat.eqb_eq in E. lia.
Qed.
Lemma df_frame m m' : m_cols m' = m_cols m -> length (m_rows m') = length (m_rows m) -> df_ok m' = df_ok m.
Proof. intros A B. unfold df_ok. rewrite A, B. reflexivity. Qed.
Lemma constr_removes_frame v ks : forall m m' r, mfor ks (fun k => constr_remove k v) m = (m', r) -> m_cols m' = m_cols m /\ m_rows m' = m_rows m.
Proof.
  induction ks as [|k ks IH]; simpl; intros m m' r E; [inversion E; subst; auto|]. unfold bind in E.
  destruct (constr_remove k v m) as [m1 [u|e]] eqn:E1; apply constr_remove_frame in E1; destruct E1 as [cs ->].
  - apply IH in E. exact E.
  - inversion E; subst. auto.
Qed.

(** While a column is behind, the table cannot be formed: selecting raises
    ValueError, fixing a variable raises ValueError after recording the variable
    as fixed, deleting a variable and converting to the other type raise. *)
Theorem C36_refuses : forall k m, ragged k m ->
  (forall q fmt, select_interaction q fmt m = (m, Err ValueError)) /\
  (forall l, select_by_variable l m = (m, Err ValueError)) /\
  (forall ev v q, match m_mtype m with Ising => q = 1%Qc \/ q = (- (1))%Qc | Qubo => q = 0%Qc \/ q = 1%Qc end ->
     fix_variable ev (TVar v) q m = (with_fixed (dset (v_label v) true (m_fixed m)) m, Err ValueError)) /\
  (forall v, snd (delete_variable (TVar v) m) <> Ok tt) /\
  (m_constrs m = [] -> forall v, delete_variable (TVar v) m = (with_deleted (dset (v_label v) true (m_deleted m)) m, Err ValueError)) /\
  (forall ev, m_mtype m = Ising -> snd (to_qubo ev m) <> Ok tt) /\
  (forall ev, m_mtype m = Qubo -> snd (to_ising ev m) <> Ok tt).
Proof.
  intros k m HR. assert (HF := ragged_frame k m HR).
  assert (SV : forall l m', df_ok m' = false -> select_by_variable l m' = (m', Err ValueError)).
  { intros l m' E. unfold select_by_variable, bind, dataframe. rewrite E. reflexivity. }
  split; [|split; [|split; [|split; [|split; [|split]]]]].
  - intros q fmt. unfold select_interaction, bind, whole_frame. rewrite HF. reflexivity.
  - intros l. apply SV; auto.
  - intros ev v q HA. assert (HL : legal_value (m_mtype m) q = true) by (unfold legal_value; destruct (m_mtype m); rewrite orb_true_iff, !Qc_eqb_eq; tauto).
    unfold fix_variable. cbn [t_truthy]. unfold guard at 1, bind at 1, ret at 1. unfold bind at 1, get at 1. rewrite HL.
    unfold guard, bind at 1, ret at 1. unfold bind at 1, modify at 1. unfold bind at 1. rewrite SV; [reflexivity|]. exact HF.
  - intros v. unfold delete_variable. cbn [t_truthy]. unfold guard at 1, bind at 1, ret at 1. unfold bind at 1, modify at 1. unfold bind at 1, get at 1.
    unfold bind at 1. destruct (mfor _ _ _) as [m1 [u|e]] eqn:EM; [|discriminate]. apply constr_removes_frame in EM. destruct EM as [A B].
    unfold bind. rewrite SV; [discriminate|]. rewrite <- HF. apply df_frame; [exact A|rewrite B; reflexivity].
  - intros HC v. unfold delete_variable. cbn [t_truthy]. unfold guard at 1, bind at 1, ret at 1. unfold bind at 1, modify at 1. unfold bind at 1, get at 1.
    cbn [m_constrs with_deleted]. rewrite HC. cbn [dkeys map mfor]. unfold bind at 1, ret at 1. unfold bind. rewrite SV; [reflexivity|exact HF].
  - intros ev ET. unfold to_qubo, convert. unfold bind at 1, get at 1. rewrite ET. cbn [mtype_eqb]. unfold bind at 1, modify at 1. unfold bind at 1, update_variables_type.
    destruct (recreate _ _ _) as [vs [u|e]]; [|discriminate]. cbv zeta. rewrite (df_frame m) by reflexivity. rewrite HF. discriminate.
  - intros ev ET. unfold to_ising, convert. unfold bind at 1, get at 1. rewrite ET. cbn [mtype_eqb]. unfold bind at 1, modify at 1. unfold bind at 1, update_variables_type.
    destruct (recreate _ _ _) as [vs [u|e]]; [|discriminate]. cbv zeta. rewrite (df_frame m) by reflexivity. rewrite HF. discriminate.
Qed.
(** It stays so, whatever calls other than to_physical follow. *)
Theorem C36_stuck : forall k m m', ragged k m -> later m m' -> ragged k m'.
Proof.
  intros k m m' (n & HS & HR) HL. destruct (held_later k n (S n) m m') as [A B]; auto.
  - split; [exact HS|lia].
  - exists n. split; [exact A|lia].
Qed.

(** ** The attribute is lost *)
Lemma get_attributes_keys t n m m' d : get_attributes t n m = (m', Ok d) -> dkeys d = m_attrs m.
Proof.
  unfold get_attributes. intros E. apply bind_ok in E. destruct E as (m1 & nm & E1 & E). assert (m1 = m).
  { revert E1. unfold internal_name. unfold bind, guard, lift, get, ret, raise. intros E1.
    destruct (t_truthy t || n_truthy n); [|discriminate]. destruct (negb _); [|discriminate]. destruct (opt_info t) as [i|]; [|discriminate].
    destruct (n_truthy n); [destruct n; try discriminate|destruct i; [|discriminate]]; destruct (has_name _ _); inversion E1; auto. }
  subst m1. apply bind_ok in E. destruct E as (m1 & m2 & E2 & E). inversion E2; subst m1 m2. apply bind_ok in E. destruct E as (m1 & i & E3 & E).
  unfold lift in *. inversion E3; subst m1. inversion E as [[E4 E5]]. subst m'. clear - E5. revert d E5.
  induction (m_attrs m) as [|a l IH]; simpl; intros d E; [inversion E; auto|]. destruct (dget a (m_cols m)); [|discriminate].
  destruct (nth_error _ _); [|discriminate]. destruct (read_attrs m i l) as [d'|] eqn:ED; [|discriminate]. inversion E; subst. simpl. f_equal. auto.
Qed.
(** A stray attribute is in no answer of get_attributes, and get_attribute does
    not return it. *)
Theorem C36_not_reported : forall k n m, stray k n m ->
  (forall t nm m' d, get_attributes t nm m = (m', Ok d) -> ~ In k (dkeys d)) /\
  (forall t nm v, snd (get_attribute t nm (Some k) m) <> Ok v).
Proof.
  intros k n m [HN _]. split.
  - intros t nm m' d E. rewrite (get_attributes_keys _ _ _ _ _ E). exact HN.
  - intros t nm v E. unfold get_attribute in E. unfold bind in E. destruct (get_attributes t nm m) as [m1 [d|e]] eqn:ED; [|discriminate].
    apply get_attributes_keys in ED. destruct (dget k d) as [w|] eqn:EG; [|discriminate]. apply HN. rewrite <- ED. apply dget_some_in. eauto.
Qed.

(** ** How it comes about *)
Lemma update_attrs_mem i d : forall m m', mfor d (update_attr i) m = (m', Ok tt) ->
  (forall k, In k (dkeys (m_cols m)) -> In k (dkeys (m_cols m'))) /\ (forall k, In k (dkeys d) -> In (attr_key k) (dkeys (m_cols m'))).
Proof.
  induction d as [|[k v] d IH]; simpl; intros m m' E; [inversion E; subst; split; auto; intros k []|].
  apply bind_ok in E. destruct E as (m1 & u & E1 & E). apply IH in E. destruct E as [A B].
  assert (H1 : (forall x, In x (dkeys (m_cols m)) -> In x (dkeys (m_cols m1))) /\ In (attr_key k) (dkeys (m_cols m1))).
  { clear - E1. unfold update_attr in E1. cbv zeta in E1. cbn [fst snd] in E1. set (q := attr_key k) in *.
    set (m2 := if dmem q (m_cols m) then m else _) in E1.
    assert (H2 : forall x, In x (dkeys (m_cols m)) -> In x (dkeys (m_cols m2))).
    { intros x HI. unfold m2. destruct (dmem q (m_cols m)); auto. simpl. apply dset_in_iff. auto. }
    destruct (dget q (m_cols m2)); [|discriminate]. destruct (set_nth _ _ _); inversion E1; subst. simpl. split.
    - intros x HI. apply dset_in_iff. auto.
    - apply dset_in_iff. auto. }
  destruct H1 as [C D]. split; [auto|]. intros x [<-|HI]; auto.
Qed.
(** An accepted update of an existing interaction with a new attribute: the
    value is stored, in a column that is complete but stray; the attributes the
    model reports are the same as before. *)
Theorem C36_introduced : forall ev t n co sc d ts m m' nm k, aligned m -> NoDup (dkeys d) ->
  refers t n nm -> In nm (names m) -> In k (dkeys d) -> ~ In ("attributes." +++ k)%string (m_attrs m) ->
  update_interaction ev t n co sc (AtDict d) ts m = (m', Ok tt) ->
  stray ("attributes." +++ k) (length (m_rows m')) m' /\ length (m_rows m') = length (m_rows m) /\ m_attrs m' = m_attrs m /\
  exists l1 x l2, m_rows m = l1 ++ x :: l2 /\ r_name x = nm /\ ~ In nm (map r_name l1) /\
    forall j, attr_val m' j ("attributes." +++ k) = if (j =? length l1)%nat then match dget k d with Some v => v | None => ANan end else ANan.
Proof.
  intros ev t n co sc d ts m m' nm k HA ND HR HI HK HU E.
  destruct (update_split ev t n co sc (AtDict d) ts m) as [[e E2]|(c & s & a & q & UA & [(nm' & l1 & x & l2 & EI & ER & EN & HF & _ & E2)|(NT & (inf & E3 & E4) & E2)])];
    rewrite E2 in E.
  - discriminate.
  - assert (nm' = nm).
    { assert (EI2 := proj2 (internal_name_spec t n m nm) (conj HR HI)). congruence. }
    assert (EA : a = Some d) by (destruct UA as [_ _ UA _]; simpl in UA; congruence). subst a nm'.
    subst nm. destruct (update_at_rect m l1 x l2 c s (Some d) q (aligned_rect _ HA) ER HF) as (m2 & E3 & HRe & HC & HL & HAT & V1 & V2 & V3 & _).
    { intros d' E4. inversion E4; subst; auto. }
    rewrite E3 in E. inversion E; subst m2.
    assert (W : m_rows m' = l1 ++ upd_fields c s q x :: l2) by (apply core_rows in HC; exact HC).
    assert (LR : length (m_rows m') = length (m_rows m)) by (rewrite W, ER, !app_length; reflexivity).
    assert (HM : In (attr_key k) (dkeys (m_cols m'))).
    { clear - E3 HK. unfold update_at in E3. apply bind_ok in E3. destruct E3 as (m1 & y & E1 & E). apply bind_ok in E. destruct E as (m2 & i & _ & E).
      apply bind_ok in E. destruct E as (m3 & u & _ & E). apply bind_ok in E. destruct E as (m4 & u4 & _ & E). apply bind_ok in E. destruct E as (m5 & u5 & E5 & E).
      cbn [opt_do] in E5. destruct u5. apply update_attrs_mem in E5. apply bind_ok in E. destruct E as (m6 & u6 & E6 & E). unfold upd_row, modify in *. inversion E6; subst. inversion E; subst.
      apply E5; auto. }
    assert (NV : forall j, attr_val m j (attr_key k) = ANan).
    { intros j. unfold attr_val. destruct (dget (attr_key k) (m_cols m)) eqn:EG; auto. exfalso. apply HU. destruct HA as (_ & HK2 & _). rewrite <- HK2.
      apply dget_some_in. eauto. }
    split; [|split; [exact LR|split; [exact HAT|]]].
    + split; [rewrite HAT; exact HU|]. apply dget_some_in in HM. destruct HM as [col EC]. exists col. split; [exact EC|].
      destruct HRe as (R1 & R2 & R3). rewrite Forall_forall in R3. rewrite <- R1. apply (R3 (attr_key k, col)). apply dget_in; auto.
    + exists l1, x, l2. split; [exact ER|]. split; [reflexivity|]. split; [exact HF|]. intros j. change ("attributes." +++ k)%string with (attr_key k).
      destruct (j =? length l1)%nat eqn:EJ.
      * apply Nat.eqb_eq in EJ. subst j. apply dget_some_in in HK. destruct HK as [v EV]. rewrite EV. apply V2. exact EV.
      * apply Nat.eqb_neq in EJ. rewrite V1 by auto. apply NV.
  - exfalso. destruct HR as [[_ [i HD]]|(-> & -> & HN)].
    + apply denotes_info in HD. rewrite HD in E3. inversion E3; subst inf. simpl in E4. apply mem_nin in E4. apply E4. exact HI.
    + discriminate.
Qed.
(** The next accepted add_interaction, with or without the attribute, leaves the
    column behind. *)
Theorem C36_next_add : forall ev t n co sc a ts k m m', stray k (length (m_rows m)) m ->
  add_interaction ev t n co sc a ts m = (m', Ok tt) -> ragged k m'.
Proof.
  intros ev t n co sc a ts k m m' HS E.
  destruct (add_split ev t n co sc a ts m) as [(e & E2 & _)|(c & s & q & inf & nm & d & _ & E2)]; rewrite E2 in E; [discriminate|].
  assert (H := kh_body k (length (m_rows m)) (S (length (m_rows m))) _ _ _ _ _ _ _ _ _ E HS (le_n _)).
  destruct H as [A B]. exists (length (m_rows m)). split; [exact A|lia].
Qed.
Lemma expand_other k m m' : ~ In k (m_attrs m) -> expand_attrs m = (m', Ok tt) -> dget k (m_cols m') = dget k (m_cols m).
Proof.
  unfold expand_attrs. intros HN E. assert (HN2 : forall a, In a (m_attrs m) -> a <> k) by (intros a HI ->; auto). clear HN.
  revert E HN2. generalize (m_attrs m). intros l. revert m. induction l as [|a l IH]; intros m E HN2; cbn [mfor] in E; [inversion E; subst; auto|].
  apply bind_ok in E. destruct E as (m1 & u & E1 & E). apply IH in E; [|intros; apply HN2; simpl; auto]. rewrite E.
  destruct (dget a (m_cols m)) as [c|]; inversion E1; subst. cbn [m_cols with_cols]. apply dget_dset_other. intros X. apply (HN2 a); simpl; auto.
Qed.
Lemma new_attr_get kv k m m' : set_new_attr kv m = (m', Ok tt) -> forall c, dget k (m_cols m) = Some c -> c <> [] ->
  dget k (m_cols m') = Some (if String.eqb k (attr_key (fst kv)) then removelast c ++ [snd kv] else c).
Proof.
  intros E c EC NE. unfold set_new_attr in E. cbv zeta in E. set (q := attr_key (fst kv)) in *. destruct (String.eqb_spec k q) as [->|HQ].
  - assert (EM : dmem q (m_cols m) = true) by (unfold dmem; rewrite EC; reflexivity). rewrite EM in E. rewrite EC in E. rewrite set_last_some in E by auto.
    inversion E; subst. cbn [m_cols with_cols]. apply dget_dset_same.
  - set (m1 := if dmem q (m_cols m) then m else _) in E. assert (E1 : dget k (m_cols m1) = Some c).
    { unfold m1. destruct (dmem q (m_cols m)); auto. cbn [m_cols with_cols with_attrs]. rewrite dget_dset_other by auto. exact EC. }
    destruct (dget q (m_cols m1)); [|discriminate]. destruct (set_last _ _); inversion E; subst. cbn [m_cols with_cols]. rewrite dget_dset_other by auto. exact E1.
Qed.
Lemma new_attrs_get k d : forall m m' c, mfor d set_new_attr m = (m', Ok tt) -> NoDup (dkeys d) -> dget k (m_cols m) = Some c -> c <> [] ->
  dget k (m_cols m') = Some (match find (fun kv => String.eqb k (attr_key (fst kv))) d with Some kv => removelast c ++ [snd kv] | None => c end).
Proof.
  induction d as [|[x v] d IH]; intros m m' c E ND EC NE; cbn [mfor] in E; [inversion E; subst; exact EC|].
  apply bind_ok in E. destruct E as (m1 & [] & E1 & E). inversion ND as [|? ? N1 N2]; subst.
  assert (H1 := new_attr_get _ k _ _ E1 c EC NE). cbn [fst snd find] in *. destruct (String.eqb_spec k (attr_key x)) as [->|HX].
  - rewrite (IH m1 m' (removelast c ++ [v])); auto; [|destruct (removelast c); discriminate].
    destruct (find _ d) as [kv|] eqn:EF; auto. exfalso. apply find_some in EF. destruct EF as [HI HE]. apply String.eqb_eq in HE. apply attr_key_inj in HE.
    apply N1. rewrite HE. apply in_map. exact HI.
  - apply (IH m1 m' c); auto.
Qed.
(** If that add_interaction passes the attribute, the value is written to the
    interaction that was the last one before the call, over its own value. *)
Theorem C36_wrong_interaction : forall ev t n co sc d ts k v m m', stray ("attributes." +++ k) (length (m_rows m)) m -> m_rows m <> [] ->
  NoDup (dkeys d) -> dget k d = Some v -> add_interaction ev t n co sc (AtDict d) ts m = (m', Ok tt) ->
  length (m_rows m') = S (length (m_rows m)) /\ firstn (length (m_rows m)) (m_rows m') = m_rows m /\
  forall j, attr_val m' j ("attributes." +++ k) = if (S j =? length (m_rows m))%nat then v else attr_val m j ("attributes." +++ k).
Proof.
  intros ev t n co sc d ts k v m m' [HN (c & EC & LC)] HR ND EV E.
  destruct (add_split ev t n co sc (AtDict d) ts m) as [(e & E2 & _)|(c0 & s & q & inf & nm & d' & AA & E2)]; rewrite E2 in E; [discriminate|].
  assert (d' = d) by (destruct AA as [_ _ _ _ _ _ AA _]; simpl in AA; congruence). subst d'.
  assert (W := E). apply add_body_core, core_rows in W. cbn [m_rows with_rows] in W.
  split; [rewrite W, app_length; simpl; lia|]. split; [rewrite W, firstn_app, Nat.sub_diag, firstn_all, app_nil_r; reflexivity|].
  unfold add_body in E. unfold bind at 1, modify at 1 in E. cbv beta iota in E. apply bind_ok in E. destruct E as (m2 & [] & E1 & E).
  apply bind_ok in E. destruct E as (m3 & [] & E3 & E). apply expand_other with (k := attr_key k) in E1; [|exact HN]. cbn [m_cols with_rows] in E1.
  change ("attributes." +++ k)%string with (attr_key k) in *. rewrite EC in E1.
  assert (NC : c <> []) by (intros ->; simpl in LC; destruct (m_rows m); [auto|discriminate]).
  apply new_attrs_get with (k := attr_key k) (c := c) in E3; auto.
  assert (EF : find (fun kv => String.eqb (attr_key k) (attr_key (fst kv))) d = Some (k, v)).
  { clear - EV. induction d as [|[x w] d IH]; [discriminate|]. cbn [find fst]. cbn [dget] in EV. destruct (String.eqb_spec (attr_key k) (attr_key x)) as [EX|EX].
    - apply attr_key_inj in EX. subst x. change (eqb k k) with (String.eqb k k) in EV. rewrite String.eqb_refl in EV. congruence.
    - apply IH. change (eqb k x) with (String.eqb k x) in EV. destruct (String.eqb_spec k x); [subst; exfalso; apply EX; reflexivity|exact EV]. }
  rewrite EF in E3. cbn [snd] in E3. inversion E; subst m'. intros j. unfold attr_val. cbn [m_cols with_len]. rewrite E3, EC.
  destruct (length (m_rows m)) as [|p] eqn:EP; [destruct (m_rows m); [exfalso; apply HR; reflexivity|discriminate]|]. cbn [Nat.eqb].
  rewrite (nth_removelast_snoc _ _ _ j p LC). reflexivity.
Qed.
(** An accepted merge drops every column that neither model knows of. *)
Theorem C36_merge_forgets : forall ev evo k m o m' o' u, merge ev evo k m o = (m', o', Ok u) ->
  (forall a, In a (dkeys (m_cols m')) <-> In a (m_attrs m) \/ In a (m_attrs o')) /\
  (forall a n, stray a n m -> ~ In a (m_attrs o') -> forall j, attr_val m' j a = ANan).
Proof.
  intros ev evo k m o m' o' u E.
  assert (H : exists o1, o1 = o' /\ merge_same ev k o1 m = (m', Ok u)).
  { unfold merge in E. destruct (mtype_eqb _ _).
    - destruct (merge_same ev k o m) as [m1 r1] eqn:E1. inversion E; subst. eauto.
    - destruct (convert_mtype evo o) as [o1 [u1|e]]; [|discriminate]. destruct (merge_same ev k o1 m) as [m1 r1] eqn:E1. inversion E; subst. eauto. }
  destruct H as (o1 & -> & ES). apply merge_same_ok in ES. destruct ES as (vs & cols & _ & _ & EC & _ & ->). cbn [m_cols].
  assert (HA : forall a, In a (dkeys cols) <-> In a (m_attrs m) \/ In a (m_attrs o')).
  { intros a. rewrite (merge_cols_keys _ _ _ _ EC). unfold merge_attrs_list. rewrite in_app_iff, filter_In. split; [tauto|]. intros [HI|HI]; auto.
    destruct (mem a (m_attrs m)) eqn:EM; [left; apply mem_in; exact EM|right; split; [exact HI|reflexivity]]. }
  split; [exact HA|]. intros a n [HN _] HO j. unfold attr_val. cbn [m_cols]. destruct (dget a cols) eqn:EG; auto. exfalso.
  assert (HI : In a (dkeys cols)) by (apply dget_some_in; eauto). apply HA in HI. tauto.
Qed.

(** ** C63: this is the only way *)
Lemma as_add_aligned ev t c s q m m' r : as_add ev t c s q m = (m', r) -> aligned m -> aligned m'.
Proof. unfold as_add. intros E. eapply ak_plain; eauto. Qed.
(** From a model whose table is rectangular and registered, a call leaves such a
    model unless, and only unless, it is an accepted update of an existing
    interaction that sets an unknown attribute. *)
Theorem C63_exactly : forall ev evs o m, aligned m -> dicts_ok o ->
  (aligned (fst (do_op ev evs o m)) <-> ~ introduces ev o m).
Proof.
  intros ev evs o m HA HD. split.
  - intros HA' HI. destruct o; try exact HI. destruct a as [|d|]; try exact HI. destruct HI as (EO & (nm & HR & HN) & k & HK & HU).
    cbn [do_op] in HA'. destruct (update_interaction ev t n co sc (AtDict d) ts m) as [m' r] eqn:E. simpl in EO, HA'. subst r.
    destruct (C36_introduced _ _ _ _ _ _ _ _ _ _ _ HA (HD d eq_refl) HR HN HK HU E) as ([X (c & EC & _)] & _ & _).
    apply X. destruct HA' as (_ & HK2 & _). rewrite <- HK2. apply dget_some_in. eauto.
  - intros HI. assert (HX : orderly o m \/ exists t n co sc d ts k, o = OUpdate t n co sc (AtDict d) ts /\ In k (dkeys d) /\ ~ In (attr_key k) (m_attrs m)).
    { destruct o; try (left; exact I).
      - left. simpl. destruct a as [|d|]; simpl; try constructor. apply HD. reflexivity.
      - destruct a as [|d|]; try (left; split; [constructor|intros k []]).
        destruct (forallb (fun k => mem (attr_key k) (m_attrs m)) (dkeys d)) eqn:EF.
        + left. split; [apply HD; reflexivity|]. intros k Hk. rewrite forallb_forall in EF. apply mem_in. apply EF. exact Hk.
        + right. assert (HE : existsb (fun k => negb (mem (attr_key k) (m_attrs m))) (dkeys d) = true).
          { clear - EF. induction (dkeys d) as [|x l IH]; simpl in *; [discriminate|]. destruct (mem (attr_key x) (m_attrs m)); simpl in *; auto. }
          apply existsb_exists in HE. destruct HE as (k & Hk & EK). apply negb_true_iff in EK. apply mem_nin in EK. repeat eexists; eauto. }
    destruct HX as [HO|(t & n & co & sc & d & ts & k & -> & Hk & HU)]; [apply al_do; auto|]. cbn [do_op].
    destruct (update_interaction ev t n co sc (AtDict d) ts m) as [m' r] eqn:E. cbn [fst].
    destruct r as [[]|e].
    + destruct (update_split ev t n co sc (AtDict d) ts m) as [[e E2]|(c & s & a & q & UA & [(nm & l1 & x & l2 & EI & ER & EN & HF & _ & E2)|(_ & _ & E2)])].
      * rewrite E2 in E. discriminate.
      * exfalso. apply HI. cbn [introduces]. split; [rewrite E; reflexivity|]. split; [|exists k; split; [exact Hk|exact HU]].
        exists nm. apply (proj1 (internal_name_spec t n m nm)). exact EI.
      * rewrite E2 in E. eapply as_add_aligned; eauto.
    + destruct (update_split ev t n co sc (AtDict d) ts m) as [[e2 E2]|(c & s & a & q & UA & [(nm & l1 & x & l2 & EI & ER & EN & HF & _ & E2)|(_ & _ & E2)])]; rewrite E2 in E.
      * inversion E; subst; auto.
      * exfalso. subst nm. destruct (update_at_rect m l1 x l2 c s a q (aligned_rect _ HA) ER HF) as (m2 & E3 & _).
        { intros d' ->. destruct UA as [_ _ UA _]. simpl in UA. inversion UA; subst. apply HD. reflexivity. }
        congruence.
      * eapply as_add_aligned; eauto.
Qed.

(** A model with attributes; a new one is introduced by an update and another
    interaction is added. *)
Definition fresh_update : op := OUpdate TNone (NStr "x[0]") None None (AtDict [("fresh", ANum (qz 5))]%string) (update_default_ts env0).
Definition next_add : op := OAdd (TVar (spn "x" 2)) (NStr "") (num 1) (num 2) (AtDict [("fresh", ANum (qz 6))]%string) TsNone.
Definition straym : lmodel := fst (do_op env0 evs0 fresh_update ising_model).
Definition raggedm : lmodel := fst (do_op env0 evs0 next_add straym).
Example C36_ragged_hyps : aligned ising_model /\ introduces env0 fresh_update ising_model /\ ~ introduces env0 next_add straym /\
  stray "attributes.fresh" (length (m_rows straym)) straym /\ m_rows straym <> [] /\
  snd (do_op env0 evs0 next_add straym) = Ok tt /\ ragged "attributes.fresh" raggedm /\ later straym raggedm /\
  snd (merge env0 env0 0 raggedm (new_model Ising)) = Ok tt /\ m_constrs raggedm = [] /\
  (exists m', merge env0 env0 0 raggedm ising_model = (m', ising_model, Ok tt) /\ ~ In "attributes.fresh"%string (dkeys (m_cols m'))).
Proof.
  split; [apply ising_al|]. split.
  { split; [vm_compute; reflexivity|]. split.
    - exists "x[0]"%string. split; [right; split; [reflexivity|split; [reflexivity|discriminate]]|vm_compute; auto].
    - exists "fresh"%string. split; [left; reflexivity|]. vm_compute. intuition discriminate. }
  split; [intros []|]. split; [split; [vm_compute; intuition discriminate|eexists; split; [vm_compute; reflexivity|vm_compute; reflexivity]]|].
  split; [vm_compute; discriminate|]. split; [vm_compute; reflexivity|].
  split; [exists 5; split; [split; [vm_compute; intuition discriminate|eexists; split; [vm_compute; reflexivity|reflexivity]]|vm_compute; lia]|].
  split.
  { unfold raggedm. generalize straym. intros m. constructor; [constructor|intros fd; discriminate]. }
  split; [vm_compute; reflexivity|]. split; [vm_compute; reflexivity|].
  exists (fst (fst (merge env0 env0 0 raggedm ising_model))). split; [vm_compute; reflexivity|]. vm_compute. intuition discriminate.
Qed.
Print Assumptions C36_refuses.
Print Assumptions C36_stuck.
Print Assumptions C36_not_reported.
Print Assumptions C36_introduced.
Print Assumptions C36_next_add.
Print Assumptions C36_wrong_interaction.
Print Assumptions C36_merge_forgets.
Print Assumptions C63_exactly.
