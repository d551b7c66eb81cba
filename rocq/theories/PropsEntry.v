(** * PropsEntry: C140 constructors, arguments of the wrong kind, and the getters over a history. *)
From Verif Require Import PyBase PyLemmas Constraint LogicalModel Physical Spec LogicalProofs EnergyProofs ConvertProofs ConstraintProofs MergeProofs PhysicalProofs
  ToPhysicalProofs History PropsConvert PropsMerge EqualitySpec ProperProofs ConstrFrame Entry Samples.
Open Scope list_scope.

(** ** What the calls do to the books: the type, the deleted and the fixed variables *)
Section Books.
  Variable T : mtype.
  Variables X Y : dict string bool.
  Definition has_b (m : lmodel) : Prop := m_mtype m = T /\ m_deleted m = X /\ m_fixed m = Y.
  Definition frame_b {A} (f : LM A) : Prop := forall m m' r, f m = (m', r) -> has_b m -> has_b m'.
  Lemma fb_ret {A} (a : A) : frame_b (ret a). Proof. intros m m' r E. inversion E; subst; auto. Qed.
  Lemma fb_raise {A} e : frame_b (raise e : LM A). Proof. intros m m' r E. inversion E; subst; auto. Qed.
  Lemma fb_lift {A} (x : res A) : frame_b (lift x). Proof. intros m m' r E. inversion E; subst; auto. Qed.
  Lemma fb_get : frame_b get. Proof. intros m m' r E. inversion E; subst; auto. Qed.
  Lemma fb_guard b e : frame_b (guard b e).
  Proof. destruct b; [apply fb_ret|apply fb_raise]. Qed.
  Lemma fb_bind {A B} (f : LM A) (g : A -> LM B) : frame_b f -> (forall a, frame_b (g a)) -> frame_b (bind f g).
  Proof.
    intros HF HG m m' r E HM. unfold bind in E. destruct (f m) as [m1 [a|e]] eqn:E1.
    - eapply HG; eauto.
    - inversion E; subst. eapply HF; eauto.
  Qed.
  Lemma fb_mfor {A} (l : list A) f : (forall a, frame_b (f a)) -> frame_b (mfor l f).
  Proof. intros H. induction l as [|a l IH]; simpl; [apply fb_ret|]. apply fb_bind; auto. Qed.
  Lemma fb_modify f : (forall m, has_b m -> has_b (f m)) -> frame_b (modify f).
  Proof. intros H m m' r E HM. inversion E; subst. auto. Qed.
  Lemma fb_expand : frame_b expand_attrs.
  Proof.
    intros m m' r. unfold expand_attrs. apply (fb_mfor (m_attrs m)). intros a m0 m1 r0 E H.
    destruct (dget a (m_cols m0)) as [c|]; inversion E; subst; auto.
  Qed.
  Lemma fb_new_attr kv : frame_b (set_new_attr kv).
  Proof.
    intros m m' r E H. unfold set_new_attr in E. cbv zeta in E. set (k := attr_key (fst kv)) in *.
    set (m1 := if dmem k (m_cols m) then m else _) in E.
    assert (H1 : has_b m1) by (unfold m1; destruct (dmem k (m_cols m)); auto).
    destruct (dget k (m_cols m1)) as [c|]; [|inversion E; subst; auto]. destruct (set_last (snd kv) c); inversion E; subst; auto.
  Qed.
  Lemma fb_add ev t n co sc a ts : frame_b (add_interaction ev t n co sc a ts).
  Proof.
    unfold add_interaction. apply fb_bind; [apply fb_guard|]. intros _. cbv zeta.
    do 6 (apply fb_bind; [apply fb_lift|]; intros ?). apply fb_bind; [apply fb_get|]. intros m0.
    apply fb_bind; [apply fb_guard|]. intros _. apply fb_bind; [apply fb_modify; auto|]. intros _.
    apply fb_bind; [apply fb_expand|]. intros _. apply fb_bind; [apply fb_mfor; apply fb_new_attr|]. intros _. apply fb_modify; auto.
  Qed.
  Lemma fb_upd_row i f : frame_b (upd_row i f). Proof. apply fb_modify. auto. Qed.
  Lemma fb_opt {A} (o : option A) f : (forall a, frame_b (f a)) -> frame_b (opt_do o f).
  Proof. intros H. destruct o; [apply H|apply fb_ret]. Qed.
  Lemma fb_update_attr i kv : frame_b (update_attr i kv).
  Proof.
    intros m m' r E H. unfold update_attr in E. cbv zeta in E. set (k := attr_key (fst kv)) in *.
    set (m1 := if dmem k (m_cols m) then m else _) in E.
    assert (H1 : has_b m1) by (unfold m1; destruct (dmem k (m_cols m)); auto).
    destruct (dget k (m_cols m1)) as [c|]; [|inversion E; subst; auto]. destruct (set_nth i (snd kv) c); inversion E; subst; auto.
  Qed.
  Lemma fb_update_at nm c s a q : frame_b (update_at nm c s a q).
  Proof.
    unfold update_at. apply fb_bind; [apply fb_get|]. intros m. apply fb_bind; [apply fb_lift|]. intros i.
    apply fb_bind; [apply fb_opt; intros; apply fb_upd_row|]. intros _. apply fb_bind; [apply fb_opt; intros; apply fb_upd_row|]. intros _.
    apply fb_bind; [apply fb_opt; intros; apply fb_mfor, fb_update_attr|]. intros _. apply fb_bind; [apply fb_upd_row|]. intros _. apply fb_upd_row.
  Qed.
  Lemma fb_update ev t n co sc a ts : frame_b (update_interaction ev t n co sc a ts).
  Proof.
    unfold update_interaction. do 2 (apply fb_bind; [apply fb_guard|]; intros _). do 5 (apply fb_bind; [apply fb_lift|]; intros ?).
    apply fb_bind; [apply fb_get|]. intros m0. destruct (n_truthy n).
    - destruct n; try apply fb_raise. apply fb_bind; [apply fb_guard|]. intros _. apply fb_bind; [apply fb_lift|]. intros ?.
      apply fb_bind; [apply fb_guard|]. intros _. apply fb_update_at.
    - destruct a4 as [inf|]; [|apply fb_raise]. destruct (has_name m0 (in_name inf)); [|apply fb_add].
      apply fb_bind; [apply fb_lift|]. intros ?. apply fb_bind; [apply fb_guard|]. intros _. apply fb_update_at.
  Qed.
  Lemma fb_internal t n : frame_b (internal_name t n).
  Proof.
    unfold internal_name. do 2 (apply fb_bind; [apply fb_guard|]; intros _). apply fb_bind; [apply fb_lift|]. intros inf.
    apply fb_bind; [apply fb_get|]. intros m0. destruct (n_truthy n).
    - destruct n; try apply fb_raise. apply fb_bind; [apply fb_guard|]. intros _. apply fb_ret.
    - destruct inf; [|apply fb_raise]. apply fb_bind; [apply fb_guard|]. intros _. apply fb_ret.
  Qed.
  Lemma fb_remove t n : frame_b (remove_interaction t n).
  Proof.
    unfold remove_interaction. apply fb_bind; [apply fb_internal|]. intros nm. apply fb_bind; [apply fb_get|]. intros m0.
    apply fb_bind; [apply fb_lift|]. intros i. apply fb_bind; [apply fb_upd_row|]. intros _. apply fb_upd_row.
  Qed.
  Lemma fb_dataframe : frame_b dataframe.
  Proof. intros m m' r E. unfold dataframe in E. destruct (df_ok m); inversion E; subst; auto. Qed.
  Lemma fb_select l : frame_b (select_by_variable l).
  Proof. apply fb_bind; [apply fb_dataframe|]. intros; apply fb_ret. Qed.
  Lemma fb_variables n sh : frame_b (variables n sh).
  Proof.
    intros m m' r E H. unfold variables in E. destruct n as [nm|a|].
    - destruct (check_shape false sh); [|inversion E; subst; auto]. destruct (array_create _ _ _); inversion E; subst; auto.
    - destruct (a_bits a) as [|v]; [inversion E; subst; auto|]. destruct (negb _); [inversion E; subst; auto|].
      destruct (before_char _ _); inversion E; subst; auto.
    - inversion E; subst; auto.
  Qed.
  Lemma fb_append n sh : frame_b (append n sh).
  Proof.
    intros m m' r E H. unfold append in E. destruct n as [nm|a|]; try (inversion E; subst; auto; fail).
    destruct (check_shape true sh); [|inversion E; subst; auto]. destruct (dget nm (m_vars m)); [|eapply fb_variables; eauto].
    destruct (array_create _ _ _); inversion E; subst; auto.
  Qed.
  Lemma fb_retype : frame_b update_variables_type.
  Proof.
    intros m m' r E H. unfold update_variables_type in E. destruct (recreate _ [] (m_vars m)) as [vs [u|e]].
    - cbv zeta in E. destruct (df_ok _); inversion E; subst; auto.
    - inversion E; subst; auto.
  Qed.
  Lemma fb_merge_var kv : frame_b (merge_var kv).
  Proof.
    intros m m' r E H. unfold merge_var in E. destruct (dget _ _); [eapply fb_append; eauto|]. inversion E; subst; auto.
  Qed.
  Lemma fb_merge_same ev k o : m_deleted o = [] -> m_fixed o = [] -> frame_b (merge_same ev k o).
  Proof.
    intros HO HP. unfold merge_same. apply fb_bind; [apply fb_get|]. intros m0. apply fb_bind; [apply fb_guard|]. intros _.
    apply fb_bind; [apply fb_mfor; apply fb_merge_var|]. intros _. apply fb_bind; [apply fb_get|]. intros m.
    destruct (merge_cols m o (merge_attrs_list m o)) as [cols|]; [|apply fb_raise].
    apply fb_bind; [apply fb_modify; auto|]. intros _. apply fb_bind; [apply fb_guard|]. intros _. apply fb_modify. intros m1 H1.
    unfold has_b. cbn [m_mtype m_deleted m_fixed with_fixed with_deleted with_offset with_constrs]. rewrite HO, HP. exact H1.
  Qed.
  Lemma fb_purge n : frame_b (purge_one n).
  Proof.
    intros m m' r E H. unfold purge_one, bind, get, lift in E. destruct (name_index m n) as [i|e]; [|inversion E; subst; auto].
    destruct (pop_nth i (m_rows m)) as [rows|]; [|inversion E; subst; auto].
    destruct (pop_cols i [] (m_cols m)) as [cols [u|e]]; inversion E; subst; auto.
  Qed.
  Lemma fb_pyqubo ev pq m m' pq' r : from_pyqubo ev m pq = (m', pq', r) -> has_b m -> has_b m'.
  Proof.
    assert (HS : forall m t m1 c1 r1, pq_step ev m pq t = (m1, c1, r1) -> has_b m -> has_b m1).
    { intros m0 [[k0 k1] c] m1 c1 r1. unfold pq_step. destruct (pq_lookup m0 pq k0); [|intros E; inversion E; subst; auto].
      destruct (pq_lookup m0 pq k1); [|intros E; inversion E; subst; auto]. destruct (add_interaction _ _ _ _ _ _ _ m0) as [m2 r2] eqn:E2.
      intros E; inversion E; subst. revert E2. apply fb_add. }
    assert (HL : forall l m m1 l1 r1, pq_loop ev m pq l = (m1, l1, r1) -> has_b m -> has_b m1).
    { induction l as [|[k c] l IH]; intros m0 m1 l1 r1 E HM; cbn [pq_loop] in E; [inversion E; subst; auto|].
      destruct (pq_step ev m0 pq (k, c)) as [[m2 c2] [u|e]] eqn:E2.
      - destruct (pq_loop ev m2 pq l) as [[m3 l3] r3] eqn:E3. inversion E; subst. apply HS in E2; auto. eapply IH; eauto.
      - inversion E; subst. eapply HS; eauto. }
    unfold from_pyqubo. destruct (pq_loop ev m pq (pq_terms pq)) as [[m1 l1] [u|e]] eqn:E1; intros E; inversion E; subst; intros HA.
    - exact (HL _ _ _ _ _ E1 HA).
    - eauto.
  Qed.
End Books.

Definition books (m : lmodel) : mtype * dict string bool * dict string bool := (m_mtype m, m_deleted m, m_fixed m).
Lemma fb_books {A} (f : LM A) m : frame_b (m_mtype m) (m_deleted m) (m_fixed m) f -> books (fst (f m)) = books m.
Proof.
  intros HF. destruct (f m) as [m' r] eqn:E. destruct (HF m m' r E) as (H1 & H2 & H3); [repeat split|]. unfold books. simpl. congruence.
Qed.
Lemma fb_from {A} (f : LM A) m : (forall T X Y, frame_b T X Y f) -> books (fst (f m)) = books m.
Proof. intros H. apply fb_books, H. Qed.
Lemma bb {A B} (f : LM A) (g : A -> LM B) m : fst (bind f g m) = match f m with (m1, Ok a) => fst (g a m1) | (m1, Err _) => m1 end.
Proof. unfold bind. destruct (f m) as [m1 [a|e]]; reflexivity. Qed.
Lemma fb_fix_one T X Y ev l v n : frame_b T X Y (fix_one ev l v n).
Proof.
  unfold fix_one. apply fb_bind; [apply fb_get|]. intros m1. apply fb_bind; [apply fb_lift|]. intros i.
  destruct (nth_error (m_rows m1) i) as [r|]; [|apply fb_raise]. destruct (r_key r).
  - apply fb_bind; [apply fb_modify; auto|]. intros; apply fb_remove.
  - apply fb_bind; [apply fb_lift|]. intros t. apply fb_bind; [apply fb_add|]. intros; apply fb_remove.
Qed.
Lemma bk_fix ev v q m : books (fst (fix_variable ev (TVar v) q m)) =
  (m_mtype m, m_deleted m, if legal_value (m_mtype m) q then dset (v_label v) true (m_fixed m) else m_fixed m).
Proof.
  unfold fix_variable. rewrite bb. cbn [t_truthy guard ret]. rewrite bb. cbn [get]. rewrite bb.
  destruct (legal_value (m_mtype m) q); cbn [guard ret raise]; [|reflexivity]. rewrite bb. cbn [modify].
  rewrite fb_from; [reflexivity|]. intros T X Y. apply fb_bind; [apply fb_select|]. intros sel.
  destruct (Qc_eqb q 0); apply fb_mfor; intros n; [apply fb_remove|apply fb_fix_one].
Qed.
Lemma bk_fix_other ev t q m : (forall v, t <> TVar v) -> fst (fix_variable ev t q m) = m.
Proof. intros N. unfold fix_variable. rewrite bb. destruct (t_truthy t); cbn [guard ret raise]; [|reflexivity]. destruct t; try reflexivity. destruct (N v); auto. Qed.
Lemma fb_constr_remove T X Y k v : frame_b T X Y (constr_remove k v).
Proof. intros m m' r E H. apply constr_remove_frame in E. destruct E as [cs ->]. exact H. Qed.
Lemma bk_delete v m : books (fst (delete_variable (TVar v) m)) = (m_mtype m, dset (v_label v) true (m_deleted m), m_fixed m).
Proof.
  unfold delete_variable. rewrite bb. cbn [t_truthy guard ret]. rewrite bb. cbn [modify]. rewrite fb_from; [reflexivity|]. intros T X Y.
  apply fb_bind; [apply fb_get|]. intros m0. apply fb_bind; [apply fb_mfor; intros; apply fb_constr_remove|]. intros _.
  apply fb_bind; [apply fb_select|]. intros sel. apply fb_mfor. intros; apply fb_remove.
Qed.
Lemma bk_delete_other t m : (forall v, t <> TVar v) -> fst (delete_variable t m) = m.
Proof. intros N. unfold delete_variable. rewrite bb. destruct (t_truthy t); cbn [guard ret raise]; [|reflexivity]. destruct t; try reflexivity. destruct (N v); auto. Qed.
Lemma bk_convert ev t ha hb ja jb jc m : books (fst (convert ev t ha hb ja jb jc m)) = (t, m_deleted m, m_fixed m).
Proof.
  unfold convert. rewrite bb. cbn [get]. destruct (mtype_eqb (m_mtype m) t) eqn:ET.
  - cbn. unfold books. destruct (m_mtype m), t; try discriminate; reflexivity.
  - rewrite bb. cbn [modify]. rewrite fb_from; [reflexivity|]. intros T X Y.
    apply fb_bind; [apply fb_retype|]. intros _. apply fb_bind; [apply fb_dataframe|]. intros h.
    apply fb_bind. { apply fb_mfor. intros r. unfold conv_h. apply fb_bind; [apply fb_update|]. intros _. apply fb_modify; auto. }
    intros _. apply fb_bind; [apply fb_dataframe|]. intros j. generalize 0. induction (filter body2_active j) as [|r l IH]; intros k; cbn [conv_Js]; [apply fb_ret|].
    apply fb_bind; [|intros _; apply IH]. unfold conv_J. apply fb_bind; [apply fb_update|]. intros _.
    destruct (r_inter r), (r_key r); try apply fb_raise. do 2 (apply fb_bind; [apply fb_add|]; intros _). apply fb_modify; auto.
Qed.
Lemma bk_to_model ev c : books (fst (to_model ev c)) = (Qubo, [], []).
Proof.
  assert (H3 : forall T X Y l q vs v, frame_b T X Y (cadd_pairs_of ev l q vs v)).
  { intros. apply fb_mfor. intros w. destruct (String.ltb _ _); [apply fb_add|apply fb_ret]. }
  change (Qubo, [], []) with (books (new_model Qubo)).
  destruct c; unfold to_model; apply fb_from; intros T X Y.
  - apply fb_mfor. intros. apply fb_bind; [apply fb_add|]; auto.
  - apply fb_mfor. intros. auto.
  - apply fb_bind; [apply fb_mfor; intros; apply fb_add|]. intros _. apply fb_bind; [apply fb_mfor; auto|]. intros _.
    apply fb_bind; [apply fb_mfor; auto|]. intros _. apply fb_mfor. intros. apply fb_mfor. intros; apply fb_add.
Qed.
Lemma bk_convert_mtype ev m : m_deleted (fst (convert_mtype ev m)) = m_deleted m /\ m_fixed (fst (convert_mtype ev m)) = m_fixed m.
Proof.
  unfold convert_mtype. rewrite bb. cbn [get]. destruct (m_mtype m); unfold to_ising, to_qubo.
  all: match goal with |- context [convert ?e ?t ?a ?b ?c ?d ?f ?x] => pose proof (bk_convert e t a b c d f x) as H end; unfold books in H; split; congruence.
Qed.
Lemma bk_merge_constrs ev evs cs : forall k m, books (fst (merge_constrs ev evs k cs m)) = books m.
Proof.
  induction cs as [|c cs IH]; intros k m; cbn [merge_constrs]; [reflexivity|].
  pose proof (bk_to_model (evs k) c) as HB. destruct (to_model (evs k) c) as [cm [u|e]]; [|reflexivity]. cbn [fst] in HB.
  assert (HS : forall o m', m_deleted o = [] -> m_fixed o = [] -> books (fst (merge_same ev k o m')) = books m') by (intros; apply fb_from; intros; apply fb_merge_same; auto).
  unfold books in HB. injection HB as _ HD HF. unfold merge. destruct (mtype_eqb _ _).
  - specialize (HS cm m HD HF). destruct (merge_same ev k cm m) as [m1 [u1|e]]; cbn [fst] in HS; [rewrite IH|]; exact HS.
  - destruct (bk_convert_mtype (evs k) cm) as [D F]. destruct (convert_mtype (evs k) cm) as [o' [u1|e]]; [|reflexivity]. cbn [fst] in D, F.
    rewrite HD in D. rewrite HF in F. specialize (HS o' m D F). destruct (merge_same ev k o' m) as [m1 [u2|e]]; cbn [fst] in HS; [rewrite IH|]; exact HS.
Qed.
Lemma bk_physical ev evs fd m : books (fst (to_physical ev evs fd m)) = books m.
Proof.
  rewrite to_physical_after. pose proof (bk_merge_constrs ev evs (dvals (m_constrs m)) 0 m) as HB.
  destruct (merge_constrs ev evs 0 (dvals (m_constrs m)) m) as [m1 [u|e]]; [|exact HB]. cbn [fst] in HB.
  unfold after_merge. destruct (visited m1) as [rows|e]; [|exact HB]. destruct (agg_rows _ _ _) as [g|e]; [|exact HB]. destruct (ceval _ _); [|exact HB].
  cbv zeta. match goal with |- context [mfor (g_remove g) purge_one ?x] => pose proof (fb_from (mfor (g_remove g) purge_one) x (fun T X Y => fb_mfor T X Y _ _ (fb_purge T X Y))) as HP; destruct (mfor (g_remove g) purge_one x) as [m3 [u3|e]] end.
  all: cbn [fst] in *; etransitivity; [exact HP|]; unfold books in *; cbn [m_mtype m_deleted m_fixed]; injection HB as H1 _ _; congruence.
Qed.

(** ** Specification *)

(** A sequence of calls; each comes with the clock readings and object ids during it. *)
Definition call := (env * (nat -> env) * op)%type.
Definition called (c : call) : op := snd c.
Fixpoint after (l : list call) (m : lmodel) : lmodel :=
  match l with [] => m | c :: r => after r (fst (do_op (fst (fst c)) (snd (fst c)) (called c) m)) end.

(** The type: the last of the constructor's and the conversions'. *)
Definition type_after (t : mtype) (l : list op) : mtype :=
  fold_left (fun t o => match o with OIsing => Ising | OQubo => Qubo | _ => t end) l t.
(** The values of a variable. *)
Definition allowed (t : mtype) (q : Qc) : Prop := match t with Ising => q = 1%Qc \/ q = (- (1))%Qc | Qubo => q = 0%Qc \/ q = 1%Qc end.
(** [x] was named in a call of delete_variable. *)
Definition deleted_in (l : list op) (x : string) : Prop := exists v, In (ODelete (TVar v)) l /\ v_label v = x.
(** [x] was named in a call of fix_variable with a value allowed at that point. *)
Definition fixed_in (t : mtype) (l : list op) (x : string) : Prop :=
  exists l1 v q l2, l = l1 ++ OFix (TVar v) q :: l2 /\ v_label v = x /\ allowed (type_after t l1) q.
(** [c] is the last constraint added under the label [x], and it was not removed since. *)
Definition in_force (l : list op) (x : string) (c : constr) : Prop :=
  exists l1 l2, l = l1 ++ OAddConstraint (Some c) :: l2 /\ c_label c = x /\
    ~ In (ORemoveConstraint (Some x)) l2 /\ forall d, In (OAddConstraint (Some d)) l2 -> c_label d <> x.

(** ** Proofs *)

Lemma legal_allowed t q : legal_value t q = true <-> allowed t q.
Proof. unfold legal_value, allowed. destruct t; rewrite orb_true_iff, !Qc_eqb_eq; tauto. Qed.
Lemma books_do ev evs o m : books (fst (do_op ev evs o m)) =
  (type_after (m_mtype m) [o],
   match o with ODelete (TVar v) => dset (v_label v) true (m_deleted m) | _ => m_deleted m end,
   match o with OFix (TVar v) q => if legal_value (m_mtype m) q then dset (v_label v) true (m_fixed m) else m_fixed m | _ => m_fixed m end).
Proof.
  destruct o; cbn [do_op type_after fold_left].
  - apply fb_from. intros; apply fb_variables.
  - apply fb_from. intros; apply fb_append.
  - apply fb_from. intros; apply fb_add.
  - apply fb_from. intros; apply fb_update.
  - apply fb_from. intros; apply fb_remove.
  - destruct t; try (rewrite bk_delete_other by discriminate; reflexivity). apply bk_delete.
  - destruct t; try (rewrite bk_fix_other by discriminate; reflexivity). apply bk_fix.
  - apply fb_from. intros. destruct c; [apply fb_modify; auto|apply fb_raise].
  - unfold remove_constraint. destruct l; [|reflexivity]. destruct (dmem s (m_constrs m)); reflexivity.
  - reflexivity.
  - destruct (from_pyqubo ev m pq) as [[m' pq'] r] eqn:E. cbn [fst].
    destruct (fb_pyqubo (m_mtype m) (m_deleted m) (m_fixed m) _ _ _ _ _ _ E) as (H1 & H2 & H3); [repeat split|]. unfold books. congruence.
  - unfold to_ising. rewrite bk_convert. reflexivity.
  - unfold to_qubo. rewrite bk_convert. reflexivity.
  - pose proof (bk_physical ev evs fd m) as H. destruct (to_physical ev evs fd m) as [m' [p|e]]; exact H.
Qed.
Lemma type_app t a b : type_after t (a ++ b) = type_after (type_after t a) b.
Proof. apply fold_left_app. Qed.
Lemma after_app a : forall b m, after (a ++ b) m = after b (after a m).
Proof. induction a; intros; cbn; auto. Qed.
Lemma after_snoc a c m : after (a ++ [c]) m = fst (do_op (fst (fst c)) (snd (fst c)) (called c) (after a m)).
Proof. rewrite after_app. reflexivity. Qed.

(** Constructors: "ising" and "qubo", spelled so, and nothing else. A new model
    has the type it was given and is empty: no variable, no interaction, no
    constraint, nothing deleted or fixed, energy zero. *)
Theorem C140_construct : forall a,
  (a = MtStr "ising" \/ a = MtStr "qubo" -> exists m p, logical_model a = Ok m /\ physical_model a = Ok p /\ a = MtStr (get_mtype m) /\ p_mtype p = m_mtype m /\
     m_vars m = [] /\ m_rows m = [] /\ m_constrs m = [] /\ get_deleted_array m = [] /\ get_fixed_array m = [] /\ get_size m = 0%Z /\ m_prev m = None /\
     (forall fd x, energy fd x m = 0%Qc) /\
     p_linear p = [] /\ p_quad p = [] /\ p_offset p = 0%Qc /\ p_l2i p = [] /\ p_i2l p = []) /\
  (a <> MtStr "ising" -> a <> MtStr "qubo" -> logical_model a = Err ValueError /\ physical_model a = Err ValueError).
Proof.
  intros a. split.
  - intros [->| ->]; do 2 eexists; (split; [reflexivity|]); (split; [reflexivity|]); (split; [reflexivity|]); (split; [reflexivity|]); repeat (split; [reflexivity|]).
    all: reflexivity.
  - intros N1 N2. unfold logical_model, physical_model, check_mtype. destruct a as [s|]; [|split; reflexivity].
    destruct (String.eqb_spec s "ising") as [->|]; [destruct N1; auto|]. destruct (String.eqb_spec s "qubo") as [->|]; [destruct N2; auto|]. split; reflexivity.
Qed.
(** Arguments of another kind are refused and change nothing; so does an
    expression that PyQUBO cannot compile. *)
Theorem C140_wrong_kind : forall (E : Type) (compile : E -> res pqmodel) ev evo k m,
  merge_checked ev evo k m None = (m, None, Err TypeError) /\
  from_pyqubo_checked compile ev m PqOther = (m, Err TypeError) /\
  (forall e x, compile e = Err x -> from_pyqubo_checked compile ev m (PqExpression e) = (m, Err x)) /\
  (forall e pq, compile e = Ok pq -> from_pyqubo_checked compile ev m (PqExpression e) = from_pyqubo_checked compile ev m (PqCompiled pq)).
Proof. intros. split; [reflexivity|]. split; [reflexivity|]. split; intros e x H; unfold from_pyqubo_checked; rewrite H; reflexivity. Qed.
(** After any sequence of calls, whether they returned or raised, get_mtype()
    is the type of the last conversion, or the constructor's. *)
Theorem C140_type : forall t l, get_mtype (after l (new_model t)) = match type_after t (map called l) with Ising => "ising" | Qubo => "qubo" end.
Proof.
  intros t l. unfold get_mtype. replace (m_mtype (after l (new_model t))) with (type_after t (map called l)); [reflexivity|].
  induction l as [|c l IH] using rev_ind; [reflexivity|]. rewrite after_snoc, map_app, type_app, IH. cbn [map].
  pose proof (books_do (fst (fst c)) (snd (fst c)) (called c) (after l (new_model t))) as H. unfold books in H. congruence.
Qed.
Lemma type_of t l : m_mtype (after l (new_model t)) = type_after t (map called l).
Proof. pose proof (C140_type t l) as H. unfold get_mtype in H. destruct (m_mtype _), (type_after _ _); auto; discriminate. Qed.
(** get_deleted_array() lists, once each, the variables given to delete_variable. *)
Theorem C140_deleted : forall t l, let d := get_deleted_array (after l (new_model t)) in
  NoDup d /\ forall x, In x d <-> deleted_in (map called l) x.
Proof.
  intros t l. cbv zeta. unfold get_deleted_array. induction l as [|c l [ND IH]] using rev_ind.
  - split; [constructor|]. intros x. split; [intros []|intros (v & [] & _)].
  - rewrite after_snoc. pose proof (books_do (fst (fst c)) (snd (fst c)) (called c) (after l (new_model t))) as H. unfold books in H. injection H as _ HD _. rewrite HD.
    assert (HS : forall x, deleted_in (map called (l ++ [c])) x <-> deleted_in (map called l) x \/ exists v, called c = ODelete (TVar v) /\ v_label v = x).
    { intros x. unfold deleted_in. rewrite map_app. cbn [map]. split.
      - intros (v & HI & HL). apply in_app_or in HI. destruct HI as [HI|[HI|[]]]; eauto.
      - intros [(v & HI & HL)|(v & HI & HL)]; exists v; split; auto; apply in_or_app; simpl; auto. }
    destruct (called c) eqn:EC; try (split; [exact ND|]; intros x; rewrite HS, <- IH; split; [auto|intros [?|(v' & E & _)]; [auto|discriminate]]).
    destruct t0; try (split; [exact ND|]; intros x; rewrite HS, <- IH; split; [auto|intros [?|(v' & E & _)]; [auto|discriminate]]).
    split; [apply dset_nodup; exact ND|]. intros x. rewrite dset_in_iff, HS, IH. split.
    + intros [->|?]; eauto.
    + intros [?|(v' & E & HL)]; auto. injection E as ->. auto.
Qed.
(** get_fixed_array() lists, once each, the variables given to fix_variable with
    a value the model's type allowed at that time. *)
Theorem C140_fixed : forall t l, let d := get_fixed_array (after l (new_model t)) in
  NoDup d /\ forall x, In x d <-> fixed_in t (map called l) x.
Proof.
  intros t l. cbv zeta. unfold get_fixed_array. induction l as [|c l [ND IH]] using rev_ind.
  - split; [constructor|]. intros x. split; [intros []|intros (l1 & v & q & l2 & E & _)]. destruct l1; discriminate.
  - rewrite after_snoc. pose proof (books_do (fst (fst c)) (snd (fst c)) (called c) (after l (new_model t))) as H. unfold books in H. injection H as _ _ HD. rewrite HD.
    assert (HS : forall x, fixed_in t (map called (l ++ [c])) x <->
      fixed_in t (map called l) x \/ exists v q, called c = OFix (TVar v) q /\ v_label v = x /\ allowed (type_after t (map called l)) q).
    { intros x. unfold fixed_in. rewrite map_app. cbn [map]. split.
      - intros (l1 & v & q & l2 & E & HL & HA). destruct l2 as [|o l2 _] using rev_ind.
        + apply app_inj_tail in E. destruct E as [<- E]. right. eauto.
        + left. rewrite app_comm_cons, app_assoc in E. apply app_inj_tail in E. destruct E as [E _]. exists l1, v, q, l2. auto.
      - intros [(l1 & v & q & l2 & E & HL & HA)|(v & q & E & HL & HA)].
        + exists l1, v, q, (l2 ++ [called c]). split; auto. rewrite E, <- app_assoc. reflexivity.
        + exists (map called l), v, q, []. rewrite E. auto. }
    destruct (called c) eqn:EC; try (split; [exact ND|]; intros x; rewrite HS, <- IH; split; [auto|intros [?|(v' & q' & E & _)]; [auto|discriminate]]).
    destruct t0; try (split; [exact ND|]; intros x; rewrite HS, <- IH; split; [auto|intros [?|(v' & q' & E & _)]; [auto|discriminate]]).
    rewrite type_of. destruct (legal_value (type_after t (map called l)) v) eqn:EL.
    + apply legal_allowed in EL. split; [apply dset_nodup; exact ND|]. intros x. rewrite dset_in_iff, HS, IH. split.
      * intros [->|?]; [right|auto]. exists v0, v. auto.
      * intros [?|(v' & q' & E & HL & _)]; auto. injection E as -> ->. auto.
    + split; [exact ND|]. intros x. rewrite HS, <- IH. split; auto. intros [?|(v' & q' & E & HL & HA)]; auto.
      injection E as -> ->. apply legal_allowed in HA. congruence.
Qed.
Lemma delete_constr_keys t m : NoDup (dkeys (m_constrs m)) -> dkeys (m_constrs (fst (delete_variable t m))) = dkeys (m_constrs m).
Proof.
  intros _.
  assert (HR : forall D n, frame_c D (remove_interaction TNone (NStr n))) by (intros; apply fc_remove).
  destruct t; try (rewrite bk_delete_other by discriminate; reflexivity).
  unfold delete_variable. rewrite bb. cbn [t_truthy guard ret]. rewrite bb. cbn [modify]. rewrite bb. cbn [get]. rewrite bb.
  match goal with |- context [mfor (dkeys (m_constrs ?x)) _ ?x] => set (m0 := x) end.
  assert (HK : forall ks m1, incl ks (dkeys (m_constrs m1)) -> dkeys (m_constrs (fst (mfor ks (fun k => constr_remove k v) m1))) = dkeys (m_constrs m1)).
  { induction ks as [|k ks IH]; intros m1 HI; cbn [mfor]; [reflexivity|]. rewrite bb.
    assert (H1 : dkeys (m_constrs (fst (constr_remove k v m1))) = dkeys (m_constrs m1)).
    { unfold constr_remove. destruct (dget k (m_constrs m1)); [|reflexivity]. destruct (c_remove_variable (VA_one v) c) as [c' r']. cbn. apply dset_keys_in. apply HI. simpl; auto. }
    destruct (constr_remove k v m1) as [m2 [u|e]]; cbn [fst] in H1; [|exact H1]. rewrite IH, H1; auto.
    rewrite H1. intros x Hx. apply HI. simpl; auto. }
  specialize (HK (dkeys (m_constrs m0)) m0 (fun x H => H)).
  destruct (mfor (dkeys (m_constrs m0)) (fun k => constr_remove k v) m0) as [m2 [u|e]]; cbn [fst] in HK; [|exact HK].
  etransitivity; [|exact HK]. f_equal.
  assert (HA : forall f : LM unit, frame_c (m_constrs m2) f -> m_constrs (fst (f m2)) = m_constrs m2).
  { intros f HF. destruct (f m2) as [m3 r3] eqn:E3. exact (HF _ _ _ E3 eq_refl). }
  apply HA. apply fc_bind; [apply fc_select|]. intros sel. apply fc_mfor. intros; apply fc_remove.
Qed.
Lemma constr_step ev evs o m : NoDup (dkeys (m_constrs m)) -> let m' := fst (do_op ev evs o m) in
  NoDup (dkeys (m_constrs m')) /\
  (forall x, In x (dkeys (m_constrs m')) <->
     (exists c, o = OAddConstraint (Some c) /\ c_label c = x) \/ (In x (dkeys (m_constrs m)) /\ o <> ORemoveConstraint (Some x))) /\
  ((forall t, o <> ODelete t) -> forall x, dget x (m_constrs m') =
     match o with
     | OAddConstraint (Some c) => if String.eqb x (c_label c) then Some c else dget x (m_constrs m)
     | ORemoveConstraint (Some l) => if String.eqb x l then None else dget x (m_constrs m)
     | _ => dget x (m_constrs m)
     end).
Proof.
  intros ND. cbv zeta. destruct (plain o) eqn:EP.
  - rewrite fc_do by auto. split; auto. split.
    + intros x. split; [|intros [(c & -> & _)|[H _]]; [discriminate|auto]]. intros H. right. split; auto. intros ->. discriminate.
    + intros _ x. destruct o; try reflexivity; discriminate.
  - destruct o; try discriminate; cbn [do_op].
    + rewrite delete_constr_keys by auto. split; auto. split.
      * intros x. split; [intros H; right; split; auto; discriminate|intros [(c & E & _)|[H _]]; [discriminate|auto]].
      * intros N. destruct (N t eq_refl).
    + destruct c as [c|]; cbn [fst add_constraint modify m_constrs with_constrs raise].
      * split; [apply dset_nodup; auto|]. split.
        -- intros x. rewrite dset_in_iff. split; [intros [->|H]; [left; eauto|right; split; auto; discriminate]|].
           intros [(c' & E & HL)|[H _]]; auto. injection E as ->. auto.
        -- intros _ x. destruct (String.eqb_spec x (c_label c)) as [->|N]; [apply dget_dset_same|apply dget_dset_other; auto].
      * split; auto. split; auto. intros x. split; [intros H; right; split; auto; discriminate|intros [(c & E & _)|[H _]]; [discriminate|auto]].
    + unfold remove_constraint. destruct l as [l|]; cbn [fst].
      * destruct (dmem l (m_constrs m)) eqn:EM; cbn [fst m_constrs with_constrs].
        -- assert (HG : forall x, dget x (ddel l (m_constrs m)) = if String.eqb x l then None else dget x (m_constrs m)).
           { intros x. destruct (String.eqb_spec x l) as [->|N]; [apply ddel_get_same; auto|apply ddel_get_other; auto]. }
           split; [apply ddel_nodup; auto|]. split; auto.
           intros x. rewrite <- !dmem_in. unfold dmem. rewrite HG. destruct (String.eqb_spec x l) as [->|N].
           ++ split; [discriminate|]. intros [(c & E & _)|[_ H]]; [discriminate|destruct H; auto].
           ++ split; [intros H; right; split; auto; congruence|intros [(c & E & _)|[H _]]; [discriminate|auto]].
        -- apply dmem_nin in EM. split; auto. split.
           ++ intros x. split; [intros H; right; split; auto; congruence|intros [(c & E & _)|[H _]]; [discriminate|auto]].
           ++ intros _ x. destruct (String.eqb_spec x l) as [->|N]; auto. apply dget_none. auto.
      * split; auto. split; auto. intros x. split; [intros H; right; split; auto; discriminate|intros [(c & E & _)|[H _]]; [discriminate|auto]].
Qed.
Lemma in_force_snoc l o x c : in_force (l ++ [o]) x c <->
  (o = OAddConstraint (Some c) /\ c_label c = x) \/
  (in_force l x c /\ o <> ORemoveConstraint (Some x) /\ forall d, o = OAddConstraint (Some d) -> c_label d <> x).
Proof.
  unfold in_force. split.
  - intros (l1 & l2 & E & HL & HR & HA). destruct l2 as [|o' l2 _] using rev_ind.
    + apply app_inj_tail in E. destruct E as [_ ->]. auto.
    + right. rewrite app_comm_cons, app_assoc in E. apply app_inj_tail in E. destruct E as [-> ->]. split.
      * exists l1, l2. split; auto. split; auto. split; [intros H; apply HR; apply in_or_app; auto|]. intros d H. apply HA. apply in_or_app; auto.
      * split; [intros ->; apply HR; apply in_or_app; simpl; auto|]. intros d ->. apply HA. apply in_or_app; simpl; auto.
  - intros [[-> HL]|((l1 & l2 & -> & HL & HR & HA) & NR & NA)].
    + exists l, []. repeat split; auto; try (intros d []).
    + exists l1, (l2 ++ [o]). split; [rewrite <- app_assoc; reflexivity|]. split; auto. split.
      * intros H. apply in_app_or in H. destruct H as [H|[H|[]]]; auto.
      * intros d H. apply in_app_or in H. destruct H as [H|[H|[]]]; auto.
Qed.
(** get_constraints_by_label() changes nothing, and finds a constraint under a
    label exactly when one was added and not removed since; otherwise KeyError.
    Without calls of delete_variable (which take the variable out of the
    constraints, C16) it is the constraint that was added last. *)
Theorem C140_constraints : forall t l x, let m := after l (new_model t) in
  fst (get_constraints_by_label x m) = m /\
  ((exists c, in_force (map called l) x c) <-> exists c, snd (get_constraints_by_label x m) = Ok c) /\
  ((~ exists c, in_force (map called l) x c) <-> snd (get_constraints_by_label x m) = Err KeyError) /\
  ((forall v, ~ In (ODelete v) (map called l)) -> forall c, in_force (map called l) x c <-> snd (get_constraints_by_label x m) = Ok c).
Proof.
  intros t l x. cbv zeta. split; [reflexivity|]. cbn [get_constraints_by_label].
  assert (HS : forall m, snd (get_constraints_by_label x m) = match dget x (m_constrs m) with Some c => Ok c | None => Err KeyError end) by reflexivity.
  rewrite HS.
  assert (H : NoDup (dkeys (m_constrs (after l (new_model t)))) /\
    ((exists c, in_force (map called l) x c) <-> In x (dkeys (m_constrs (after l (new_model t))))) /\
    ((forall v, ~ In (ODelete v) (map called l)) -> forall c, in_force (map called l) x c <-> dget x (m_constrs (after l (new_model t))) = Some c)).
  { induction l as [|c l (ND & IK & IC)] using rev_ind.
    - split; [constructor|]. split.
      + split; [intros (c & l1 & l2 & E & _); destruct l1; discriminate|intros []].
      + intros _ c. split; [intros (l1 & l2 & E & _); destruct l1; discriminate|discriminate].
    - rewrite after_snoc, map_app. cbn [map].
      destruct (constr_step (fst (fst c)) (snd (fst c)) (called c) _ ND) as (ND' & HK & HG). split; [exact ND'|]. split.
      + rewrite HK, <- IK. split.
        * intros (d & HF). apply in_force_snoc in HF. destruct HF as [[E HL]|(HF & NR & _)]; [left; eauto|right; eauto].
        * intros [(d & E & HL)|[(d & HF) NR]]; [exists d; apply in_force_snoc; auto|].
          destruct (called c) as [| | | | | | |[e|]| | | | | |] eqn:EC; try (exists d; apply in_force_snoc; right; repeat split; auto; discriminate).
          destruct (String.eqb_spec (c_label e) x) as [E|N].
          -- exists e. apply in_force_snoc. auto.
          -- exists d. apply in_force_snoc. right. repeat split; auto. intros d' E'. injection E' as <-. auto.
      + intros NV d. rewrite in_force_snoc, HG by (intros v E; apply (NV v), in_or_app; simpl; auto).
        assert (NV' : forall v, ~ In (ODelete v) (map called l)) by (intros v Hv; apply (NV v), in_or_app; auto).
        rewrite (IC NV' d).
        destruct (called c) as [| | | | | | |[e|]|[y|]| | | | |] eqn:EC;
          try (split; [intros [[E _]|[E _]]; [discriminate|exact E]|intros E; right; repeat split; auto; discriminate]).
        * destruct (String.eqb_spec x (c_label e)) as [->|N].
          -- split; [intros [[E _]|(_ & _ & E)]; [injection E as ->; auto|destruct (E e); auto]|intros E; injection E as ->; auto].
          -- split; [intros [[E HL]|[E _]]; [injection E as ->; congruence|exact E]|]. intros E. right. repeat split; auto; try discriminate. intros d' E'. injection E' as <-. auto.
        * destruct (String.eqb_spec x y) as [->|N].
          -- split; [intros [[E _]|(_ & E & _)]; [discriminate|destruct E; auto]|discriminate].
          -- split; [intros [[E _]|[E _]]; [discriminate|exact E]|]. intros E. right. repeat split; auto; try discriminate. congruence. }
  destruct H as (ND & HK & HC). split; [|split].
  - rewrite HK, <- dmem_in. unfold dmem. destruct (dget x _) as [c|]; split; try (intros _; eauto; fail); try discriminate. intros (c & E). discriminate.
  - rewrite HK, <- dmem_in. unfold dmem. destruct (dget x _) as [c|]; split; try discriminate; auto. intros N. destruct N; auto.
  - intros NV c. rewrite (HC NV c). destruct (dget x _); split; try discriminate; intros E; injection E as ->; reflexivity.
Qed.

(** A history with conversions, a fix whose value is only allowed after one of
    them, a deletion, and constraints added, replaced and removed. *)
Definition story : list call := map (fun o => (env0, evs0, o))
  [OVariables (VName "x") (ShTuple [ShInt 3]); OFix (TVar (mkVar "x[0]" Binary)) (qz (-1)); OIsing; OFix (TVar (mkVar "x[1]" Spin)) (qz (-1));
   OAddConstraint (Some (NHot [mkVar "x[2]" Spin] 1%Z "a" 1%Qc)); ODelete (TVar (mkVar "x[2]" Spin));
   OAddConstraint (Some (NHot [] 1%Z "b" 1%Qc)); OAddConstraint (Some (ZeroOrOne [mkVar "x[1]" Spin] "b" 1%Qc)); ORemoveConstraint (Some "a"); ORemove TNone (NStr "none")]%string.
Example C140_hyps :
  get_mtype (after story (new_model Qubo)) = "ising"%string /\
  get_deleted_array (after story (new_model Qubo)) = ["x[2]"]%string /\
  get_fixed_array (after story (new_model Qubo)) = ["x[1]"]%string /\
  snd (get_constraints_by_label "b" (after story (new_model Qubo))) = Ok (ZeroOrOne [mkVar "x[1]" Spin] "b" 1%Qc) /\
  snd (get_constraints_by_label "a" (after story (new_model Qubo))) = Err KeyError /\
  in_force (map called story) "b" (ZeroOrOne [mkVar "x[1]" Spin] "b" 1%Qc) /\
  fixed_in Qubo (map called story) "x[1]" /\ deleted_in (map called story) "x[2]" /\
  logical_model (MtStr "Ising") = Err ValueError.
Proof.
  repeat (split; [vm_compute; reflexivity|]).
  split. { eexists (firstn 7 (map called story)), (skipn 8 (map called story)). split; [reflexivity|]. split; [reflexivity|]. split; [cbn; intuition discriminate|]. cbn. intros d H. intuition discriminate. }
  split. { eexists (firstn 3 (map called story)), (mkVar "x[1]" Spin), (qz (-1)), (skipn 4 (map called story)). split; [reflexivity|]. split; [reflexivity|]. cbn. right. apply Qc_is_canon; reflexivity. }
  split. { exists (mkVar "x[2]" Spin). split; [|reflexivity]. cbn. tauto. }
  reflexivity.
Qed.
Print Assumptions C140_construct.
Print Assumptions C140_wrong_kind.
Print Assumptions C140_type.
Print Assumptions C140_deleted.
Print Assumptions C140_fixed.
Print Assumptions C140_constraints.
