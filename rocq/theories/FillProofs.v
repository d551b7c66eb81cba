(** * FillProofs: entering a number instead of a placeholder that gets that number later. *)
From Verif Require Import PyBase PyLemmas Numbers Constraint LogicalModel Spec History.
Local Open Scope string_scope.
Local Open Scope list_scope.

(** ** Specification *)

(** The expression with the values of [fd] in place of the placeholders: the numbers compute, the other placeholders stay. *)
Fixpoint fill (fd : feed) (c : coef) : coef :=
  match c with
  | CNum q => CNum q
  | CPh p => match dget p fd with Some q => CNum q | None => CPh p end
  | CAdd a b => cadd (fill fd a) (fill fd b)
  | CMul a b => cmul (fill fd a) (fill fd b)
  end.
Definition fill_arg (fd : feed) (a : carg) : carg := match a with AC c => AC (fill fd c) | ABad => ABad end.
(** The compiled pyqubo model with the values. *)
Definition fill_pq (fd : feed) (pq : pqmodel) : pqmodel :=
  mkPq (map (fun kc => (fst kc, fill fd (snd kc))) (pq_terms pq)) (pq_struct pq) (fill fd (pq_offset pq)).
(** The call with the values; the feed of to_physical stays as it is. *)
Definition fill_op (fd : feed) (o : op) : op :=
  match o with
  | OAdd t n co sc a ts => OAdd t n (fill_arg fd co) (fill_arg fd sc) a ts
  | OUpdate t n co sc a ts => OUpdate t n (option_map (fill_arg fd) co) (option_map (fill_arg fd) sc) a ts
  | OOffset c => OOffset (fill fd c)
  | OPyqubo pq => OPyqubo (fill_pq fd pq)
  | _ => o
  end.
(** The model with the values: interactions and offset; nothing else changes. *)
Definition fill_row (fd : feed) (r : row) : row :=
  mkRow (r_name r) (r_key r) (r_inter r) (fill fd (r_coef r)) (fill fd (r_scale r)) (r_ts r) (r_dirty r) (r_removed r).
Definition fill_model (fd : feed) (m : lmodel) : lmodel :=
  mkModel (m_mtype m) (m_vars m) (fill fd (m_offset m)) (m_deleted m) (m_fixed m) (m_constrs m) (map (fill_row fd) (m_rows m)) (m_cols m) (m_attrs m) (m_len m) (m_prev m).

(** ** Values *)
Lemma fill_add fd a b : fill fd (cadd a b) = cadd (fill fd a) (fill fd b).
Proof. destruct a, b; reflexivity. Qed.
Lemma fill_mul fd a b : fill fd (cmul a b) = cmul (fill fd a) (fill fd b).
Proof. destruct a, b; reflexivity. Qed.
Lemma ceval_cadd fd a b : ceval fd (cadd a b) = ceval fd (CAdd a b).
Proof. destruct a, b; reflexivity. Qed.
Lemma ceval_cmul fd a b : ceval fd (cmul a b) = ceval fd (CMul a b).
Proof. destruct a, b; reflexivity. Qed.
Lemma ceval_fill fd fd' c : ceval fd' (fill fd c) = ceval (fd ++ fd') c.
Proof.
  induction c as [q|p|a IHa b IHb|a IHa b IHb]; cbn [fill].
  - reflexivity.
  - cbn [ceval]. induction fd as [|[k v] fd IH]; [reflexivity|]. cbn [dget app]. destruct (eqb p k); [reflexivity|exact IH].
  - rewrite ceval_cadd. cbn [ceval]. rewrite IHa, IHb. reflexivity.
  - rewrite ceval_cmul. cbn [ceval]. rewrite IHa, IHb. reflexivity.
Qed.

Section Fill.
Variable fd : feed.
Notation F := (fill_model fd).
Notation R := (fill_row fd).

(** [g] does on the filled model what [f] does on the model, returning or raising. *)
Definition ex {A B} (h : A -> B) (f : LM A) (g : LM B) : Prop :=
  forall m, g (F m) = (F (fst (f m)), match snd (f m) with Ok a => Ok (h a) | Err e => Err e end).
(** The same when [f] returns. *)
Definition ho {A B} (h : A -> B) (f : LM A) (g : LM B) : Prop :=
  forall m m' a, f m = (m', Ok a) -> g (F m) = (F m', Ok (h a)).
Lemma ex_ho {A B} (h : A -> B) f g : ex h f g -> ho h f g.
Proof. intros H m m' a E. rewrite H, E. reflexivity. Qed.
Notation id := (fun x => x).

Lemma ex_ret {A B} (h : A -> B) a : ex h (ret a) (ret (h a)).
Proof. intros m. reflexivity. Qed.
Lemma ex_raise {A B} (h : A -> B) e : ex h (raise e) (raise e).
Proof. intros m. reflexivity. Qed.
Lemma ex_lift {A} (r : res A) : ex id (lift r) (lift r).
Proof. intros m. cbn. destruct r; reflexivity. Qed.
Lemma ex_lift_h {A B} (h : A -> B) r r' : r' = match r with Ok a => Ok (h a) | Err e => Err e end -> ex h (lift r) (lift r').
Proof. intros -> m. reflexivity. Qed.
Lemma ex_guard b e : ex id (guard b e) (guard b e).
Proof. destruct b; [apply (ex_ret id)|apply ex_raise]. Qed.
Lemma ex_bind {A B C D} (h : A -> B) (h' : C -> D) f g k k' : ex h f g -> (forall a, ex h' (k a) (k' (h a))) -> ex h' (bind f k) (bind g k').
Proof. intros H K m. unfold bind. rewrite (H m). destruct (f m) as [m1 [a|e]]; cbn [fst snd]; [apply K|reflexivity]. Qed.
Lemma ho_bind {A B C D} (h : A -> B) (h' : C -> D) f g k k' : ho h f g -> (forall a, ho h' (k a) (k' (h a))) -> ho h' (bind f k) (bind g k').
Proof.
  intros H K m m' c E. unfold bind in *. destruct (f m) as [m1 [a|e]] eqn:EF; [|discriminate]. rewrite (H _ _ _ EF). apply K. exact E.
Qed.
Lemma ex_get {C D} (h' : C -> D) k k' : (forall m0, ex h' (k m0) (k' (F m0))) -> ex h' (bind get k) (bind get k').
Proof. intros K m. unfold bind, get. apply K. Qed.
Lemma ho_get {C D} (h' : C -> D) k k' : (forall m0, ho h' (k m0) (k' (F m0))) -> ho h' (bind get k) (bind get k').
Proof. intros K m m' c E. unfold bind, get in *. apply K. exact E. Qed.
Lemma ex_modify u v : (forall m, v (F m) = F (u m)) -> ex id (modify u) (modify v).
Proof. intros H m. unfold modify. cbn [fst snd]. rewrite H. reflexivity. Qed.
Lemma ex_mfor {A B} (t : A -> B) l k k' : (forall a, In a l -> ex id (k a) (k' (t a))) -> ex id (mfor l k) (mfor (map t l) k').
Proof.
  induction l as [|a l IH]; intros H; cbn [mfor map]; [apply (ex_ret id)|]. apply (ex_bind id id); [apply H; left; reflexivity|].
  intros _. apply IH. intros b HB. apply H. right. exact HB.
Qed.
Lemma ex_mfor_same {A} (l : list A) k : (forall a, In a l -> ex id (k a) (k a)) -> ex id (mfor l k) (mfor l k).
Proof. intros H. assert (X := ex_mfor (fun a : A => a) l k k H). rewrite map_id in X. exact X. Qed.
Lemma ho_mfor {A B} (t : A -> B) l k k' : (forall a, In a l -> ho id (k a) (k' (t a))) -> ho id (mfor l k) (mfor (map t l) k').
Proof.
  induction l as [|a l IH]; intros H; cbn [mfor map]; [apply ex_ho, (ex_ret id)|]. apply (ho_bind id id); [apply H; left; reflexivity|].
  intros _. apply IH. intros b HB. apply H. right. exact HB.
Qed.

(** ** Lookups *)
Lemma names_fill m : names (F m) = names m.
Proof. unfold names, fill_model. cbn [m_rows]. rewrite map_map. apply map_ext. reflexivity. Qed.
Lemma has_name_fill m n : has_name (F m) n = has_name m n.
Proof. unfold has_name. rewrite names_fill. reflexivity. Qed.
Lemma name_index_fill m n : name_index (F m) n = name_index m n.
Proof. unfold name_index. rewrite names_fill. reflexivity. Qed.
Lemma nth_fill i l : nth_error (map R l) i = option_map R (nth_error l i).
Proof. revert i. induction l as [|r l IH]; intros [|i]; cbn; auto. Qed.
Lemma is_removed_fill m n : is_removed (F m) n = is_removed m n.
Proof.
  unfold is_removed. rewrite name_index_fill. destruct (name_index m n); [|reflexivity]. cbn [m_rows fill_model]. rewrite nth_fill. destruct (nth_error (m_rows m) a); reflexivity.
Qed.
Lemma upd_fill f g i l : (forall r, f (R r) = R (g r)) -> upd_nth i f (map R l) = map R (upd_nth i g l).
Proof. intros H. revert i. induction l as [|r l IH]; intros [|i]; cbn [upd_nth map]; auto; [rewrite H; reflexivity|rewrite IH; reflexivity]. Qed.
Lemma ex_upd i f g : (forall r, f (R r) = R (g r)) -> ex id (upd_row i g) (upd_row i f).
Proof. intros H. apply ex_modify. intros m. unfold with_rows, fill_model. cbn. rewrite (upd_fill f g i _ H). reflexivity. Qed.
Lemma df_fill m : df_ok (F m) = df_ok m.
Proof. unfold df_ok, fill_model. cbn [m_cols m_rows]. rewrite map_length. reflexivity. Qed.
Lemma ex_dataframe : ex (map R) dataframe dataframe.
Proof. intros m. unfold dataframe. rewrite df_fill. destruct (df_ok m); reflexivity. Qed.
Lemma ex_select l : ex id (select_by_variable l) (select_by_variable l).
Proof.
  apply (ex_bind (map R) id); [apply ex_dataframe|]. intros rows m. unfold ret. cbn [fst snd]. f_equal. f_equal. clear m.
  induction rows as [|r rows IH]; [reflexivity|]. cbn [map filter r_key fill_row]. destruct (key_touches l (r_key r)); cbn [map]; rewrite IH; reflexivity.
Qed.

(** ** Calls *)
Lemma ex_expand : ex id expand_attrs expand_attrs.
Proof.
  intros m. unfold expand_attrs. cbn [m_attrs fill_model].
  apply (ex_mfor_same (m_attrs m)). intros a _ n. cbn [m_cols fill_model]. destruct (dget a (m_cols n)); reflexivity.
Qed.
Lemma ex_set_new_attr kv : ex id (set_new_attr kv) (set_new_attr kv).
Proof.
  intros m. unfold set_new_attr. cbn [m_cols fill_model m_len m_attrs]. destruct (dmem (attr_key (fst kv)) (m_cols m)).
  - cbn [m_cols fill_model]. destruct (dget _ _); [|reflexivity]. destruct (set_last _ _); reflexivity.
  - cbn [m_cols with_attrs with_cols]. destruct (dget _ _); [|reflexivity]. destruct (set_last _ _); reflexivity.
Qed.
Lemma ex_add ev t n co sc a ts : ex id (add_interaction ev t n co sc a ts) (add_interaction ev t n (fill_arg fd co) (fill_arg fd sc) a ts).
Proof.
  unfold add_interaction. apply (ex_bind id id); [apply ex_guard|]. intros _.
  apply (ex_bind (fill fd) id). { apply ex_lift_h. destruct co; reflexivity. } intros c.
  apply (ex_bind (fill fd) id). { apply ex_lift_h. destruct sc; reflexivity. } intros s.
  apply (ex_bind id id); [apply ex_lift|]. intros ats. apply (ex_bind id id); [apply ex_lift|]. intros q.
  apply (ex_bind id id); [apply ex_lift|]. intros inf. apply (ex_bind id id); [apply ex_lift|]. intros nm.
  apply ex_get. intros m0. rewrite has_name_fill. apply (ex_bind id id); [apply ex_guard|]. intros _.
  apply (ex_bind id id). { apply ex_modify. intros m. unfold with_rows, fill_model. cbn. rewrite map_app. reflexivity. } intros _.
  apply (ex_bind id id); [apply ex_expand|]. intros _.
  apply (ex_bind id id). { apply ex_mfor_same. intros kv _. apply ex_set_new_attr. } intros _. apply ex_modify. intros m. reflexivity.
Qed.
Lemma ex_add_num ev t n q q' a ts : ex id (add_interaction ev t n (AC (CNum q)) (AC (CNum q')) a ts) (add_interaction ev t n (AC (CNum q)) (AC (CNum q')) a ts).
Proof. exact (ex_add ev t n (AC (CNum q)) (AC (CNum q')) a ts). Qed.
Lemma ex_update_attr i kv : ex id (update_attr i kv) (update_attr i kv).
Proof.
  intros m. unfold update_attr. cbn [m_cols fill_model m_len m_attrs]. destruct (dmem (attr_key (fst kv)) (m_cols m)).
  - cbn [m_cols fill_model]. destruct (dget _ _); [|reflexivity]. destruct (set_nth _ _ _); reflexivity.
  - cbn [m_cols with_attrs with_cols]. destruct (dget _ _); [|reflexivity]. destruct (set_nth _ _ _); reflexivity.
Qed.
Lemma ex_opt_do {A B} (t : A -> B) o k k' : (forall a, ex id (k a) (k' (t a))) -> ex id (opt_do o k) (opt_do (option_map t o) k').
Proof. intros H. destruct o as [a|]; cbn; [apply H|apply (ex_ret id)]. Qed.
Lemma ex_update_at nm c s a q : ex id (update_at nm c s a q) (update_at nm (option_map (fill fd) c) (option_map (fill fd) s) a q).
Proof.
  unfold update_at. apply ex_get. intros m0. rewrite name_index_fill. apply (ex_bind id id); [apply ex_lift|]. intros i.
  apply (ex_bind id id). { apply ex_opt_do. intros c'. apply ex_upd. reflexivity. } intros _.
  apply (ex_bind id id). { apply ex_opt_do. intros c'. apply ex_upd. reflexivity. } intros _.
  apply (ex_bind id id). { assert (X := ex_opt_do (fun x : dict string aval => x) a (fun d => mfor d (update_attr i)) (fun d => mfor d (update_attr i))).
    replace (option_map (fun x => x) a) with a in X by (destruct a; reflexivity). apply X. intros d. apply ex_mfor_same. intros kv _. apply ex_update_attr. } intros _.
  apply (ex_bind id id); [apply ex_upd; reflexivity|]. intros _. apply ex_upd. reflexivity.
Qed.
(** With numbers (the only values update_interaction accepts) the call is the same on both sides. *)
Definition number_arg (a : option carg) : Prop := match a with Some (AC (CNum _)) | None => True | _ => False end.
Lemma ex_update ev t n co sc a ts : number_arg co -> number_arg sc ->
  ex id (update_interaction ev t n co sc a ts) (update_interaction ev t n (option_map (fill_arg fd) co) (option_map (fill_arg fd) sc) a ts).
Proof.
  intros NC NS. unfold update_interaction. apply (ex_bind id id); [apply ex_guard|]. intros _. apply (ex_bind id id); [apply ex_guard|]. intros _.
  apply (ex_bind (option_map (fill fd)) id). { apply ex_lift_h. destruct co as [[[]|]|]; try contradiction; reflexivity. } intros c.
  apply (ex_bind (option_map (fill fd)) id). { apply ex_lift_h. destruct sc as [[[]|]|]; try contradiction; reflexivity. } intros s.
  apply (ex_bind id id); [apply ex_lift|]. intros at'. apply (ex_bind id id); [apply ex_lift|]. intros q. apply (ex_bind id id); [apply ex_lift|]. intros inf.
  apply ex_get. intros m0. destruct (n_truthy n).
  - destruct n; try apply ex_raise. rewrite has_name_fill, is_removed_fill. apply (ex_bind id id); [apply ex_guard|]. intros _. apply (ex_bind id id); [apply ex_lift|]. intros rem.
    apply (ex_bind id id); [apply ex_guard|]. intros _. apply ex_update_at.
  - destruct inf as [inf|]; [|apply ex_raise]. rewrite has_name_fill, is_removed_fill. destruct (has_name m0 (in_name inf)).
    + apply (ex_bind id id); [apply ex_lift|]. intros rem. apply (ex_bind id id); [apply ex_guard|]. intros _. apply ex_update_at.
    + assert (X := ex_add ev t (NStr "") (AC (match c with Some c => c | None => CNum 0%Qc end)) (AC (match s with Some s => s | None => CNum 1%Qc end)) AtNone (match q with Some q => TsNum q | None => TsNone end)).
      cbn [fill_arg] in X. destruct c, s; exact X.
Qed.
Lemma opt_num_number a c : check_opt_num a = Ok c -> number_arg a.
Proof. destruct a as [[[]|]|]; cbn; auto; discriminate. Qed.
Lemma ho_update ev t n co sc a ts :
  ho id (update_interaction ev t n co sc a ts) (update_interaction ev t n (option_map (fill_arg fd) co) (option_map (fill_arg fd) sc) a ts).
Proof.
  intros m m' u E. assert (NN : number_arg co /\ number_arg sc).
  { unfold update_interaction, bind, guard, lift, raise, ret in E. destruct (t_truthy t || n_truthy n); [|discriminate]. destruct (negb _); [|discriminate].
    destruct (check_opt_num co) eqn:E1; [|discriminate]. destruct (check_opt_num sc) eqn:E2; [|discriminate]. split; eapply opt_num_number; eauto. }
  destruct NN as [NC NS]. exact (ex_ho _ _ _ (ex_update ev t n co sc a ts NC NS) m m' u E).
Qed.
Lemma ex_internal t n : ex id (internal_name t n) (internal_name t n).
Proof.
  unfold internal_name. apply (ex_bind id id); [apply ex_guard|]. intros _. apply (ex_bind id id); [apply ex_guard|]. intros _. apply (ex_bind id id); [apply ex_lift|]. intros inf.
  apply ex_get. intros m0. destruct (n_truthy n).
  - destruct n; try apply ex_raise. rewrite has_name_fill. apply (ex_bind id id); [apply ex_guard|]. intros _. apply (ex_ret id).
  - destruct inf as [inf|]; [|apply ex_raise]. rewrite has_name_fill. apply (ex_bind id id); [apply ex_guard|]. intros _. apply (ex_ret id).
Qed.
Lemma ex_remove t n : ex id (remove_interaction t n) (remove_interaction t n).
Proof.
  unfold remove_interaction. apply (ex_bind id id); [apply ex_internal|]. intros nm. apply ex_get. intros m0. rewrite name_index_fill. apply (ex_bind id id); [apply ex_lift|]. intros i.
  apply (ex_bind id id); [apply ex_upd; reflexivity|]. intros _. apply ex_upd. reflexivity.
Qed.
Lemma ex_delete t : ex id (delete_variable t) (delete_variable t).
Proof.
  unfold delete_variable. apply (ex_bind id id); [apply ex_guard|]. intros _. destruct t; try apply ex_raise.
  apply (ex_bind id id); [apply ex_modify; reflexivity|]. intros _. apply ex_get. intros m0. cbn [m_constrs fill_model].
  apply (ex_bind id id). { apply ex_mfor_same. intros k _ m. unfold constr_remove. cbn [m_constrs fill_model]. destruct (dget k (m_constrs m)); [|reflexivity]. destruct (c_remove_variable _ _) as [c' []]; reflexivity. } intros _.
  apply (ex_bind id id); [apply ex_select|]. intros sel. apply ex_mfor_same. intros n _. apply ex_remove.
Qed.
Lemma ex_fix_one ev l v n : ex id (fix_one ev l v n) (fix_one ev l v n).
Proof.
  unfold fix_one. apply ex_get. intros m0. rewrite name_index_fill. apply (ex_bind id id); [apply ex_lift|]. intros i. cbn [m_rows fill_model]. rewrite nth_fill.
  destruct (nth_error (m_rows m0) i) as [r|]; cbn [option_map]; [|apply ex_raise]. cbn [r_key fill_row]. destruct (r_key r).
  - apply (ex_bind id id); [|intros _; apply ex_remove]. apply ex_modify. intros m. unfold with_offset, fill_model. cbn [m_offset r_coef r_scale fill_row]. rewrite fill_add, !fill_mul. reflexivity.
  - cbn [r_inter]. apply (ex_bind id id); [apply ex_lift|]. intros to. apply (ex_bind id id); [|intros _; apply ex_remove].
    assert (X := ex_add ev (TVar to) (NStr (v_label to +++ " (before fixed: " +++ n +++ ")")) (AC (cmul (cmul (CNum v) (r_coef r)) (r_scale r))) (AC (CNum 1%Qc)) AtNone TsNone).
    cbn [fill_arg] in X. rewrite !fill_mul in X. exact X.
Qed.
Lemma ex_fix ev t v : ex id (fix_variable ev t v) (fix_variable ev t v).
Proof.
  unfold fix_variable. apply (ex_bind id id); [apply ex_guard|]. intros _. destruct t; try apply ex_raise.
  apply ex_get. intros m0. cbn [m_mtype fill_model]. apply (ex_bind id id); [apply ex_guard|]. intros _. apply (ex_bind id id); [apply ex_modify; reflexivity|]. intros _.
  apply (ex_bind id id); [apply ex_select|]. intros sel. destruct (Qc_eqb v 0); apply ex_mfor_same; intros n _; [apply ex_remove|apply ex_fix_one].
Qed.
Lemma ex_variables n sh : ex id (variables n sh) (variables n sh).
Proof.
  intros m. unfold variables. cbn [m_mtype m_vars fill_model]. destruct n as [s|a|].
  - destruct (check_shape false sh); [|reflexivity]. destruct (array_create _ _ _); reflexivity.
  - destruct (a_bits a); [reflexivity|]. destruct (negb _); [reflexivity|]. destruct (before_char _ _); reflexivity.
  - reflexivity.
Qed.
Lemma ex_append n sh : ex id (append n sh) (append n sh).
Proof.
  intros m. unfold append. destruct n as [s|a|]; try reflexivity. destruct (check_shape true sh); [|reflexivity]. cbn [m_vars fill_model m_mtype].
  destruct (dget s (m_vars m)); [|apply ex_variables]. destruct (array_create _ _ _); reflexivity.
Qed.
Lemma ex_add_constraint c : ex id (add_constraint c) (add_constraint c).
Proof. destruct c; [apply ex_modify; reflexivity|apply ex_raise]. Qed.
Lemma ex_remove_constraint l : ex id (remove_constraint l) (remove_constraint l).
Proof. intros m. unfold remove_constraint. cbn [m_constrs fill_model]. destruct l as [l|]; [|reflexivity]. destruct (dmem l (m_constrs m)); reflexivity. Qed.
Lemma ex_offset c : ex id (set_offset c) (set_offset (fill fd c)).
Proof. apply ex_modify. reflexivity. Qed.
Lemma lookup_fill m pq l : pq_lookup (F m) (fill_pq fd pq) l = pq_lookup m pq l.
Proof. reflexivity. Qed.
Lemma pq_step_fill ev m pq k c : exists c2, pq_step ev (F m) (fill_pq fd pq) (k, fill fd c) =
  (F (fst (fst (pq_step ev m pq (k, c)))), c2, snd (pq_step ev m pq (k, c))).
Proof.
  destruct k as [k0 k1]. unfold pq_step. rewrite !lookup_fill. destruct (pq_lookup m pq k0) as [t0|]; [|eexists; reflexivity]. destruct (pq_lookup m pq k1) as [t1|]; [|eexists; reflexivity].
  assert (X := ex_add ev (if String.eqb k0 k1 then TVar t0 else TTuple [EVar t0; EVar t1]) (NStr "") (AC (cneg c)) (AC (CNum 1%Qc)) AtNone TsNone m).
  cbn [fill_arg] in X. replace (fill fd (cneg c)) with (cneg (fill fd c)) in X by (unfold cneg; rewrite fill_mul; reflexivity). cbn [fill] in X. rewrite X.
  eexists. destruct (add_interaction _ _ _ _ _ _ _ m) as [m' [[]|]]; reflexivity.
Qed.
Lemma pq_loop_fill ev pq l : forall m, exists l2, pq_loop ev (F m) (fill_pq fd pq) (map (fun kc => (fst kc, fill fd (snd kc))) l) =
  (F (fst (fst (pq_loop ev m pq l))), l2, snd (pq_loop ev m pq l)).
Proof.
  induction l as [|[k c] l IH]; intros m; cbn [pq_loop map fst snd]; [eexists; reflexivity|].
  destruct (pq_step_fill ev m pq k c) as [c2 E]. rewrite E. destruct (pq_step ev m pq (k, c)) as [[m1 c1] [[]|e]]; cbn [fst snd]; [|eexists; reflexivity].
  destruct (IH m1) as [l2 E2]. rewrite E2. destruct (pq_loop ev m1 pq l) as [[m2 l1] x]. eexists. reflexivity.
Qed.
Lemma pyqubo_fill ev m pq : exists pq2, from_pyqubo ev (F m) (fill_pq fd pq) = (F (fst (fst (from_pyqubo ev m pq))), pq2, snd (from_pyqubo ev m pq)).
Proof.
  unfold from_pyqubo. destruct (pq_loop_fill ev pq (pq_terms pq) m) as [l2 E]. cbn [pq_terms fill_pq]. rewrite E. destruct (pq_loop ev m pq (pq_terms pq)) as [[m1 l1] [[]|e]]; cbn [fst snd]; eexists; reflexivity.
Qed.

(** ** Conversion *)
Lemma ex_update_types : ex id update_variables_type update_variables_type.
Proof.
  intros m. unfold update_variables_type. cbn [m_mtype m_vars fill_model]. destruct (recreate _ _ _) as [vs [[]|e]]; [|reflexivity].
  change (with_vars vs (F m)) with (F (with_vars vs m)). rewrite df_fill. destruct (df_ok (with_vars vs m)); [|reflexivity]. cbn [fst snd]. f_equal.
  unfold with_rows, fill_model. cbn. f_equal. rewrite !map_map. apply map_ext. intros r. cbn [r_removed fill_row]. destruct (r_removed r); reflexivity.
Qed.
Lemma ho_conv_h ev a b r : ho id (conv_h ev a b r) (conv_h ev a b (R r)).
Proof.
  unfold conv_h. apply (ho_bind id id).
  - assert (X := ho_update ev TNone (NStr (r_name r)) (Some (AC (cmul (r_coef r) (CNum a)))) None AtNone (update_default_ts ev)). cbn [option_map fill_arg] in X. rewrite fill_mul in X. exact X.
  - intros _. apply ex_ho, ex_modify. intros m. unfold with_offset, fill_model. cbn [m_offset r_coef fill_row]. rewrite fill_add, fill_mul. reflexivity.
Qed.
Lemma ho_conv_J ev a b c k r : ho id (conv_J ev a b c k r) (conv_J ev a b c k (R r)).
Proof.
  unfold conv_J. apply (ho_bind id id).
  - assert (X := ho_update ev TNone (NStr (r_name r)) (Some (AC (cmul (r_coef r) (CNum a)))) None AtNone (update_default_ts ev)). cbn [option_map fill_arg] in X. rewrite fill_mul in X. exact X.
  - intros _. cbn [r_inter r_key r_name r_coef fill_row]. destruct (r_inter r), (r_key r); try (apply ex_ho, ex_raise). apply ex_ho.
    apply (ex_bind id id). { assert (X := ex_add ev (TVar v0) (NStr (mtype_add_name ev (2 * k) l0 (r_name r))) (AC (cmul (r_coef r) (CNum b))) (AC (CNum 1%Qc)) AtNone TsNone). cbn [fill_arg] in X. rewrite fill_mul in X. exact X. } intros _.
    apply (ex_bind id id). { assert (X := ex_add ev (TVar v1) (NStr (mtype_add_name ev (2 * k + 1) l1 (r_name r))) (AC (cmul (r_coef r) (CNum b))) (AC (CNum 1%Qc)) AtNone TsNone). cbn [fill_arg] in X. rewrite fill_mul in X. exact X. } intros _.
    apply ex_modify. intros m. unfold with_offset, fill_model. cbn [m_offset]. rewrite fill_add, fill_mul. reflexivity.
Qed.
Lemma ho_conv_Js ev a b c l : forall k, ho id (conv_Js ev a b c k l) (conv_Js ev a b c k (map R l)).
Proof.
  induction l as [|r l IH]; intros k; cbn [conv_Js map]; [apply ex_ho, (ex_ret id)|]. apply (ho_bind id id); [apply ho_conv_J|]. intros _. apply IH.
Qed.
Lemma filter_fill f l : (forall r, f (R r) = f r) -> filter f (map R l) = map R (filter f l).
Proof. intros H. induction l as [|r l IH]; [reflexivity|]. cbn [map filter]. rewrite H. destruct (f r); cbn [map]; rewrite IH; reflexivity. Qed.
Lemma ho_convert ev t ha hb ja jb jc : ho id (convert ev t ha hb ja jb jc) (convert ev t ha hb ja jb jc).
Proof.
  unfold convert. apply ho_get. intros m0. cbn [m_mtype fill_model]. destruct (mtype_eqb (m_mtype m0) t); [apply ex_ho, (ex_ret id)|].
  apply (ho_bind id id); [apply ex_ho, ex_modify; reflexivity|]. intros _. apply (ho_bind id id); [apply ex_ho, ex_update_types|]. intros _.
  apply (ho_bind (map R) id); [apply ex_ho, ex_dataframe|]. intros h_df. apply (ho_bind id id). { rewrite filter_fill by reflexivity. apply ho_mfor. intros r _. apply ho_conv_h. } intros _.
  apply (ho_bind (map R) id); [apply ex_ho, ex_dataframe|]. intros j_df. rewrite filter_fill by reflexivity. apply ho_conv_Js.
Qed.
Lemma ho_to_ising ev : ho id (to_ising ev) (to_ising ev).
Proof. exact (ho_convert ev Ising (qfrac 1 2) (qfrac 1 2) (qfrac 1 4) (qfrac 1 4) (qfrac 1 4)). Qed.
Lemma ho_to_qubo ev : ho id (to_qubo ev) (to_qubo ev).
Proof. exact (ho_convert ev Qubo (qz 2) (qz (-1)) (qz 4) (qz (-2)) (qz 1)). Qed.
Lemma ho_convert_mtype ev : ho id (convert_mtype ev) (convert_mtype ev).
Proof. unfold convert_mtype. apply ho_get. intros m0. cbn [m_mtype fill_model]. destruct (m_mtype m0); [apply ho_to_qubo|apply ho_to_ising]. Qed.

(** ** Merge *)
Lemma ex_merge_var kv : ex id (merge_var kv) (merge_var kv).
Proof. intros m. unfold merge_var. cbn [m_vars fill_model]. destruct (dget (fst kv) (m_vars m)); [apply ex_append|reflexivity]. Qed.
Lemma rename_fill dup i1 i2 len l : forall k, rename_rows dup i1 i2 len k (map R l) = map R (rename_rows dup i1 i2 len k l).
Proof. induction l as [|r l IH]; intros k; cbn [rename_rows map]; [reflexivity|]. rewrite IH. cbn [r_name fill_row]. destruct (mem (r_name r) dup); reflexivity. Qed.
Lemma merge_cols_fill m o l : merge_cols (F m) (F o) l = merge_cols m o l.
Proof. induction l as [|a l IH]; [reflexivity|]. cbn [merge_cols]. rewrite IH. reflexivity. Qed.
Lemma ex_merge_same ev k o : ex id (merge_same ev k o) (merge_same ev k (F o)).
Proof.
  unfold merge_same. apply ex_get. intros m0. apply (ex_bind id id); [exact (ex_guard (dims_ok m0 o) ValueError)|]. intros _.
  apply (ex_bind id id). { cbn [m_vars fill_model]. apply ex_mfor_same. intros kv _. apply ex_merge_var. } intros _.
  apply ex_get. intros m1. rewrite merge_cols_fill. change (merge_attrs_list (F m1) (F o)) with (merge_attrs_list m1 o). destruct (merge_cols m1 o (merge_attrs_list m1 o)) as [cols|]; [|apply ex_raise].
  apply (ex_bind id id).
  { apply ex_modify. intros m. unfold dup_names. rewrite !names_fill. unfold with_len, with_attrs, with_cols, with_rows, fill_model. cbn. rewrite <- map_app, rename_fill. reflexivity. } intros _.
  apply (ex_bind id id); [exact (ex_guard (negb (existsb (fun l => dmem l (m_constrs o)) (dkeys (m_constrs m1)))) ValueError)|]. intros _.
  apply ex_modify. intros m. unfold with_fixed, with_deleted, with_offset, with_constrs, fill_model. cbn. rewrite fill_add. reflexivity.
Qed.
Lemma merge_fill ev evo k m o m' o' : merge ev evo k m o = (m', o', Ok tt) -> merge ev evo k (F m) (F o) = (F m', F o', Ok tt).
Proof.
  unfold merge. cbn [m_mtype fill_model]. destruct (mtype_eqb (m_mtype m) (m_mtype o)).
  - intros E. rewrite (ex_merge_same ev k o m). destruct (merge_same ev k o m) as [m1 [[]|e]]; [|discriminate]. injection E as <- <-. reflexivity.
  - destruct (convert_mtype evo o) as [o1 [[]|e]] eqn:EC; [|discriminate]. rewrite (ho_convert_mtype evo _ _ _ EC). intros E.
    rewrite (ex_merge_same ev k o1 m). destruct (merge_same ev k o1 m) as [m1 [[]|e]]; [|discriminate]. injection E as <- <-. reflexivity.
Qed.

(** ** Constraints and to_physical *)
Lemma new_fill t : F (new_model t) = new_model t.
Proof. reflexivity. Qed.
Lemma ex_cadd1 ev l q v : ex id (cadd1 ev l q v) (cadd1 ev l q v).
Proof. apply ex_add_num. Qed.
Lemma ex_cadd2 ev l q v w : ex id (cadd2 ev l q v w) (cadd2 ev l q v w).
Proof. apply ex_add_num. Qed.
Lemma ex_pairs ev l q vs v : ex id (cadd_pairs_of ev l q vs v) (cadd_pairs_of ev l q vs v).
Proof. unfold cadd_pairs_of. apply ex_mfor_same. intros w _. destruct (String.ltb _ _); [apply ex_cadd2|apply (ex_ret id)]. Qed.
Lemma from_new (f : LM unit) t : ex id f f -> F (fst (f (new_model t))) = fst (f (new_model t)).
Proof. intros H. specialize (H (new_model t)). rewrite new_fill in H. destruct (f (new_model t)) as [m r]. cbn [fst snd] in *. injection H as E _. symmetry. exact E. Qed.
Lemma to_model_fill ev c : F (fst (to_model ev c)) = fst (to_model ev c).
Proof.
  destruct c; cbn [to_model]; apply from_new.
  - apply ex_mfor_same. intros v _. apply (ex_bind id id); [apply ex_cadd1|]. intros _. apply ex_pairs.
  - apply ex_mfor_same. intros v _. apply ex_pairs.
  - apply (ex_bind id id); [apply ex_mfor_same; intros; apply ex_cadd1|]. intros _. apply (ex_bind id id); [apply ex_mfor_same; intros; apply ex_pairs|]. intros _.
    apply (ex_bind id id); [apply ex_mfor_same; intros; apply ex_pairs|]. intros _. apply ex_mfor_same. intros v _. apply ex_mfor_same. intros w _. apply ex_cadd2.
Qed.
Lemma merge_plain ev evo k m o : F o = o -> exists o', merge ev evo k (F m) o = (F (fst (fst (merge ev evo k m o))), o', snd (merge ev evo k m o)).
Proof.
  intros HO. unfold merge. cbn [m_mtype fill_model]. destruct (mtype_eqb (m_mtype m) (m_mtype o)).
  - assert (X := ex_merge_same ev k o m). rewrite HO in X. rewrite X. destruct (merge_same ev k o m) as [m1 [[]|e]]; eexists; reflexivity.
  - destruct (convert_mtype evo o) as [o1 [[]|e]] eqn:EC; [|eexists; reflexivity]. assert (HO1 : F o1 = o1). { assert (X := ho_convert_mtype evo _ _ _ EC). rewrite HO in X. congruence. }
    assert (X := ex_merge_same ev k o1 m). rewrite HO1 in X. rewrite X. destruct (merge_same ev k o1 m) as [m1 [[]|e]]; eexists; reflexivity.
Qed.
Lemma ex_merge_constrs ev evs cs : forall k, ex id (merge_constrs ev evs k cs) (merge_constrs ev evs k cs).
Proof.
  induction cs as [|c cs IH]; intros k m; cbn [merge_constrs]; [apply (ex_ret id)|]. assert (X := to_model_fill (evs k) c). destruct (to_model (evs k) c) as [cm [[]|e]]; [|reflexivity]. cbn [fst] in X.
  destruct (merge_plain ev (evs k) k m cm X) as [o' E]. rewrite E. destruct (merge ev (evs k) k m cm) as [[m1 o1] [[]|e]]; cbn [fst snd]; [|reflexivity]. apply IH.
Qed.
Lemma agg_fill fd' l : forall g, agg_rows fd' g (map R l) = agg_rows (fd ++ fd') g l.
Proof.
  assert (A : forall g r, agg_row fd' g (R r) = agg_row (fd ++ fd') g r).
  { intros g r. unfold agg_row. cbn [r_removed r_key r_name r_coef r_scale fill_row]. destruct (r_removed r); [reflexivity|]. rewrite <- fill_mul, ceval_fill. reflexivity. }
  induction l as [|r l IH]; intros g; [reflexivity|]. cbn [agg_rows map]. rewrite A. destruct (agg_row (fd ++ fd') g r); [apply IH|reflexivity].
Qed.
Lemma pop_fill i l : pop_nth i (map R l) = option_map (map R) (pop_nth i l).
Proof. revert i. induction l as [|r l IH]; intros [|i]; cbn [pop_nth map]; try reflexivity. rewrite IH. destruct (pop_nth i l); reflexivity. Qed.
Lemma ex_purge n : ex id (purge_one n) (purge_one n).
Proof.
  unfold purge_one. apply ex_get. intros m0. rewrite name_index_fill. apply (ex_bind id id); [apply ex_lift|]. intros i. cbn [m_rows m_cols fill_model]. rewrite pop_fill.
  destruct (pop_nth i (m_rows m0)) as [rows|]; cbn [option_map]; [|apply ex_raise]. destruct (pop_cols i [] (m_cols m0)) as [cols [[]|e]].
  - intros m. reflexivity.
  - apply (ex_bind id id); [intros m; reflexivity|]. intros _. apply ex_raise.
Qed.
Lemma physical_fill ev evs fd' m : to_physical ev evs fd' (F m) = (F (fst (to_physical ev evs (fd ++ fd') m)), snd (to_physical ev evs (fd ++ fd') m)).
Proof.
  unfold to_physical. cbn [m_constrs fill_model]. rewrite (ex_merge_constrs ev evs (dvals (m_constrs m)) 0 m). destruct (merge_constrs ev evs 0 (dvals (m_constrs m)) m) as [m1 [[]|e]]; cbn [fst snd]; [|reflexivity].
  unfold visited. cbn [m_len m_rows fill_model]. rewrite map_length. destruct (Nat.leb (m_len m1) (length (m_rows m1))); [|reflexivity]. rewrite firstn_map, agg_fill.
  destruct (agg_rows (fd ++ fd') (mkAgg [] [] []) (firstn (m_len m1) (m_rows m1))) as [g|e]; [|reflexivity]. cbn [m_offset fill_model]. rewrite ceval_fill. destruct (ceval (fd ++ fd') (m_offset m1)) as [off|]; [|reflexivity].
  cbn [m_mtype m_vars m_deleted m_fixed m_constrs m_cols m_attrs m_len m_rows m_offset fill_model].
  match goal with |- context [mfor (g_remove g) purge_one ?x] => match x with context [map R] =>
    let y := constr:(mkModel (m_mtype m1) (m_vars m1) (m_offset m) (m_deleted m) (m_fixed m) (m_constrs m1) (m_rows m) (m_cols m) (m_attrs m) (m_len m)
      (Some (build_physical (m_mtype m) (m_vars m1) (m_deleted m1) (g_lin g) (g_quad g) off))) in
    change x with (F y); rewrite (ex_mfor_same (g_remove g) purge_one (fun n _ => ex_purge n) y); destruct (mfor (g_remove g) purge_one y) as [m3 [[]|e]]; cbn [fst snd]; [|reflexivity] end end.
  f_equal. unfold with_rows, fill_model, clear_dirty. cbn. rewrite map_app, firstn_map, skipn_map, !map_map. reflexivity.
Qed.
End Fill.
