(** * PropsSelect: C113, what select_interaction returns. *)
From Verif Require Import PyBase PyLemmas Numbers Constraint LogicalModel Select Spec LogicalProofs EnergyProofs InteractionProofs Samples Physical History PropsHistory PropsInteractions PropsState.
From Coq Require Import Sorting.
Local Open Scope string_scope.
Local Open Scope list_scope.

(** ** Specification *)
(** When a cell equals a literal. *)
Inductive equals : cell -> literal -> Prop :=
| eq_num x : equals (CNumb x) (LNum x)
| eq_text s : equals (CText s) (LText s)
| eq_bool b : equals (CBool b) (LBool b)
| eq_true_1 : equals (CBool true) (LNum 1) | eq_false_0 : equals (CBool false) (LNum 0)
| eq_1_true : equals (CNumb 1) (LBool true) | eq_0_false : equals (CNumb 0) (LBool false).
(** The number a cell or a literal stands for. *)
Inductive holds_number : cell -> Qc -> Prop :=
| hn_num x : holds_number (CNumb x) x | hn_true : holds_number (CBool true) 1 | hn_false : holds_number (CBool false) 0.
Inductive writes_number : literal -> Qc -> Prop :=
| wn_num x : writes_number (LNum x) x | wn_true : writes_number (LBool true) 1 | wn_false : writes_number (LBool false) 0.
(** Numbers are ordered with numbers and strings with strings; nan is below and above nothing. *)
Inductive below : cell -> literal -> Prop :=
| below_num c l x y : holds_number c x -> writes_number l y -> (x < y)%Qc -> below c l
| below_text s t : String.ltb s t = true -> below (CText s) (LText t).
Inductive above : cell -> literal -> Prop :=
| above_num c l x y : holds_number c x -> writes_number l y -> (y < x)%Qc -> above c l
| above_text s t : String.ltb t s = true -> above (CText s) (LText t).
Definition ordered (o : order) (c : cell) (l : literal) : Prop :=
  match o with OLt => below c l | OLe => below c l \/ equals c l | OGt => above c l | OGe => above c l \/ equals c l end.
(** Which cells may be ordered with a literal. *)
Inductive comparable : cell -> literal -> Prop :=
| cm_nan l : comparable CNan l
| cm_num c l x y : holds_number c x -> writes_number l y -> comparable c l
| cm_text s t : comparable (CText s) (LText t).
(** When a row meets a query. *)
Fixpoint meets (rec : dict string cell) (q : query) : Prop :=
  match q with
  | QEq c l => exists x, dget c rec = Some x /\ equals x l
  | QNe c l => exists x, dget c rec = Some x /\ ~ equals x l
  | QOrd o c l => exists x, dget c rec = Some x /\ ordered o x l
  | QAnd a b => meets rec a /\ meets rec b
  | QOr a b => meets rec a \/ meets rec b
  | QNot a => ~ meets rec a
  end.
(** Every order comparison of the query makes sense on the row. *)
Fixpoint sensible (rec : dict string cell) (q : query) : Prop :=
  match q with
  | QEq _ _ | QNe _ _ => True
  | QOrd _ c l => exists x, dget c rec = Some x /\ comparable x l
  | QAnd a b | QOr a b => sensible rec a /\ sensible rec b
  | QNot a => sensible rec a
  end.
Definition fixed_columns : list string :=
  ["body"; "name"; "key"; "key_0"; "key_1"; "interacts"; "coefficient"; "scale"; "timestamp"; "dirty"; "removed"].
(** [rec] is the row of interaction [r] at position [i]. *)
Record describes (m : lmodel) (i : nat) (r : row) (rec : dict string cell) : Prop := {
  ds_body : dget "body" rec = Some (CNumb (match r_inter r with I1 _ => qz 1 | I2 _ _ => qz 2 end));
  ds_name : dget "name" rec = Some (CText (r_name r));
  ds_key : dget "key" rec = Some (match r_inter r with I1 v => CText (v_label v) | I2 v w => CPair (v_label v) (v_label w) end);
  ds_interacts : dget "interacts" rec = Some CObject;
  ds_key_0 : dget "key_0" rec = Some (CText (match r_inter r with I1 v => v_label v | I2 v _ => v_label v end));
  ds_key_1 : dget "key_1" rec = Some (match r_inter r with I1 _ => CNan | I2 _ w => CText (v_label w) end);
  ds_coef : dget "coefficient" rec = Some (match r_coef r with CNum x => CNumb x | _ => CObject end);
  ds_scale : dget "scale" rec = Some (match r_scale r with CNum x => CNumb x | _ => CObject end);
  ds_ts : dget "timestamp" rec = Some (match r_ts r with Some x => CNumb x | None => CNan end);
  ds_dirty : dget "dirty" rec = Some (CBool (r_dirty r));
  ds_removed : dget "removed" rec = Some (CBool (r_removed r));
  ds_attr : forall k, In k (m_attrs m) -> ~ In k fixed_columns ->
     dget k rec = Some (match attr_val m i k with ANan => CNan | ANum x => CNumb x | AStr s => CText s end) }.
(** The columns a query may name. *)
Definition known (m : lmodel) (c : string) : Prop :=
  In c fixed_columns \/ In c (m_attrs m).
(** The query can be evaluated: order comparisons put numbers beside numbers and strings beside strings. *)
Definition evaluable (m : lmodel) (q : query) : Prop :=
  forall i r rec, nth_error (m_rows m) i = Some r -> describes m i r rec -> sensible rec q.
(** The positions of a selection. *)
Definition rows_of (s : selection) : list (nat * dict string cell) := match s with Frame l => l | Indexed d => d end.

(** ** Lemmas *)
Lemma cell_eqb_ok c l : cell_eqb c l = true <-> equals c l.
Proof.
  split.
  - destruct c as [|x|s|b|p q|], l as [y|t|d]; cbn [cell_eqb]; try discriminate.
    + intros H. apply Qc_eqb_eq in H. subst. constructor.
    + intros H. apply Qc_eqb_eq in H. subst. destruct d; constructor.
    + intros H. apply String.eqb_eq in H. subst. constructor.
    + intros H. apply Qc_eqb_eq in H. subst. destruct b; constructor.
    + intros H. apply Bool.eqb_prop in H. subst. constructor.
  - intros H. destruct H; cbn [cell_eqb bool_num]; try (apply Qc_eqb_eq; reflexivity). 1: apply String.eqb_refl. apply Bool.eqb_reflx.
Qed.
Lemma Qccompare_gt x y : Qccompare x y = Gt <-> (y < x)%Qc.
Proof. exact (iff_sym (Qcgt_alt x y)). Qed.
Lemma holds_numb x y : holds_number (CNumb x) y -> x = y.
Proof. inversion 1; reflexivity. Qed.
Lemma holds_bool b y : holds_number (CBool b) y -> bool_num b = y.
Proof. inversion 1; reflexivity. Qed.
Lemma writes_numb x y : writes_number (LNum x) y -> x = y.
Proof. inversion 1; reflexivity. Qed.
Lemma writes_bool b y : writes_number (LBool b) y -> bool_num b = y.
Proof. inversion 1; reflexivity. Qed.
Lemma holds_bool_num b : holds_number (CBool b) (bool_num b).
Proof. destruct b; constructor. Qed.
Lemma writes_bool_num b : writes_number (LBool b) (bool_num b).
Proof. destruct b; constructor. Qed.
(** The comparison of a cell with a literal. *)
Lemma cell_cmp_num c l x y : holds_number c x -> writes_number l y -> cell_cmp c l = Some (Some (Qccompare x y)) /\ (equals c l <-> x = y).
Proof.
  intros H W. split; [destruct H, W; reflexivity|].
  rewrite <- cell_eqb_ok. destruct H, W; cbn [cell_eqb bool_num]; try (apply Qc_eqb_eq); cbn; split; intros E; try reflexivity; try discriminate.
Qed.
Lemma cell_cmp_cases c l :
  (exists x y, holds_number c x /\ writes_number l y) \/ (exists s t, c = CText s /\ l = LText t) \/ c = CNan \/
  (cell_cmp c l = None /\ ~ comparable c l).
Proof.
  destruct c as [|x|s|b|p q|], l as [y|t|d]; auto;
    try (left; do 2 eexists; split; [first [apply hn_num|apply holds_bool_num]|first [apply wn_num|apply writes_bool_num]]; fail);
    try (right; left; do 2 eexists; split; reflexivity; fail);
    right; right; right; (split; [reflexivity|]); intros C; inversion C as [| ? ? ? ? H W|]; subst; inversion H; inversion W.
Qed.
Lemma cell_cmp_comparable c l : (match cell_cmp c l with Some _ => true | None => false end) = true <-> comparable c l.
Proof.
  destruct (cell_cmp_cases c l) as [(x & y & H & W)|[(s & t & -> & ->)|[->|[E N]]]].
  - rewrite (proj1 (cell_cmp_num _ _ _ _ H W)). split; [intros _; eapply cm_num; eauto|reflexivity].
  - split; [constructor|reflexivity].
  - split; [constructor|destruct l; reflexivity].
  - rewrite E. split; [discriminate|contradiction].
Qed.
Lemma holds_inj c x x' : holds_number c x -> holds_number c x' -> x = x'.
Proof. intros H H'. destruct H; inversion H'; reflexivity. Qed.
Lemma writes_inj c x x' : writes_number c x -> writes_number c x' -> x = x'.
Proof. intros H H'. destruct H; inversion H'; reflexivity. Qed.
Lemma ordered_ok o c l : (match cell_cmp c l with Some (Some r) => order_holds o r | _ => false end) = true <-> ordered o c l.
Proof.
  destruct (cell_cmp_cases c l) as [(x & y & H & W)|[(s & t & -> & ->)|[->|[E N]]]].
  - destruct (cell_cmp_num _ _ _ _ H W) as [-> EQ].
    assert (B : below c l <-> (x < y)%Qc).
    { split; [intros B; inversion B as [? ? x' y' H' W' L|]; subst; [rewrite (holds_inj _ _ _ H H'), (writes_inj _ _ _ W W'); exact L|inversion H]|intros L; eapply below_num; eauto]. }
    assert (A : above c l <-> (y < x)%Qc).
    { split; [intros A; inversion A as [? ? x' y' H' W' L|]; subst; [rewrite (holds_inj _ _ _ H H'), (writes_inj _ _ _ W W'); exact L|inversion H]|intros L; eapply above_num; eauto]. }
    assert (B' : below c l <-> Qccompare x y = Lt) by (rewrite B; apply Qclt_alt).
    assert (A' : above c l <-> Qccompare x y = Gt) by (rewrite A; symmetry; apply Qccompare_gt).
    assert (E' : equals c l <-> Qccompare x y = Eq) by (rewrite EQ; apply Qceq_alt).
    clear A B EQ. unfold ordered. destruct o; rewrite ?B', ?A', ?E'; destruct (Qccompare x y); cbn [order_holds]; split; try tauto; intros; try discriminate; repeat match goal with h : _ \/ _ |- _ => destruct h end; try discriminate; auto.
  - cbn [cell_cmp]. unfold ordered.
    assert (B : below (CText s) (LText t) <-> String.compare s t = Lt).
    { split; [intros B; inversion B as [? ? ? ? H|? ? L]; subst; [inversion H|]; unfold String.ltb in L; destruct (String.compare s t); auto; discriminate|].
      intros L. constructor. unfold String.ltb. rewrite L. reflexivity. }
    assert (A : above (CText s) (LText t) <-> String.compare s t = Gt).
    { rewrite (String.compare_antisym s t). split; [intros B'; inversion B' as [? ? ? ? H|? ? L]; subst; [inversion H|]; unfold String.ltb in L; destruct (String.compare t s); auto; discriminate|].
      intros L. constructor. unfold String.ltb. destruct (String.compare t s); auto; discriminate. }
    assert (EQ : equals (CText s) (LText t) <-> String.compare s t = Eq).
    { split; [|intros X; apply String.compare_eq_iff in X; subst; constructor]. intros X. inversion X; subst.
      pose proof (String.compare_antisym t t) as Y. destruct (String.compare t t); auto; discriminate. }
    destruct o; rewrite ?B, ?A, ?EQ; destruct (String.compare s t); cbn [order_holds]; split; try tauto; intros; try discriminate; repeat match goal with h : _ \/ _ |- _ => destruct h end; try discriminate; auto.
  - split; [destruct l; discriminate|]. unfold ordered. destruct o; intros H; repeat match goal with h : _ \/ _ |- _ => destruct h end; inversion H; subst; match goal with h : holds_number CNan _ |- _ => inversion h end.
  - rewrite E. split; [discriminate|]. intros H. exfalso. apply N. unfold ordered in H.
    destruct o; repeat match goal with h : _ \/ _ |- _ => destruct h end; destruct H; try discriminate; eapply cm_num; eauto.
Qed.
Lemma query_ok_ok q rec : (forall c, In c (columns_in q) -> dget c rec <> None) -> query_ok q rec = true <-> sensible rec q.
Proof.
  induction q as [c l|c l|o c l|a IHa b IHb|a IHa b IHb|a IHa]; intros K; cbn [query_ok sensible columns_in] in *; try tauto.
  - destruct (dget c rec) as [x|] eqn:E; [|exfalso; apply (K c); simpl; auto]. rewrite cell_cmp_comparable. split; [intros H; exists x; auto|]. intros (y & Ey & H). inversion Ey; subst; auto.
  - rewrite andb_true_iff, IHa, IHb by (intros; apply K; rewrite in_app_iff; auto). tauto.
  - rewrite andb_true_iff, IHa, IHb by (intros; apply K; rewrite in_app_iff; auto). tauto.
Qed.
Lemma query_row_ok q rec : (forall c, In c (columns_in q) -> dget c rec <> None) -> query_row q rec = true <-> meets rec q.
Proof.
  induction q as [c l|c l|o c l|a IHa b IHb|a IHa b IHb|a IHa]; intros K; cbn [query_row meets columns_in] in *.
  - destruct (dget c rec) as [x|] eqn:E; [|exfalso; apply (K c); simpl; auto]. rewrite cell_eqb_ok. split; [intros H; exists x; auto|]. intros (y & Ey & H). inversion Ey; subst; auto.
  - destruct (dget c rec) as [x|] eqn:E; [|exfalso; apply (K c); simpl; auto]. rewrite negb_true_iff, <- not_true_iff_false, cell_eqb_ok. split; [intros H; exists x; auto|]. intros (y & Ey & H). inversion Ey; subst; auto.
  - destruct (dget c rec) as [x|] eqn:E; [|exfalso; apply (K c); simpl; auto]. rewrite ordered_ok. split; [intros H; exists x; auto|]. intros (y & Ey & H). inversion Ey; subst; auto.
  - rewrite andb_true_iff, IHa, IHb by (intros; apply K; rewrite in_app_iff; auto). tauto.
  - rewrite orb_true_iff, IHa, IHb by (intros; apply K; rewrite in_app_iff; auto). tauto.
  - rewrite negb_true_iff, <- not_true_iff_false, IHa by auto. tauto.
Qed.
Lemma meets_dec q rec : (forall c, In c (columns_in q) -> dget c rec <> None) -> {meets rec q} + {~ meets rec q}.
Proof. intros K. destruct (query_row q rec) eqn:E; [left; apply query_row_ok; auto|right]. intros H. apply query_row_ok in H; auto. congruence. Qed.
Lemma frame_nth cols l : forall i j r, nth_error l j = Some r -> In (i + j, frame_row cols (i + j) r) (frame_from cols i l).
Proof.
  induction l as [|x l IH]; intros i [|j] r E; cbn in E; try discriminate.
  - inversion E; subst. left. rewrite Nat.add_0_r. reflexivity.
  - right. replace (i + S j) with (S i + j) by lia. apply IH. exact E.
Qed.
Lemma frame_in cols l : forall i p rec, In (p, rec) (frame_from cols i l) -> exists j r, p = i + j /\ nth_error l j = Some r /\ rec = frame_row cols p r.
Proof.
  induction l as [|x l IH]; intros i p rec H; [destruct H|]. destruct H as [H|H].
  - inversion H; subst. exists 0, x. split; [lia|]. split; reflexivity.
  - destruct (IH _ _ _ H) as (j & r & -> & E & ->). exists (S j), r. split; [lia|]. split; [exact E|reflexivity].
Qed.
Lemma frame_sorted cols l : forall i, StronglySorted lt (map fst (frame_from cols i l)) /\ Forall (fun p => i <= p) (map fst (frame_from cols i l)).
Proof.
  induction l as [|x l IH]; intros i; cbn [frame_from map fst]; [split; constructor|]. destruct (IH (S i)) as [S1 F1].
  split; constructor; auto.
  all: eapply Forall_impl; [|exact F1]; cbn; intros; lia.
Qed.
Lemma sorted_filter {A} (f : nat * A -> bool) l : StronglySorted lt (map fst l) -> StronglySorted lt (map fst (filter f l)).
Proof.
  induction l as [|x l IH]; intros H; cbn [filter]; [constructor|]. inversion H as [|? ? S F]; subst. destruct (f x); cbn [map]; auto.
  constructor; auto. rewrite Forall_forall in *. intros p HP. apply F. apply in_map_iff in HP. destruct HP as (y & <- & HY). apply filter_In in HY. apply in_map. tauto.
Qed.
Lemma sorted_nodup l : StronglySorted lt l -> NoDup l.
Proof. induction 1 as [|x l S IH F]; constructor; auto. intros C. rewrite Forall_forall in F. specialize (F _ C). lia. Qed.
Lemma dset_fresh_all (l : list (nat * dict string cell)) : forall d, NoDup (map fst d ++ map fst l) -> fold_left (fun d ir => dset (fst ir) (snd ir) d) l d = d ++ l.
Proof.
  induction l as [|[i r] l IH]; intros d N; cbn [fold_left fst snd]; [rewrite app_nil_r; reflexivity|].
  rewrite dset_keys_new.
  - rewrite IH; [rewrite <- app_assoc; reflexivity|]. rewrite map_app, <- app_assoc. exact N.
  - cbn in N. apply NoDup_remove_2 in N. intros C. apply N. apply in_or_app. left. exact C.
Qed.
Lemma aligned_df m : aligned m -> df_ok m = true.
Proof.
  intros (HL & _ & _ & HF). unfold df_ok. apply forallb_forall. intros c HI. rewrite Forall_forall in HF. apply Nat.eqb_eq. rewrite <- HL. auto.
Qed.
Lemma known_ok m q : aligned m -> forallb (fun c => mem c (default_columns ++ dkeys (m_cols m))) (columns_in q) = true <-> (forall c, In c (columns_in q) -> known m c).
Proof.
  intros (_ & HK & _). rewrite forallb_forall. unfold known. rewrite HK. split; intros H c HI; specialize (H c HI).
  - apply mem_in in H. apply in_app_or in H. exact H.
  - apply mem_in. apply in_or_app. exact H.
Qed.
Lemma known_row m c i r : aligned m -> known m c -> dget c (frame_row (m_cols m) i r) <> None.
Proof.
  intros (_ & HK & _) H C. apply dget_none in C. apply C. unfold frame_row, dkeys. rewrite map_app, in_app_iff. destruct H as [H|H]; [left; exact H|right].
  rewrite map_map. cbn. rewrite <- HK in H. exact H.
Qed.
Lemma select_eq q fmt m : select_interaction q fmt m =
  if df_ok m then
    if forallb (fun c => mem c (default_columns ++ dkeys (m_cols m))) (columns_in q) then
      if forallb (fun ir => query_ok q (snd ir)) (frame_from (m_cols m) 0 (m_rows m)) then
      match fmt with
      | FSeries => (m, Ok (Frame (filter (fun ir => query_row q (snd ir)) (frame_from (m_cols m) 0 (m_rows m)))))
      | FDict => (m, Ok (Indexed (filter (fun ir => query_row q (snd ir)) (frame_from (m_cols m) 0 (m_rows m)))))
      | FOther => (m, Err ValueError) end
      else (m, Err TypeError)
    else (m, Err NameError)
  else (m, Err ValueError).
Proof.
  unfold select_interaction, whole_frame. unfold bind at 1. destruct (df_ok m); [|reflexivity].
  unfold bind at 1, get. unfold bind at 1, guard. destruct (forallb _ _); [|reflexivity]. cbn [ret]. unfold bind at 1. destruct (forallb _ _); [|reflexivity]. cbn [ret]. destruct fmt; try reflexivity. unfold ret. rewrite dset_fresh_all; [reflexivity|].
  cbn [map app]. apply sorted_nodup, sorted_filter. apply frame_sorted.
Qed.

Lemma dget_app_skip (k : string) (a b : dict string cell) : ~ In k (dkeys a) -> dget k (a ++ b) = dget k b.
Proof.
  induction a as [|[x v] a IH]; intros N; [reflexivity|]. cbn [app dget]. destruct (eqb k x) eqn:E.
  - exfalso. apply N. left. cbn. symmetry. apply eqb_eq. exact E.
  - apply IH. intros C. apply N. right. exact C.
Qed.
(** The data of an interaction determine its row. *)
Lemma describes_cell m i r rec rec' c : describes m i r rec -> describes m i r rec' -> known m c -> dget c rec = dget c rec'.
Proof.
  intros D D' K. destruct (in_dec string_dec c fixed_columns) as [I|N].
  - destruct D, D'. cbn in I. repeat (destruct I as [<-|I]; [congruence|]). destruct I.
  - destruct K as [K|K]; [contradiction|]. rewrite (ds_attr _ _ _ _ D c K N), (ds_attr _ _ _ _ D' c K N). reflexivity.
Qed.
Lemma sensible_ext m i r rec rec' q : describes m i r rec -> describes m i r rec' -> (forall c, In c (columns_in q) -> known m c) -> sensible rec q -> sensible rec' q.
Proof.
  intros D D'. induction q as [c l|c l|o c l|a IHa b IHb|a IHa b IHb|a IHa]; cbn [sensible columns_in]; intros K H; auto.
  - rewrite <- (describes_cell _ _ _ _ _ c D D'); auto. apply K. simpl; auto.
  - destruct H. split; [apply IHa|apply IHb]; auto; intros; apply K; rewrite in_app_iff; auto.
  - destruct H. split; [apply IHa|apply IHb]; auto; intros; apply K; rewrite in_app_iff; auto.
Qed.
Lemma frame_describes m i r : aligned m -> nth_error (m_rows m) i = Some r -> r_key r = inter_key (r_inter r) -> describes m i r (frame_row (m_cols m) i r).
Proof.
  intros (HL & HK & ND & HF) HN KR. constructor.
  1-11: cbn; rewrite ?KR; try (destruct (r_inter r)); reflexivity.
  intros k HI ND0. unfold frame_row.
  assert (X : forall d, dget k (record_of r ++ d) = dget k d).
  { intros d. apply dget_app_skip. intros C. apply ND0. exact C. }
  rewrite X. clear X ND0. unfold attr_val. clear - HK HI. rewrite <- HK in HI. clear HK. induction (m_cols m) as [|[c col] cols IH]; [destruct HI|].
  cbn [map fst snd dget]. destruct (eqb k c) eqn:EC; [reflexivity|]. apply IH. destruct HI as [HI|HI]; auto.
  exfalso. apply not_true_iff_false in EC. apply EC, eqb_eq. symmetry. exact HI.
Qed.

Lemma evaluable_ok m q : aligned m -> (forall r, In r (m_rows m) -> r_key r = inter_key (r_inter r)) -> (forall c, In c (columns_in q) -> known m c) ->
  forallb (fun ir => query_ok q (snd ir)) (frame_from (m_cols m) 0 (m_rows m)) = true <-> evaluable m q.
Proof.
  intros A KO K. rewrite forallb_forall. split.
  - intros H i r rec HN D. specialize (H _ (frame_nth (m_cols m) (m_rows m) 0 i r HN)). cbn [Nat.add snd] in H.
    apply query_ok_ok in H; [|intros c HI; apply known_row; auto]. apply (sensible_ext m i r (frame_row (m_cols m) i r)); auto. apply frame_describes; auto. apply KO. eapply nth_error_In; eauto.
  - intros H [p rec] HI. cbn [snd]. apply frame_in in HI. destruct HI as (j & r & -> & HN & ->). apply query_ok_ok; [intros c HI; apply known_row; auto|].
    eapply H; eauto. apply frame_describes; auto. apply KO. eapply nth_error_In; eauto.
Qed.
(** A query without order comparisons can always be evaluated. *)
Fixpoint unordered (q : query) : Prop :=
  match q with QEq _ _ | QNe _ _ => True | QOrd _ _ _ => False | QAnd a b | QOr a b => unordered a /\ unordered b | QNot a => unordered a end.
Lemma unordered_query_ok q rec : unordered q -> query_ok q rec = true.
Proof. induction q; cbn [unordered query_ok]; try tauto; intros H; try rewrite andb_true_iff; tauto. Qed.
Lemma unordered_ok m q : unordered q -> forallb (fun ir => query_ok q (snd ir)) (frame_from (m_cols m) 0 (m_rows m)) = true.
Proof. intros H. apply forallb_forall. intros x _. apply unordered_query_ok. exact H. Qed.

(** ** C113 *)
(** When it succeeds: exactly when the query names columns only, orders numbers with numbers and strings with
    strings, and the format is one of the two. *)
Theorem C113_succeeds_iff : forall q fmt m, aligned m -> (forall r, In r (m_rows m) -> r_key r = inter_key (r_inter r)) ->
  (exists m' s, select_interaction q fmt m = (m', Ok s)) <-> (forall c, In c (columns_in q) -> known m c) /\ evaluable m q /\ fmt <> FOther.
Proof.
  intros q fmt m A KO. rewrite select_eq, (aligned_df _ A).
  destruct (forallb (fun c => mem c (default_columns ++ dkeys (m_cols m))) (columns_in q)) eqn:EK; [|split; [intros (m' & s & E); discriminate|intros [X _]; apply (known_ok m q A) in X; congruence]].
  pose proof (proj1 (known_ok m q A) EK) as K. destruct (forallb (fun ir => query_ok q (snd ir)) (frame_from (m_cols m) 0 (m_rows m))) eqn:EE.
  2:{ split; [intros (m' & s & E); discriminate|intros [_ [X _]]; apply (evaluable_ok m q A KO K) in X; congruence]. }
  pose proof (proj1 (evaluable_ok m q A KO K) EE) as V. destruct fmt; split.
  1,3: intros _; split; [exact K|split; [exact V|discriminate]].
  1,2: intros _; do 2 eexists; reflexivity.
  - intros (m' & s & E). inversion E.
  - intros [_ [_ X]]. congruence.
Qed.
(** What is wrong with the query or the format decides the exception, in this order. *)
Theorem C113_refuses : forall q fmt m e, aligned m -> (forall r, In r (m_rows m) -> r_key r = inter_key (r_inter r)) ->
  (exists m', select_interaction q fmt m = (m', Err e)) <->
  e = NameError /\ ~ (forall c, In c (columns_in q) -> known m c) \/
  e = TypeError /\ (forall c, In c (columns_in q) -> known m c) /\ ~ evaluable m q \/
  e = ValueError /\ (forall c, In c (columns_in q) -> known m c) /\ evaluable m q /\ fmt = FOther.
Proof.
  intros q fmt m e A KO. rewrite select_eq, (aligned_df _ A).
  destruct (forallb (fun c => mem c (default_columns ++ dkeys (m_cols m))) (columns_in q)) eqn:EK.
  2:{ assert (NK : ~ (forall c, In c (columns_in q) -> known m c)) by (intros X; apply (known_ok m q A) in X; congruence).
      split; [intros (m' & E); inversion E; subst; auto|]. intros [[-> _]|[(_ & X & _)|(_ & X & _)]]; [eauto|tauto|tauto]. }
  pose proof (proj1 (known_ok m q A) EK) as K. destruct (forallb (fun ir => query_ok q (snd ir)) (frame_from (m_cols m) 0 (m_rows m))) eqn:EE.
  2:{ assert (NE : ~ evaluable m q) by (intros X; apply (evaluable_ok m q A KO K) in X; congruence).
      split; [intros (m' & E); inversion E; subst; auto|]. intros [[_ X]|[(-> & _)|(_ & _ & X & _)]]; [tauto|eauto|tauto]. }
  pose proof (proj1 (evaluable_ok m q A KO K) EE) as V.
  destruct fmt; (split; [intros (m' & E); inversion E; subst; auto|intros [[_ X]|[(_ & _ & X)|(-> & _ & _ & X)]]; try tauto; try discriminate]).
  - right. right. auto.
  - eexists. reflexivity.
Qed.
(** It never changes the model. *)
Theorem C113_readonly : forall q fmt m, fst (select_interaction q fmt m) = m.
Proof. intros q fmt m. rewrite select_eq. destruct (df_ok m); [|reflexivity]. destruct (forallb _ _); [|reflexivity]. destruct (forallb _ _); [|reflexivity]. destruct fmt; reflexivity. Qed.
(** It returns exactly the interactions that meet the query, removed ones included, in the order in
    which they were added, each with its position and its own data; in both formats the same. *)
Theorem C113_selects : forall q fmt m s, aligned m -> (forall r, In r (m_rows m) -> r_key r = inter_key (r_inter r)) -> select_interaction q fmt m = (m, Ok s) ->
  StronglySorted lt (map fst (rows_of s)) /\
  (forall i rec, In (i, rec) (rows_of s) -> meets rec q /\ exists r, nth_error (m_rows m) i = Some r /\ describes m i r rec) /\
  (forall i r, nth_error (m_rows m) i = Some r -> exists rec, describes m i r rec /\ (meets rec q -> In (i, rec) (rows_of s)) /\ (~ meets rec q -> ~ In i (map fst (rows_of s)))).
Proof.
  intros q fmt m s A KO E. rewrite select_eq, (aligned_df _ A) in E. destruct (forallb (fun c => mem c (default_columns ++ dkeys (m_cols m))) (columns_in q)) eqn:EK0; [|discriminate]. pose proof (proj1 (known_ok m q A) EK0) as EK.
  destruct (forallb (fun ir => query_ok q (snd ir)) (frame_from (m_cols m) 0 (m_rows m))); [|discriminate].
  set (l := filter (fun ir => query_row q (snd ir)) (frame_from (m_cols m) 0 (m_rows m))) in *.
  assert (R : rows_of s = l) by (destruct fmt; inversion E; reflexivity). rewrite R. clear R E s fmt.
  assert (KN : forall i r c, In c (columns_in q) -> dget c (frame_row (m_cols m) i r) <> None) by (intros i r c HI; apply known_row; auto).
  assert (DS : forall i r, nth_error (m_rows m) i = Some r -> describes m i r (frame_row (m_cols m) i r)).
  { intros i r HN. apply frame_describes; auto. apply KO. eapply nth_error_In; eauto. }
  split; [apply sorted_filter, frame_sorted|]. split.
  - intros i rec HI. apply filter_In in HI. destruct HI as [HI HQ]. cbn in HQ. apply frame_in in HI. destruct HI as (j & r & -> & HN & ->). cbn [Nat.add] in *.
    split; [apply (proj1 (query_row_ok q _ (KN _ _))); exact HQ|]. exists r. auto.
  - intros i r HN. exists (frame_row (m_cols m) i r). split; auto. split.
    + intros HM. apply filter_In. split; [apply (frame_nth _ _ 0); auto|]. cbn [snd]. apply (proj2 (query_row_ok q _ (KN _ _))). exact HM.
    + intros HM C. apply HM. apply in_map_iff in C. destruct C as ([p rec] & EP & HI). cbn in EP. subst p. apply filter_In in HI. destruct HI as [HI HQ].
      apply frame_in in HI. destruct HI as (j & r2 & -> & HN2 & ->). cbn [Nat.add snd] in *. rewrite HN in HN2. inversion HN2; subst. apply (proj1 (query_row_ok q _ (KN _ _))). exact HQ.
Qed.

Lemma select_known q fmt m : aligned m -> (forall c, In c (columns_in q) -> known m c) -> unordered q -> fmt <> FOther ->
  exists s, select_interaction q fmt m = (m, Ok s) /\ rows_of s = filter (fun ir => query_row q (snd ir)) (frame_from (m_cols m) 0 (m_rows m)).
Proof.
  intros A K U F. rewrite select_eq, (aligned_df _ A). rewrite (proj2 (known_ok m q A) K), (unordered_ok m q U). destruct fmt; [| |contradiction]; eexists; split; reflexivity.
Qed.
Lemma select_runs q fmt m : aligned m -> (forall c, In c (columns_in q) -> known m c) ->
  forallb (fun ir => query_ok q (snd ir)) (frame_from (m_cols m) 0 (m_rows m)) = true -> fmt <> FOther ->
  exists s, select_interaction q fmt m = (m, Ok s) /\ rows_of s = filter (fun ir => query_row q (snd ir)) (frame_from (m_cols m) 0 (m_rows m)).
Proof.
  intros A K U F. rewrite select_eq, (aligned_df _ A). rewrite (proj2 (known_ok m q A) K), U. destruct fmt; [| |contradiction]; eexists; split; reflexivity.
Qed.
Lemma select_inv q fmt m s : aligned m -> select_interaction q fmt m = (m, Ok s) ->
  (forall c, In c (columns_in q) -> known m c) /\ forallb (fun ir => query_ok q (snd ir)) (frame_from (m_cols m) 0 (m_rows m)) = true.
Proof.
  intros A E. rewrite select_eq, (aligned_df _ A) in E. destruct (forallb (fun c => mem c (default_columns ++ dkeys (m_cols m))) (columns_in q)) eqn:EK; [|discriminate].
  split; [apply (known_ok m q A); exact EK|]. destruct (forallb (fun ir => query_ok q (snd ir)) (frame_from (m_cols m) 0 (m_rows m))); [reflexivity|discriminate].
Qed.
Lemma filter_none {A} (f : A -> bool) l : (forall x, In x l -> f x = false) -> filter f l = [].
Proof. induction l as [|x l IH]; intros H; cbn [filter]; [reflexivity|]. rewrite (H x) by (simpl; auto). apply IH. intros; apply H; simpl; auto. Qed.
Lemma frame_app cols a : forall i b, frame_from cols i (a ++ b) = frame_from cols i a ++ frame_from cols (i + length a) b.
Proof.
  induction a as [|x a IH]; intros i b; cbn [frame_from app length]; [rewrite Nat.add_0_r; reflexivity|]. rewrite IH. f_equal. f_equal. f_equal. lia.
Qed.
Lemma by_name_mid m l1 x l2 : m_rows m = l1 ++ x :: l2 -> ~ In (r_name x) (map r_name (l1 ++ l2)) ->
  filter (fun ir => query_row (QEq "name" (LText (r_name x))) (snd ir)) (frame_from (m_cols m) 0 (m_rows m)) = [(length l1, frame_row (m_cols m) (length l1) x)].
Proof.
  intros ER NI. rewrite ER, frame_app. cbn [frame_from Nat.add]. rewrite filter_app. cbn [filter].
  assert (N : forall l i, ~ In (r_name x) (map r_name l) -> filter (fun ir => query_row (QEq "name" (LText (r_name x))) (snd ir)) (frame_from (m_cols m) i l) = []).
  { intros l i NL. apply filter_none. intros [p rec] HI. apply frame_in in HI. destruct HI as (j & r & -> & HN & ->). cbn. apply String.eqb_neq. intros C. apply NL. rewrite <- C. apply in_map. eapply nth_error_In; eauto. }
  rewrite map_app, in_app_iff in NI. rewrite !N by tauto. cbn. rewrite String.eqb_refl. reflexivity.
Qed.
Lemma name_known m n c : In c (columns_in (QEq "name" n)) -> known m c.
Proof. intros [<-|[]]. left. simpl. auto. Qed.

(** By name: the interaction of that name and nothing else, or nothing when there is none. *)
Theorem C113_by_name : forall m fmt, aligned m -> names_unique m -> (forall r, In r (m_rows m) -> r_key r = inter_key (r_inter r)) -> fmt <> FOther ->
  (forall i r, nth_error (m_rows m) i = Some r -> exists s rec, select_interaction (QEq "name" (LText (r_name r))) fmt m = (m, Ok s) /\ rows_of s = [(i, rec)] /\ describes m i r rec) /\
  (forall n, ~ In n (names m) -> exists s, select_interaction (QEq "name" (LText n)) fmt m = (m, Ok s) /\ rows_of s = []).
Proof.
  intros m fmt A U KO F. split.
  - intros i r HN. destruct (select_known (QEq "name" (LText (r_name r))) fmt m A (name_known m _) I F) as (s & E & R).
    destruct (nth_error_split _ _ HN) as (l1 & l2 & ER & EL). exists s, (frame_row (m_cols m) i r). split; [exact E|]. split.
    + rewrite R, (by_name_mid m l1 r l2 ER), EL; [reflexivity|]. unfold names_unique, names in U. rewrite ER, map_app in U. cbn in U. apply NoDup_remove_2 in U. rewrite map_app. exact U.
    + apply frame_describes; auto. apply KO. eapply nth_error_In; eauto.
  - intros n NI. destruct (select_known (QEq "name" (LText n)) fmt m A (name_known m _) I F) as (s & E & R). exists s. split; auto. rewrite R. apply filter_none.
    intros [p rec] HI. apply frame_in in HI. destruct HI as (j & r & -> & HN & ->). cbn. apply String.eqb_neq. intros <-. apply NI. apply in_map. eapply nth_error_In; eauto.
Qed.
(** What add_interaction was given is what select_interaction shows. *)
Theorem C113_added : forall ev t n co sc a ts m m' fmt, aligned m -> attrs_wf a -> fmt <> FOther -> add_interaction ev t n co sc a ts m = (m', Ok tt) ->
  exists c s i dn nm sel rec, co = AC c /\ sc = AC s /\ denotes t i dn /\ stored_name n dn nm /\
    select_interaction (QEq "name" (LText nm)) fmt m' = (m', Ok sel) /\ rows_of sel = [(length (m_rows m), rec)] /\
    describes m' (length (m_rows m)) (mkRow nm (inter_key i) i c s (Some (ts_given ev ts)) true false) rec /\
    forall k, In ("attributes." +++ k) (m_attrs m') -> dget ("attributes." +++ k) rec =
      Some (match given a ("attributes." +++ k) with Some (ANum x) => CNumb x | Some (AStr x) => CText x | _ => CNan end).
Proof.
  intros ev t n co sc a ts m m' fmt A W F E. destruct (C03_effect _ _ _ _ _ _ _ _ _ A W E) as (c & s & i & dn & nm & E1 & E2 & D & ST & NI & ER & _ & A' & _ & V).
  set (r := mkRow nm (inter_key i) i c s (Some (ts_given ev ts)) true false) in *.
  destruct (select_known (QEq "name" (LText nm)) fmt m' A' (name_known m' _) I F) as (sel & ES & R).
  exists c, s, i, dn, nm, sel, (frame_row (m_cols m') (length (m_rows m)) r). do 4 (split; [assumption|]). split; [exact ES|].
  assert (HN : nth_error (m_rows m') (length (m_rows m)) = Some r) by (rewrite ER, nth_error_app2, Nat.sub_diag by lia; reflexivity).
  assert (DS : describes m' (length (m_rows m)) r (frame_row (m_cols m') (length (m_rows m)) r)) by (apply frame_describes; auto).
  split. { rewrite R. apply (by_name_mid m' (m_rows m) r []); auto. rewrite app_nil_r. exact NI. }
  split; [exact DS|]. intros k HI. rewrite (ds_attr _ _ _ _ DS _ HI), V by (intros C; cbn in C; repeat (destruct C as [C|C]; [discriminate|]); exact C). destruct (given a ("attributes." +++ k)) as [[| |]|]; reflexivity.
Qed.
(** After remove_interaction the interaction is shown as removed, and no longer among those that are not. *)
Theorem C113_removed : forall t n m m', aligned m -> names_unique m -> remove_interaction t n m = (m', Ok tt) ->
  exists nm s s', refers t n nm /\ select_interaction (QAnd (QEq "name" (LText nm)) (QEq "removed" (LBool true))) FSeries m' = (m', Ok s) /\ length (rows_of s) = 1 /\
    select_interaction (QAnd (QEq "name" (LText nm)) (QEq "removed" (LBool false))) FSeries m' = (m', Ok s') /\ rows_of s' = [].
Proof.
  intros t n m m' A U E. destruct (C06_effect _ _ _ _ E) as (nm & l1 & x & l2 & HR & ER & <- & NI & -> & _). set (x' := set_dirty true (set_removed true x)).
  set (m' := with_rows (l1 ++ x' :: l2) m). assert (A' : aligned m').
  { destruct A as (HL & HK & ND & HF). split; [|split; [|split]]; auto. cbn. rewrite HL, ER, !app_length. reflexivity. }
  assert (K : forall b c, In c (columns_in (QAnd (QEq "name" (LText (r_name x))) (QEq "removed" (LBool b)))) -> known m' c) by (intros b c HI; left; cbn in *; tauto).
  destruct (select_known _ FSeries m' A' (K true) (conj I I)) as (s & E1 & R1); [discriminate|]. destruct (select_known _ FSeries m' A' (K false) (conj I I)) as (s' & E2 & R2); [discriminate|].
  exists (r_name x), s, s'. split; auto. split; [exact E1|].
  assert (SP : forall b, filter (fun ir => query_row (QAnd (QEq "name" (LText (r_name x))) (QEq "removed" (LBool b))) (snd ir)) (frame_from (m_cols m') 0 (m_rows m')) =
     filter (fun ir => query_row (QEq "removed" (LBool b)) (snd ir)) [(length l1, frame_row (m_cols m') (length l1) x')]).
  { intros b. rewrite <- (by_name_mid m' l1 x' l2 eq_refl).
    - generalize (frame_from (m_cols m') 0 (m_rows m')). intros l. induction l as [|y l IH]; [reflexivity|]. cbn [filter]. rewrite IH.
      change (query_row (QAnd (QEq "name" (LText (r_name x))) (QEq "removed" (LBool b))) (snd y)) with (query_row (QEq "name" (LText (r_name x))) (snd y) && query_row (QEq "removed" (LBool b)) (snd y)).
      change (r_name x') with (r_name x). destruct (query_row (QEq "name" (LText (r_name x))) (snd y)); cbn [filter andb]; [|reflexivity]. destruct (query_row (QEq "removed" (LBool b)) (snd y)); reflexivity.
    - unfold names_unique, names in U. rewrite ER, map_app in U. cbn in U. apply NoDup_remove_2 in U. rewrite map_app. exact U. }
  split; [rewrite R1, SP; reflexivity|]. split; [exact E2|]. rewrite R2, SP. reflexivity.
Qed.
(** select_interactions_by_variable(v) gives the names of the interactions whose key_0 or key_1 is v's label. *)
Theorem C113_by_variable : forall l m ns, aligned m -> select_by_variable l m = (m, Ok ns) ->
  exists s, select_interaction (QOr (QEq "key_0" (LText l)) (QEq "key_1" (LText l))) FSeries m = (m, Ok s) /\
    map (fun ir => dget "name" (snd ir)) (rows_of s) = map (fun n => Some (CText n)) ns.
Proof.
  intros l m ns A E. destruct (select_known (QOr (QEq "key_0" (LText l)) (QEq "key_1" (LText l))) FSeries m A) as (s & E1 & R); [intros c HI; left; cbn in *; tauto|cbn; auto|discriminate|].
  exists s. split; auto. rewrite R. unfold select_by_variable, dataframe, bind in E. rewrite (aligned_df _ A) in E. inversion E; subst ns. clear.
  generalize 0. induction (m_rows m) as [|r rows IH]; intros i; [reflexivity|]. cbn [frame_from filter].
  assert (Q : query_row (QOr (QEq "key_0" (LText l)) (QEq "key_1" (LText l))) (snd (i, frame_row (m_cols m) i r)) = key_touches l (r_key r)).
  { cbn. destruct (r_key r) as [a|a b]; cbn; rewrite ?(String.eqb_sym l); [apply orb_false_r|reflexivity]. }
  rewrite Q. destruct (key_touches l (r_key r)); cbn [map]; rewrite IH; reflexivity.
Qed.
(** The table determines the Hamiltonian: minus the sum of coefficient * scale * variables over the
    rows that are not removed, plus the offset (models whose coefficients and scales are numbers). *)
Definition number (rec : dict string cell) (c : string) : Qc := match dget c rec with Some (CNumb x) => x | _ => 0%Qc end.
Definition variable (a : assignment) (rec : dict string cell) (c : string) : Qc := match dget c rec with Some (CText l) => a l | _ => 1%Qc end.
Theorem C113_energy : forall m s fd a, aligned m -> (forall r, In r (m_rows m) -> active r -> exists x y, r_coef r = CNum x /\ r_scale r = CNum y) ->
  select_interaction (QEq "removed" (LBool false)) FSeries m = (m, Ok s) ->
  energy fd a m = (value fd (m_offset m) - qsum (map (fun ir => number (snd ir) "coefficient" * number (snd ir) "scale" * (variable a (snd ir) "key_0" * variable a (snd ir) "key_1")) (rows_of s)))%Qc.
Proof.
  intros m s fd a A NUM E. destruct (select_known (QEq "removed" (LBool false)) FSeries m A) as (s' & E1 & R); [intros c HI; left; cbn in *; tauto|cbn; auto|discriminate|].
  rewrite E in E1. inversion E1; subst s'. rewrite R, energy_csum. clear - NUM.
  match goal with |- (- ?x + ?v)%Qc = (?v - ?y)%Qc => assert (H : x = y); [|rewrite H; ring] end.
  generalize 0 NUM. clear. induction (m_rows m) as [|r rows IH]; intros i NUM; [reflexivity|]. rewrite csum_cons. cbn [frame_from filter].
  assert (Q : query_row (QEq "removed" (LBool false)) (snd (i, frame_row (m_cols m) i r)) = negb (r_removed r)) by (cbn; destruct (r_removed r); reflexivity).
  rewrite Q, (IH (S i)) by (intros; apply NUM; simpl; auto). unfold contribution at 1. destruct (r_removed r) eqn:ER; cbn [negb map qsum]; [ring|].
  destruct (NUM r) as (x & y & EC & ES); [simpl; auto|exact ER|]. f_equal. unfold number, variable. cbn. rewrite EC, ES. cbn. destruct (r_key r); cbn; ring.
Qed.
(** The attribute shown for an interaction is the one get_attribute reads. *)
Theorem C113_attribute : forall m n k v, aligned m -> names_unique m -> reads m n k v ->
  exists s i rec, select_interaction (QEq "name" (LText n)) FSeries m = (m, Ok s) /\ rows_of s = [(i, rec)] /\
    dget ("attributes." +++ k) rec = Some (match v with ANan => CNan | ANum x => CNumb x | AStr x => CText x end).
Proof.
  intros m n k v A U R. apply (proj1 (reads_iff m n k v A)) in R. destruct R as (_ & HI & HK & HV).
  destruct (has_name_split m n) as (l1 & x & l2 & ER & EN & NI); [apply mem_in; auto|]. subst n. rewrite (attr_of_mid _ _ _ _ _ ER NI) in HV.
  destruct (select_known (QEq "name" (LText (r_name x))) FSeries m A (name_known m _) I) as (s & E & RS); [discriminate|].
  exists s, (length l1), (frame_row (m_cols m) (length l1) x). split; [exact E|]. split.
  - rewrite RS, (by_name_mid m l1 x l2 ER); [reflexivity|]. unfold names_unique, names in U. rewrite ER, map_app in U. cbn in U. apply NoDup_remove_2 in U. rewrite map_app. exact U.
  - subst v. unfold attr_key in *. unfold frame_row.
    assert (X : forall d, dget ("attributes." +++ k) (record_of x ++ d) = dget ("attributes." +++ k) d) by reflexivity. rewrite X. clear X.
    destruct A as (_ & HC & _). rewrite <- HC in HK. clear - HK. unfold attr_val. induction (m_cols m) as [|[c col] cols IH]; [destruct HK|].
    cbn [map fst snd dget]. destruct (eqb ("attributes." +++ k) c) eqn:EC; [reflexivity|]. apply IH. destruct HK as [HK|HK]; auto.
    exfalso. apply not_true_iff_false in EC. apply EC, eqb_eq. symmetry. exact HK.
Qed.
(** Queries combine as sets: and is the intersection, or the union, not the complement. *)
Theorem C113_combines : forall a b m sa sb, aligned m -> select_interaction a FSeries m = (m, Ok sa) -> select_interaction b FSeries m = (m, Ok sb) ->
  exists s1 s2 s3, select_interaction (QAnd a b) FSeries m = (m, Ok s1) /\ select_interaction (QOr a b) FSeries m = (m, Ok s2) /\ select_interaction (QNot a) FSeries m = (m, Ok s3) /\
    forall i, (In i (map fst (rows_of s1)) <-> In i (map fst (rows_of sa)) /\ In i (map fst (rows_of sb))) /\
      (In i (map fst (rows_of s2)) <-> In i (map fst (rows_of sa)) \/ In i (map fst (rows_of sb))) /\
      (In i (map fst (rows_of s3)) <-> i < length (m_rows m) /\ ~ In i (map fst (rows_of sa))).
Proof.
  intros a b m sa sb A EA EB.
  destruct (select_inv _ _ _ _ A EA) as [KA VA]. destruct (select_inv _ _ _ _ A EB) as [KB VB].
  assert (KAB : forall c, In c (columns_in a ++ columns_in b) -> known m c) by (intros c HI; apply in_app_or in HI; destruct HI; auto).
  assert (VAB : forallb (fun ir => query_ok a (snd ir) && query_ok b (snd ir)) (frame_from (m_cols m) 0 (m_rows m)) = true).
  { apply forallb_forall. intros x HI. rewrite forallb_forall in VA, VB. rewrite (VA x HI), (VB x HI). reflexivity. }
  destruct (select_runs a FSeries m A KA VA) as (s & E & RA); [discriminate|]. rewrite EA in E. inversion E; subst s; clear E.
  destruct (select_runs b FSeries m A KB VB) as (s & E & RB); [discriminate|]. rewrite EB in E. inversion E; subst s; clear E.
  destruct (select_runs (QAnd a b) FSeries m A KAB VAB) as (s1 & E1 & R1); [discriminate|]. destruct (select_runs (QOr a b) FSeries m A KAB VAB) as (s2 & E2 & R2); [discriminate|].
  destruct (select_runs (QNot a) FSeries m A KA VA) as (s3 & E3 & R3); [discriminate|]. exists s1, s2, s3. do 3 (split; [assumption|]). rewrite RA, RB, R1, R2, R3.
  assert (P : forall q i, In i (map fst (filter (fun ir => query_row q (snd ir)) (frame_from (m_cols m) 0 (m_rows m)))) <->
    exists r, nth_error (m_rows m) i = Some r /\ query_row q (frame_row (m_cols m) i r) = true).
  { intros q i. rewrite in_map_iff. split.
    - intros ([p rec] & <- & HI). apply filter_In in HI. destruct HI as [HI HQ]. apply frame_in in HI. destruct HI as (j & r & -> & HN & ->). exists r. auto.
    - intros (r & HN & HQ). exists (i, frame_row (m_cols m) i r). split; [reflexivity|]. apply filter_In. split; [apply (frame_nth _ _ 0); exact HN|exact HQ]. }
  intros i. rewrite !P. cbn [query_row]. split; [|split].
  - split; [intros (r & HN & HQ); apply andb_true_iff in HQ; destruct HQ; split; exists r; auto|]. intros [(r & HN & H1) (r2 & HN2 & H2)]. rewrite HN in HN2. inversion HN2; subst. exists r2. rewrite H1, H2. auto.
  - split; [intros (r & HN & HQ); apply orb_true_iff in HQ; destruct HQ; [left|right]; exists r; auto|]. intros [(r & HN & H1)|(r & HN & H1)]; exists r; rewrite H1, ?orb_true_r; auto.
  - split.
    + intros (r & HN & HQ). split; [apply nth_error_Some; congruence|]. intros (r2 & HN2 & H2). rewrite HN in HN2. inversion HN2; subst. rewrite H2 in HQ. discriminate.
    + intros [HL HX]. destruct (nth_error (m_rows m) i) as [r|] eqn:HN; [|apply nth_error_None in HN; lia]. exists r. split; auto. apply negb_true_iff, not_true_iff_false. intros C. apply HX. exists r. auto.
Qed.

(** A model with a removed interaction, a pair and an attribute. *)
Definition table_model : lmodel := run_ops
  [OVariables (VName "x") (ShTuple [ShInt 3]); OAdd (TVar (spn "x" 0)) (NStr "") (num 1) (num 2) (AtDict [("foo", AStr "bar")]) TsNone;
   OAdd (PropsInteractions.pair (spn "x" 2) (spn "x" 1)) (NStr "") (num 3) (num 1) AtNone TsNone; OAdd (TVar (spn "x" 2)) (NStr "gone") (num 5) (num 1) (AtDict [("foo", AStr "baz")]) TsNone;
   ORemove TNone (NStr "gone")] (new_model Ising).
Example C113_hyps : aligned table_model /\ names_unique table_model /\ (forall r, In r (m_rows table_model) -> r_key r = inter_key (r_inter r)) /\
  (forall r, In r (m_rows table_model) -> active r -> exists x y, r_coef r = CNum x /\ r_scale r = CNum y) /\
  reads table_model "x[0]" "foo" (AStr "bar") /\
  (forall c, In c (columns_in (QAnd (QEq "removed" (LBool false)) (QNe "attributes.foo" (LText "bar")))) -> known table_model c) /\
  (exists s, select_interaction (QAnd (QEq "removed" (LBool false)) (QNe "attributes.foo" (LText "bar"))) FDict table_model = (table_model, Ok s) /\ map fst (rows_of s) = [1]) /\
  select_interaction (QEq "nosuch" (LNum 1)) FSeries table_model = (table_model, Err NameError) /\
  (exists ns, select_by_variable "x[2]" table_model = (table_model, Ok ns) /\ ns = ["x[1]*x[2]"; "gone"]).
Proof.
  split; [apply alignedb_ok; vm_compute; reflexivity|]. split; [apply (wfb_ok table_model); vm_compute; reflexivity|].
  split. { intros r HI. vm_compute in HI. repeat (destruct HI as [<-|HI]; [reflexivity|]). destruct HI. }
  split. { intros r HI _. vm_compute in HI. repeat (destruct HI as [<-|HI]; [cbn; eexists; eexists; split; reflexivity|]). destruct HI. }
  split; [vm_compute; reflexivity|]. split. { intros c [<-|[<-|[]]]; [left; simpl; tauto|right; vm_compute; auto]. }
  split. { rewrite select_eq. replace (df_ok table_model) with true by (vm_compute; reflexivity). match goal with |- context [if ?b then _ else _] => replace b with true by (vm_compute; reflexivity) end. eexists. split; [reflexivity|]. vm_compute. reflexivity. }
  split. { rewrite select_eq. replace (df_ok table_model) with true by (vm_compute; reflexivity). match goal with |- context [if ?b then _ else _] => replace b with false by (vm_compute; reflexivity) end. reflexivity. }
  eexists. split; vm_compute; reflexivity.
Qed.
Example C113_hyps_orders :
  (exists s, select_interaction (QOrd OGt "coefficient" (LNum (qz 2))) FDict table_model = (table_model, Ok s) /\ map fst (rows_of s) = [1; 2]) /\
  (exists s, select_interaction (QOrd OLe "attributes.foo" (LText "bar")) FSeries table_model = (table_model, Ok s) /\ map fst (rows_of s) = [0]) /\
  select_interaction (QOrd OLt "name" (LNum (qz 3))) FSeries table_model = (table_model, Err TypeError) /\
  ~ evaluable table_model (QOrd OLt "name" (LNum (qz 3))).
Proof.
  assert (A : aligned table_model) by (apply alignedb_ok; vm_compute; reflexivity).
  assert (KO : forall r, In r (m_rows table_model) -> r_key r = inter_key (r_inter r)).
  { intros r HI. vm_compute in HI. repeat (destruct HI as [<-|HI]; [reflexivity|]). destruct HI. }
  assert (T : select_interaction (QOrd OLt "name" (LNum (qz 3))) FSeries table_model = (table_model, Err TypeError)).
  { rewrite select_eq. replace (df_ok table_model) with true by (vm_compute; reflexivity). do 2 (match goal with |- context [if ?b then _ else _] => let b' := eval vm_compute in b in replace b with b' by (vm_compute; reflexivity) end; cbv iota). reflexivity. }
  split; [|split; [|split]].
  1,2: rewrite select_eq; replace (df_ok table_model) with true by (vm_compute; reflexivity); do 2 (match goal with |- context [if ?b then _ else _] => replace b with true by (vm_compute; reflexivity) end); eexists; split; [reflexivity|]; vm_compute; reflexivity.
  - exact T.
  - intros V. assert (X : exists m' s, select_interaction (QOrd OLt "name" (LNum (qz 3))) FSeries table_model = (m', Ok s)).
    { apply C113_succeeds_iff; auto. split; [intros c [<-|[]]; left; simpl; auto|split; [exact V|discriminate]]. }
    destruct X as (m' & s & E). rewrite T in E. discriminate.
Qed.
Print Assumptions C113_succeeds_iff.
Print Assumptions C113_refuses.
Print Assumptions C113_readonly.
Print Assumptions C113_selects.
Print Assumptions C113_by_name.
Print Assumptions C113_added.
Print Assumptions C113_removed.
Print Assumptions C113_by_variable.
Print Assumptions C113_energy.
Print Assumptions C113_attribute.
Print Assumptions C113_combines.
