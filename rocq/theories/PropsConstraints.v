(** * PropsConstraints: C26-C29 - constraint objects and their penalty models. *)
From Verif Require Import PyBase PyLemmas Numbers Constraint LogicalModel Spec LogicalProofs EnergyProofs ConvertProofs
  ConstraintProofs MergeProofs InteractionProofs Samples.
Open Scope list_scope.

(** How many variables are hot. *)
Definition hot_count (x : assignment) (vs : list var) : nat :=
  length (filter (fun v => Qc_eqb (x (v_label v)) 1%Qc) vs).
Lemma hot_is_count x vs : binary x -> hot x vs = qz (Z.of_nat (hot_count x vs)).
Proof.
  intros HB. induction vs as [|v vs IH]; [symmetry; apply qz_0|]. unfold hot, hot_count in *. simpl. rewrite IH.
  destruct (HB (v_label v)) as [E|E]; rewrite E.
  - change (Qc_eqb 0 1) with false. cbn iota. ring.
  - change (Qc_eqb 1 1) with true. cbn iota. cbn [length]. rewrite Nat2Z.inj_succ, <- Z.add_1_r, qz_add, qz_1. ring.
Qed.
Lemma hot_count_perm x a b : Permutation a b -> hot_count x a = hot_count x b.
Proof.
  intros H. unfold hot_count. induction H; simpl; auto.
  - destruct (Qc_eqb _ _); simpl; auto.
  - destruct (Qc_eqb (x (v_label y)) 1), (Qc_eqb (x (v_label x0)) 1); reflexivity.
  - congruence.
Qed.

(** ** C26 *)
Theorem C26_energy : forall ev vs n l s cm fd x, to_model ev (NHot vs n l s) = (cm, Ok tt) -> binary x ->
  let k := Z.of_nat (hot_count x vs) in
  energy fd x cm = (s * (qz ((k - n) * (k - n)) - qz (n * n)))%Qc.
Proof.
  intros ev vs n l s cm fd x E HB k. rewrite (nhot_energy _ _ _ _ _ _ _ _ _ E HB). unfold penalty.
  rewrite (hot_is_count x vs HB). fold k. rewrite !qz_mul, !qz_sub. reflexivity.
Qed.
Lemma first_hot (vs : list var) : NoDup (map v_label vs) -> forall n, n <= length vs ->
  exists x, binary x /\ hot_count x vs = n.
Proof.
  intros ND n HN. exists (fun l => if mem l (map v_label (firstn n vs)) then 1%Qc else 0%Qc). split.
  { intros l. destruct (mem l _); auto. }
  unfold hot_count.
  assert (H1 : forall l, (forall v, In v l -> In (v_label v) (map v_label (firstn n vs))) ->
    length (filter (fun v => Qc_eqb (if mem (v_label v) (map v_label (firstn n vs)) then 1%Qc else 0%Qc) 1%Qc) l) = length l).
  { induction l as [|v l IH]; intros H; auto. simpl. assert (M : mem (v_label v) (map v_label (firstn n vs)) = true) by (apply mem_in, H; simpl; auto).
    rewrite M. change (Qc_eqb 1 1) with true. simpl. rewrite IH; auto. intros w HI. apply H. simpl; auto. }
  assert (H2 : forall l, (forall v, In v l -> ~ In (v_label v) (map v_label (firstn n vs))) ->
    length (filter (fun v => Qc_eqb (if mem (v_label v) (map v_label (firstn n vs)) then 1%Qc else 0%Qc) 1%Qc) l) = 0).
  { induction l as [|v l IH]; intros H; auto. simpl. destruct (mem (v_label v) (map v_label (firstn n vs))) eqn:M.
    - apply mem_in in M. exfalso. apply (H v); simpl; auto.
    - change (Qc_eqb 0 1) with false. simpl. apply IH. intros w HI. apply H. simpl; auto. }
  transitivity (length (filter (fun v => Qc_eqb (if mem (v_label v) (map v_label (firstn n vs)) then 1%Qc else 0%Qc) 1%Qc) (firstn n vs ++ skipn n vs))).
  { rewrite (firstn_skipn n vs). reflexivity. }
  rewrite filter_app, app_length, H1, H2.
  - rewrite firstn_length_le by auto. lia.
  - rewrite <- (firstn_skipn n vs) in ND at 1. rewrite map_app in ND. apply NoDup_app_iff in ND. destruct ND as (_ & _ & ND).
    intros v HI HI2. apply (ND _ HI2). apply in_map; auto.
  - intros v HI. apply in_map; auto.
Qed.
(** Minimal exactly when n variables are hot (positive strength, n of them available). *)
Theorem C26_minimal_iff : forall ev vs n l s cm fd x, (0 < s)%Qc -> (0 <= n <= Z.of_nat (length vs))%Z ->
  to_model ev (NHot vs n l s) = (cm, Ok tt) -> binary x ->
  (forall y, binary y -> (energy fd x cm <= energy fd y cm)%Qc) <-> Z.of_nat (hot_count x vs) = n.
Proof.
  intros ev vs n l s cm fd x HS HN E HB.
  assert (HE : forall y, binary y -> (energy fd x cm <= energy fd y cm)%Qc <->
     let k := Z.of_nat (hot_count x vs) in let j := Z.of_nat (hot_count y vs) in ((k - n) * (k - n) <= (j - n) * (j - n))%Z).
  { intros y HY. simpl. rewrite (C26_energy _ _ _ _ _ _ fd x E HB), (C26_energy _ _ _ _ _ _ fd y E HY). rewrite Qc_mul_pos_cancel by auto.
    rewrite <- !qz_sub, qz_le. lia. }
  split.
  - intros H. destruct (nhot_built _ _ _ _ _ _ _ E) as (_ & ND & _).
    destruct (first_hot vs ND (Z.to_nat n)) as (y & HY & HC); [lia|]. specialize (H y HY). apply HE in H; auto. simpl in H. rewrite HC in H. nia.
  - intros H y HY. apply HE; auto. simpl. rewrite H, Z.sub_diag. apply Z.square_nonneg.
Qed.
(** The iteration order of the set is irrelevant, also for the other classes. *)
Theorem C26_order : forall ev ev' vs vs' n l s cm cm' fd x, Permutation vs vs' ->
  to_model ev (NHot vs n l s) = (cm, Ok tt) -> to_model ev' (NHot vs' n l s) = (cm', Ok tt) -> binary x ->
  energy fd x cm = energy fd x cm'.
Proof.
  intros. rewrite (C26_energy _ _ _ _ _ _ fd x H0 H2), (C26_energy _ _ _ _ _ _ fd x H1 H2), (hot_count_perm x vs vs'); auto.
Qed.
(** Building the model succeeds for distinct labels without '*' (all labels of
    declared variables are such), whatever the class. *)
Theorem C26_C27_C28_succeeds : forall ev c, NoDup (all_labels_of c) -> Forall (fun l => has_char "*"%char l = false) (all_labels_of c) ->
  exists cm, to_model ev c = (cm, Ok tt) /\ m_mtype cm = Qubo /\ aligned cm /\ well_formed cm.
Proof.
  intros ev c H1 H2. destruct (to_model_succeeds ev c H1 H2) as [cm E]. exists cm. pose proof (to_model_built _ _ _ _ E) as HB.
  split; auto. split; [|split; [apply built_aligned|apply built_wf]; auto].
  destruct HB. unfold frame in bl_frame. injection bl_frame as -> _ _ _ _ _. reflexivity.
Qed.
Example C26_hyps : exists cm x, (0 < qz 3)%Qc /\ (0 <= 2 <= Z.of_nat (length [bin "q" 0; bin "q" 1; bin "q" 2]))%Z /\
  to_model env0 (NHot [bin "q" 0; bin "q" 1; bin "q" 2] 2 "c" (qz 3)) = (cm, Ok tt) /\ binary x /\
  hot_count x [bin "q" 0; bin "q" 1; bin "q" 2] = 2 /\ Permutation [bin "q" 0; bin "q" 1; bin "q" 2] [bin "q" 1; bin "q" 0; bin "q" 2].
Proof.
  eexists. exists (fun l => if String.eqb l "q[1]" then 0%Qc else 1%Qc). split; [reflexivity|]. split; [simpl; lia|].
  split; [apply okb_ok; vm_compute; reflexivity|]. split; [intros l; destruct (String.eqb _ _); auto|].
  split; [reflexivity|]. apply perm_swap.
Qed.

(** ** C27 *)
Theorem C27_energy : forall ev vs l s cm fd x, NoDup (map v_label vs) ->
  to_model ev (ZeroOrOne vs l s) = (cm, Ok tt) -> binary x ->
  let k := Z.of_nat (hot_count x vs) in energy fd x cm = (s * qz (k * (k - 1)))%Qc.
Proof.
  intros ev vs l s cm fd x ND E HB k. rewrite (zero_one_energy _ _ _ _ _ _ _ _ E HB ND). unfold penalty.
  rewrite (hot_is_count x vs HB). fold k. rewrite qz_mul, qz_sub, qz_1. reflexivity.
Qed.
Theorem C27_zero_iff : forall ev vs l s cm fd x, (0 < s)%Qc -> NoDup (map v_label vs) ->
  to_model ev (ZeroOrOne vs l s) = (cm, Ok tt) -> binary x ->
  (energy fd x cm = 0%Qc <-> hot_count x vs <= 1) /\ (1 < hot_count x vs -> (0 < energy fd x cm)%Qc) /\ (0 <= energy fd x cm)%Qc.
Proof.
  intros ev vs l s cm fd x HS ND E HB. pose proof (C27_energy _ _ _ _ _ fd x ND E HB) as HE. simpl in HE.
  set (k := hot_count x vs) in *.
  assert (H0 : (0 <= energy fd x cm)%Qc).
  { rewrite HE. replace 0%Qc with (s * qz 0)%Qc by (rewrite qz_0; ring). apply Qc_mul_pos_cancel; auto. apply qz_le. nia. }
  assert (HZ : energy fd x cm = 0%Qc <-> k <= 1).
  { rewrite HE. replace 0%Qc with (s * qz 0)%Qc by (rewrite qz_0; ring). rewrite Qc_mul_eq_cancel by (apply Qclt_neq0; auto). rewrite qz_inj. nia. }
  split; auto. split; auto. intros HK. apply Qcnot_le_lt. intros HL. assert (energy fd x cm = 0%Qc) by (apply Qcle_antisym; auto). apply HZ in H. lia.
Qed.
(** ** C28 *)
Theorem C28_energy : forall ev v1 v2 l s cm fd x, NoDup v1 -> NoDup v2 ->
  to_model ev (Equality v1 v2 l s) = (cm, Ok tt) -> binary x ->
  let a := Z.of_nat (hot_count x v1) in let b := Z.of_nat (hot_count x v2) in
  energy fd x cm = (s * qz ((a - b) * (a - b)))%Qc.
Proof.
  intros ev v1 v2 l s cm fd x N1 N2 E HB a b. rewrite (to_model_energy ev (Equality v1 v2 l s) cm tt fd x E); simpl; auto.
  rewrite (hot_is_count x v1 HB), (hot_is_count x v2 HB). fold a b. rewrite qz_mul, qz_sub. reflexivity.
Qed.
Theorem C28_zero_iff : forall ev v1 v2 l s cm fd x, (0 < s)%Qc -> NoDup v1 -> NoDup v2 ->
  to_model ev (Equality v1 v2 l s) = (cm, Ok tt) -> binary x ->
  (energy fd x cm = 0%Qc <-> hot_count x v1 = hot_count x v2) /\ (0 <= energy fd x cm)%Qc.
Proof.
  intros ev v1 v2 l s cm fd x HS N1 N2 E HB. pose proof (C28_energy _ _ _ _ _ _ fd x N1 N2 E HB) as HE. simpl in HE.
  rewrite HE. replace 0%Qc with (s * qz 0)%Qc by (rewrite qz_0; ring). split.
  - rewrite Qc_mul_eq_cancel by (apply Qclt_neq0; auto). rewrite qz_inj. nia.
  - apply Qc_mul_pos_cancel; auto. apply qz_le. apply Z.square_nonneg.
Qed.
(** Overlapping variable sets (even only in labels) never yield a model. *)
Definition only_value_error (f : LM unit) : Prop := forall m, m_attrs m = [] ->
  m_attrs (fst (f m)) = [] /\ match snd (f m) with Ok _ => True | Err e => e = ValueError end.
Lemma add_only_value_error ev t nm c : (exists v, t = TVar v) \/ (exists v w, t = TTuple [EVar v; EVar w]) ->
  only_value_error (add_interaction ev t (NStr nm) (AC c) (AC (CNum 1%Qc)) AtNone TsNone).
Proof.
  intros HT m HA. unfold add_interaction, guard.
  assert (EI : exists r, interaction_info t = r /\ match r with Err e => e = ValueError | Ok _ => True end).
  { eexists. split; [reflexivity|]. destruct HT as [[v ->]|(v & w & ->)]; simpl; auto. destruct (String.eqb _ _); auto. destruct (String.ltb _ _); auto. }
  assert (ET : t_truthy t = true) by (destruct HT as [[v ->]|(v & w & ->)]; reflexivity). rewrite ET.
  unfold bind, lift, ret, get, raise. cbn [check_coef check_attrs check_ts]. destruct EI as (r & -> & HR). destruct r as [inf|e]; [|simpl; auto].
  assert (EN : exists nm', add_name (NStr nm) (in_name inf) = Ok nm') by (unfold add_name; destruct (n_truthy _); eauto).
  destruct EN as [nm' ->]. destruct (negb (has_name m nm')); [|simpl; auto]. unfold modify, expand_attrs, ret. cbn [m_attrs with_rows]. rewrite HA. simpl. auto.
Qed.
Lemma mfor_only {A} (f : A -> LM unit) l : (forall a, only_value_error (f a)) -> only_value_error (mfor l f).
Proof.
  intros H. induction l as [|a l IH]; intros m HA; simpl; [auto|]. unfold bind. specialize (H a m HA).
  destruct (f a m) as [m1 [[]|e]]; simpl in *; auto. destruct H. apply IH; auto.
Qed.
Lemma bind_only (f g : LM unit) : only_value_error f -> only_value_error g -> only_value_error (f ;;; g)%py.
Proof. intros HF HG m HA. unfold bind. specialize (HF m HA). destruct (f m) as [m1 [[]|e]]; simpl in *; auto. destruct HF. apply HG; auto. Qed.
Lemma pairs_only ev l q vs v : only_value_error (cadd_pairs_of ev l q vs v).
Proof.
  apply mfor_only. intros w. destruct (String.ltb _ _); [|intros m HA; simpl; auto]. apply add_only_value_error. right; eauto.
Qed.
Lemma to_model_only ev c : match snd (to_model ev c) with Ok _ => True | Err e => e = ValueError end.
Proof.
  assert (H1 : forall l q v, only_value_error (cadd1 ev l q v)) by (intros; apply add_only_value_error; left; eauto).
  assert (H2 : forall l q v w, only_value_error (cadd2 ev l q v w)) by (intros; apply add_only_value_error; right; eauto).
  destruct c as [vs n l s|vs l s|v1 v2 l s]; unfold to_model; match goal with |- match snd (?f ?m) with _ => _ end => apply (fun H : only_value_error f => proj2 (H m eq_refl)) end.
  - apply mfor_only. intros. apply bind_only; auto. intros; apply pairs_only.
  - apply mfor_only. intros. apply pairs_only.
  - apply bind_only; [intros; apply mfor_only; auto|]. apply bind_only; [intros; apply mfor_only; intros; apply pairs_only|].
    apply bind_only; [intros; apply mfor_only; intros; apply pairs_only|]. intros; apply mfor_only; intros; apply mfor_only; auto.
Qed.
Theorem C28_overlap_rejected : forall ev v1 v2 l s v w, In v v1 -> In w v2 -> v_label v = v_label w ->
  snd (to_model ev (Equality v1 v2 l s)) = Err ValueError.
Proof.
  intros ev v1 v2 l s v w H1 H2 EL. pose proof (to_model_only ev (Equality v1 v2 l s)) as HO.
  destruct (to_model ev (Equality v1 v2 l s)) as [cm [[]|e]] eqn:E; simpl in *; [|congruence].
  destruct (equality_built ev (set_union v1 v2) v1 v2 l s cm tt E) as (_ & _ & HD & _). exfalso. apply (HD v w); auto.
Qed.
Example C27_C28_hyps : exists cm cm2, (0 < qz 3)%Qc /\ NoDup (map v_label [bin "q" 0; bin "q" 1; bin "q" 2]) /\
  to_model env0 (ZeroOrOne [bin "q" 0; bin "q" 1; bin "q" 2] "c" (qz 3)) = (cm, Ok tt) /\
  NoDup [bin "q" 0; bin "q" 1] /\ NoDup [bin "q" 2; bin "q" 3; bin "q" 4] /\
  to_model env0 (Equality [bin "q" 0; bin "q" 1] [bin "q" 2; bin "q" 3; bin "q" 4] "c" (qz 3)) = (cm2, Ok tt).
Proof.
  eexists. eexists. split; [reflexivity|]. split; [apply nodupb_ok; reflexivity|]. split; [apply okb_ok; vm_compute; reflexivity|].
  do 2 (split; [apply nodupb_ok; reflexivity|]). apply okb_ok; vm_compute; reflexivity.
Qed.

(** ** C29 *)

(** The variables an argument stands for; [None]: ill-typed or empty. *)
Definition arg_vars (a : varsarg) : option (list var) :=
  match a with
  | VA_one v => Some [v]
  | VA_array l => Some l
  | VA_list l | VA_set l => match l with [] => None | _ => all_some l end
  | VA_bad => None
  end.
Lemma check_spec a : match check_variables_and_to_set a, arg_vars a with
  | Ok set, Some l => NoDup set /\ forall v, In v set <-> In v l
  | Err e, None => e = TypeError
  | _, _ => False end.
Proof.
  assert (H : forall l, NoDup (to_set [] l) /\ forall v, In v (to_set [] l) <-> In v l).
  { intros l. destruct (to_set_spec [] l) as [A B]; [constructor|]. split; auto. intros v. rewrite B. simpl. tauto. }
  destruct a as [v|l|l|l|]; simpl; auto.
  - split; [repeat constructor; simpl; tauto|]. tauto.
  - destruct l as [|o l]; auto. destruct (all_some (o :: l)); simpl; [apply H|auto].
  - destruct l as [|o l]; auto. destruct (all_some (o :: l)); simpl; [apply H|auto].
Qed.
(** The variable set of an N-hot or zero-or-one-hot constraint, and replacing it. *)
Definition one_set (c : constr) : option (list var) := match c with NHot vs _ _ _ | ZeroOrOne vs _ _ => Some vs | Equality _ _ _ _ => None end.
Definition put_set (vs : list var) (c : constr) : constr :=
  match c with NHot _ n l s => NHot vs n l s | ZeroOrOne _ l s => ZeroOrOne vs l s | c => c end.
Lemma diff_in a b v : In v (set_diff a b) <-> In v a /\ ~ In v b.
Proof.
  unfold set_diff. rewrite filter_In, negb_true_iff. split; intros [H1 H2]; split; auto.
  - intros HI. apply mem_in in HI. congruence.
  - destruct (mem v b) eqn:E; auto. apply mem_in in E. contradiction.
Qed.
Lemma diff_nodup a b : NoDup a -> NoDup (set_diff a b).
Proof. intros H. apply NoDup_filter. auto. Qed.
Lemma forallb_mem set vs : forallb (fun v => mem v vs) set = true <-> (forall v, In v set -> In v vs).
Proof. rewrite forallb_forall. split; intros H v HI; specialize (H v HI); apply mem_in; auto. Qed.
Theorem C29_add : forall a c vs, one_set c = Some vs -> NoDup vs ->
  match arg_vars a with
  | None => c_add_variable a c = (c, Err TypeError)
  | Some l => exists vs', c_add_variable a c = (put_set vs' c, Ok tt) /\ NoDup vs' /\ forall v, In v vs' <-> In v vs \/ In v l
  end.
Proof.
  intros a c vs HC HN. pose proof (check_spec a) as HS. destruct (check_variables_and_to_set a) as [set|e] eqn:ES, (arg_vars a) as [l|]; try contradiction.
  - destruct HS as [S1 S2]. destruct (to_set_spec vs set HN) as [T1 T2]. exists (set_union vs set). split; [|split; auto].
    + destruct c; simpl in *; inversion HC; subst; rewrite ES; reflexivity.
    + intros v. unfold set_union. rewrite T2, S2. tauto.
  - subst e. destruct c; simpl in *; inversion HC; subst; rewrite ES; reflexivity.
Qed.
Lemma to_set_absorb l : forall acc, (forall v, In v l -> In v acc) -> to_set acc l = acc.
Proof.
  induction l as [|v l IH]; intros acc H; simpl; auto.
  assert (M : mem v acc = true) by (apply mem_in, H; simpl; auto). rewrite M. apply IH. intros; apply H; simpl; auto.
Qed.
Theorem C29_add_twice : forall a c c' vs, one_set c = Some vs -> NoDup vs ->
  c_add_variable a c = (c', Ok tt) -> c_add_variable a c' = (c', Ok tt).
Proof.
  intros a c c' vs HC HN E. unfold c_add_variable in *. destruct c as [ws n l s|ws l s|w1 w2 l s]; simpl in HC; inversion HC; subst;
    destruct (check_variables_and_to_set a) as [set|e] eqn:ES; inversion E; subst; rewrite ES || unfold set_union;
    rewrite (to_set_absorb set (to_set vs set)); auto; intros v HI; apply to_set_spec; auto.
Qed.
Theorem C29_remove : forall a c vs, one_set c = Some vs -> NoDup vs ->
  match arg_vars a with
  | None => c_remove_variable a c = (c, Err TypeError)
  | Some l => ((forall v, In v l -> In v vs) /\ exists vs', c_remove_variable a c = (put_set vs' c, Ok tt) /\ NoDup vs' /\ forall v, In v vs' <-> In v vs /\ ~ In v l)
              \/ ((exists v, In v l /\ ~ In v vs) /\ c_remove_variable a c = (c, Err ValueError))
  end.
Proof.
  intros a c vs HC HN. pose proof (check_spec a) as HS. destruct (check_variables_and_to_set a) as [set|e] eqn:ES, (arg_vars a) as [l|]; try contradiction.
  - destruct HS as [S1 S2]. destruct (forallb (fun v => mem v vs) set) eqn:EF.
    + left. split; [intros v HI; apply S2 in HI; apply (proj1 (forallb_mem set vs)); auto|]. exists (set_diff vs set). split; [|split].
      * destruct c; simpl in *; inversion HC; subst; rewrite ES, EF; reflexivity.
      * apply diff_nodup; auto.
      * intros v. rewrite diff_in, S2. tauto.
    + right. split.
      * assert (HE : existsb (fun v => negb (mem v vs)) set = true).
        { clear -EF. induction set as [|v set IH]; simpl in *; [discriminate|]. destruct (mem v vs); simpl in *; auto. }
        apply existsb_exists in HE. destruct HE as (v & HI & HE). exists v. split; [apply S2; auto|]. intros HI2. apply mem_in in HI2. rewrite HI2 in HE. discriminate.
      * destruct c; simpl in *; inversion HC; subst; rewrite ES, EF; reflexivity.
  - subst e. destruct c; simpl in *; inversion HC; subst; rewrite ES; reflexivity.
Qed.
(** The two sides of an EqualityConstraint. *)
Definition side (b : bool) (c : constr) : option (list var) := match c with Equality v1 v2 _ _ => Some (if b then v1 else v2) | _ => None end.
Definition put_side (b : bool) (vs : list var) (c : constr) : constr :=
  match c with Equality v1 v2 l s => if b then Equality vs v2 l s else Equality v1 vs l s | c => c end.
Theorem C29_equality_add : forall b a c vs, side b c = Some vs -> NoDup vs ->
  match arg_vars a with
  | None => c_eq_add b a c = (c, Err TypeError)
  | Some l => exists vs', c_eq_add b a c = (put_side b vs' c, Ok tt) /\ NoDup vs' /\ forall v, In v vs' <-> In v vs \/ In v l
  end.
Proof.
  intros b a c vs HC HN. pose proof (check_spec a) as HS. destruct c as [| |v1 v2 l0 s0]; try discriminate. injection HC as HC.
  destruct (check_variables_and_to_set a) as [set|e] eqn:ES, (arg_vars a) as [l|]; try contradiction.
  - destruct HS as [S1 S2]. destruct (to_set_spec vs set HN) as [T1 T2]. exists (set_union vs set). split; [|split; auto].
    + unfold c_eq_add. rewrite ES. destruct b; simpl; subst vs; reflexivity.
    + intros v. unfold set_union. rewrite T2, S2. tauto.
  - subst e. unfold c_eq_add. rewrite ES. reflexivity.
Qed.
Theorem C29_equality_remove : forall b a c vs, side b c = Some vs -> NoDup vs ->
  match arg_vars a with
  | None => c_eq_remove b a c = (c, Err TypeError)
  | Some l => ((forall v, In v l -> In v vs) /\ exists vs', c_eq_remove b a c = (put_side b vs' c, Ok tt) /\ NoDup vs' /\ forall v, In v vs' <-> In v vs /\ ~ In v l)
              \/ ((exists v, In v l /\ ~ In v vs) /\ c_eq_remove b a c = (c, Err ValueError))
  end.
Proof.
  intros b a c vs HC HN. pose proof (check_spec a) as HS. destruct c as [| |v1 v2 l0 s0]; try discriminate. injection HC as HC.
  unfold c_eq_remove. destruct (check_variables_and_to_set a) as [set|e] eqn:ES, (arg_vars a) as [l|]; try contradiction.
  - rewrite HC. destruct HS as [S1 S2]. destruct (forallb (fun v => mem v vs) set) eqn:EF.
    + left. split; [intros v HI; apply S2 in HI; apply (proj1 (forallb_mem set vs)); auto|]. exists (set_diff vs set). split; [|split].
      * destruct b; simpl; subst vs; reflexivity.
      * apply diff_nodup; auto.
      * intros v. rewrite diff_in, S2. tauto.
    + right. split; auto.
      assert (HE : existsb (fun v => negb (mem v vs)) set = true).
      { clear -EF. induction set as [|v set IH]; simpl in *; [discriminate|]. destruct (mem v vs); simpl in *; auto. }
      apply existsb_exists in HE. destruct HE as (v & HI & HE). exists v. split; [apply S2; auto|]. intros HI2. apply mem_in in HI2. rewrite HI2 in HE. discriminate.
  - subst e. reflexivity.
Qed.
(** Constructed constraints hold duplicate-free sets of exactly the variables given. *)
Theorem C29_construct : forall a n l s c, mk_nhot (Some a) n l s = Ok c ->
  exists vs vars z lab st, c = NHot vs z lab st /\ arg_vars a = Some vars /\ n = Some z /\ (0 < z)%Z /\ l = Some lab /\ lab <> ""%string /\ s = Some st /\
    NoDup vs /\ forall v, In v vs <-> In v vars.
Proof.
  intros a n l s c E. unfold mk_nhot in E. destruct l as [lab|]; [|discriminate]. destruct (String.eqb_spec lab ""); [discriminate|].
  destruct s as [st|]; [|discriminate]. pose proof (check_spec a) as HS. destruct (check_variables_and_to_set a) as [set|e]; [|discriminate].
  destruct (arg_vars a) as [vars|]; [|contradiction]. destruct n as [z|]; [|discriminate]. destruct (Z.leb_spec z 0); [discriminate|].
  inversion E; subst. exists set, vars, z, lab, st. destruct HS. repeat split; auto; apply H1.
Qed.
Theorem C29_construct_zero_or_one : forall a l s c, mk_zero_or_one (Some a) l s = Ok c ->
  exists vs vars lab st, c = ZeroOrOne vs lab st /\ arg_vars a = Some vars /\ l = Some lab /\ lab <> ""%string /\ s = Some st /\
    NoDup vs /\ forall v, In v vs <-> In v vars.
Proof.
  intros a l s c E. unfold mk_zero_or_one in E. destruct l as [lab|]; [|discriminate]. destruct (String.eqb_spec lab ""); [discriminate|].
  destruct s as [st|]; [|discriminate]. pose proof (check_spec a) as HS. destruct (check_variables_and_to_set a) as [set|e]; [|discriminate].
  destruct (arg_vars a) as [vars|]; [|contradiction].
  inversion E; subst. exists set, vars, lab, st. destruct HS. repeat split; auto; apply H0.
Qed.
Theorem C29_construct_equality : forall a b l s c, mk_equality (Some a) (Some b) l s = Ok c ->
  exists v1 v2 vars1 vars2 lab st, c = Equality v1 v2 lab st /\ arg_vars a = Some vars1 /\ arg_vars b = Some vars2 /\ l = Some lab /\ lab <> ""%string /\ s = Some st /\
    NoDup v1 /\ NoDup v2 /\ (forall v, In v v1 <-> In v vars1) /\ (forall v, In v v2 <-> In v vars2).
Proof.
  intros a b l s c E. unfold mk_equality in E. destruct l as [lab|]; [|discriminate]. destruct (String.eqb_spec lab ""); [discriminate|].
  destruct s as [st|]; [|discriminate]. pose proof (check_spec a) as HS. destruct (check_variables_and_to_set a) as [set|e]; [|discriminate].
  destruct (arg_vars a) as [vars|]; [|contradiction]. pose proof (check_spec b) as HT. destruct (check_variables_and_to_set b) as [set2|e]; [|discriminate].
  destruct (arg_vars b) as [vars2|]; [|contradiction].
  inversion E; subst. exists set, set2, vars, vars2, lab, st. destruct HS, HT. repeat split; auto; try apply H0; apply H2.
Qed.
(** Nothing given: the empty set; wrong arguments: TypeError or ValueError, in the order label, strength, variables, n. *)
Theorem C29_construct_rejects : forall a n l s,
  (l = None -> mk_nhot a n l s = Err TypeError) /\ (l = Some ""%string -> mk_nhot a n l s = Err ValueError) /\
  (l <> Some ""%string -> s = None -> mk_nhot a n l s = Err TypeError) /\
  (forall lab st x, l = Some lab -> lab <> ""%string -> s = Some st -> a = Some x -> arg_vars x = None -> mk_nhot a n l s = Err TypeError) /\
  (forall lab st x vs z, l = Some lab -> lab <> ""%string -> s = Some st -> a = Some x -> arg_vars x = Some vs -> n = Some z ->
     (z <= 0)%Z -> mk_nhot a n l s = Err ValueError) /\
  (forall lab st x vs z, l = Some lab -> lab <> ""%string -> s = Some st -> a = Some x -> arg_vars x = Some vs -> n = Some z ->
     (0 < z)%Z -> exists c, mk_nhot a n l s = Ok c).
Proof.
  intros a n l s. unfold mk_nhot.
  assert (HE : forall lab, lab <> ""%string -> String.eqb lab "" = false) by (intros lab H; destruct (String.eqb_spec lab ""); congruence).
  split; [intros ->; auto|]. split; [intros ->; auto|]. split.
  { intros H ->. destruct l as [lab|]; auto. rewrite HE; auto. congruence. }
  split; [|split].
  - intros lab st x -> HL -> -> HA. rewrite HE by auto. pose proof (check_spec x) as HS. rewrite HA in HS. destruct (check_variables_and_to_set x); [contradiction|]. congruence.
  - intros lab st x vs z -> HL -> -> HA -> HZ. rewrite HE by auto. pose proof (check_spec x) as HS. rewrite HA in HS. destruct (check_variables_and_to_set x); [|contradiction].
    destruct (Z.leb_spec z 0); auto; lia.
  - intros lab st x vs z -> HL -> -> HA -> HZ. rewrite HE by auto. pose proof (check_spec x) as HS. rewrite HA in HS. destruct (check_variables_and_to_set x); [|contradiction].
    destruct (Z.leb_spec z 0); eauto; lia.
Qed.
Example C29_hyps : exists c, mk_nhot (Some (VA_list [Some (bin "q" 0); Some (bin "q" 1); Some (bin "q" 0)])) (Some 1%Z) (Some "c"%string) (Some 1%Qc) = Ok c /\
  one_set c = Some [bin "q" 0; bin "q" 1] /\ NoDup [bin "q" 0; bin "q" 1] /\ side true (Equality [bin "q" 0; bin "q" 1] [] "e" 1%Qc) = Some [bin "q" 0; bin "q" 1].
Proof. eexists. split; [reflexivity|]. split; [reflexivity|]. split; [apply nodupb_ok; reflexivity|reflexivity]. Qed.

Print Assumptions C26_energy.
Print Assumptions C26_minimal_iff.
Print Assumptions C26_order.
Print Assumptions C26_C27_C28_succeeds.
Print Assumptions C27_energy.
Print Assumptions C27_zero_iff.
Print Assumptions C28_energy.
Print Assumptions C28_zero_iff.
Print Assumptions C28_overlap_rejected.
Print Assumptions C29_add.
Print Assumptions C29_add_twice.
Print Assumptions C29_remove.
Print Assumptions C29_equality_add.
Print Assumptions C29_equality_remove.
Print Assumptions C29_construct.
Print Assumptions C29_construct_zero_or_one.
Print Assumptions C29_construct_equality.
Print Assumptions C29_construct_rejects.
