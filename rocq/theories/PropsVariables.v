(** * PropsVariables: C15-C18 - deleting and fixing variables. *)
From Verif Require Import PyBase PyLemmas Constraint LogicalModel Spec LogicalProofs EnergyProofs ConvertProofs
  ConstraintProofs MergeProofs PhysicalProofs ToPhysicalProofs InteractionProofs Samples PropsPhysical PropsInteractions.
Open Scope list_scope.

(** ** C15 *)

Lemma index_labels_skips dl vs x l : dmem x dl = true -> forall i l2i i2l,
  ~ In x (dkeys l2i) -> (forall j, dget j i2l <> Some x) ->
  ~ In x (dkeys (fst (index_labels dl vs i l l2i i2l))) /\ (forall j, dget j (snd (index_labels dl vs i l l2i i2l)) <> Some x).
Proof.
  intros HD. induction l as [|y l IH]; intros i l2i i2l H1 H2; simpl; [auto|].
  destruct (negb (dmem y dl) && mem y vs) eqn:E; [|apply IH; auto].
  assert (x <> y) by (intros ->; rewrite HD in E; discriminate).
  apply IH.
  - intros HI. apply dset_in_iff in HI. destruct HI; auto.
  - intros j. destruct (Nat.eq_dec j i) as [->|N].
    + rewrite dget_dset_same. congruence.
    + rewrite dget_dset_other by auto. auto.
Qed.
(** A deleted variable has no index in the physical model. *)
Theorem C15_deleted_not_indexed : forall ev evs fd m m' p l, m_len m = length (m_rows m) ->
  In l (dkeys (m_deleted m)) -> to_physical ev evs fd m = (m', Ok p) ->
  ~ In l (dkeys (p_l2i p)) /\ forall i, dget i (p_i2l p) <> Some l.
Proof.
  intros ev evs fd m m' p l HL HD E. destruct (to_physical_ok _ _ _ _ _ _ HL E) as (cms & _ & _ & ->).
  destruct (build_fields _ _ _ _ _ _ _ (eq_refl (phys fd m cms))) as (_&_&_&_&_&HI).
  apply dmem_in in HD.
  destruct (index_labels_skips (m_deleted m) (p_varset (phys fd m cms)) l (all_labels (m_vars m)) HD 0 [] []) as [A B].
  - intros [].
  - intros j. simpl. discriminate.
  - unfold phys in *. rewrite <- HI in A, B. auto.
Qed.
Definition dropped (l : string) (r : row) : row := if touches l r then set_dirty true (set_removed true r) else r.
Theorem C15_delete : forall v m m', names_unique m -> delete_variable (TVar v) m = (m', Ok tt) ->
  m_rows m' = map (dropped (v_label v)) (m_rows m) /\
  (forall r, In r (m_rows m') -> active r -> touches (v_label v) r = false) /\
  (forall fd s, energy fd s m' =
     (- qsum (map (contribution fd s) (filter (fun r => negb (touches (v_label v) r)) (m_rows m))) + value fd (m_offset m))%Qc) /\
  m_mtype m' = m_mtype m /\ m_vars m' = m_vars m /\ m_offset m' = m_offset m /\ m_fixed m' = m_fixed m /\ m_prev m' = m_prev m /\
  m_cols m' = m_cols m /\ m_attrs m' = m_attrs m /\ m_len m' = m_len m /\
  (forall l, In l (dkeys (m_deleted m')) <-> l = v_label v \/ In l (dkeys (m_deleted m))).
Proof.
  intros v m m' HU E. destruct (delete_ok _ _ _ _ E HU) as [cs ->]. simpl.
  split; [apply map_ext; intros r; unfold dropped, rm_if, rm; destruct (touches (v_label v) r); reflexivity|].
  split.
  { intros r HI HA. apply in_map_iff in HI. destruct HI as (r0 & <- & HI). unfold rm_if in *.
    destruct (touches (v_label v) r0) eqn:ET; auto. discriminate HA. }
  split.
  { intros fd s. rewrite energy_csum. simpl. rewrite csum_rm_if. reflexivity. }
  do 8 (split; [reflexivity|]). intros l. apply dset_in_iff.
Qed.
Lemma select_ok l m : aligned m -> select_by_variable l m = (m, Ok (map r_name (filter (touches l) (m_rows m)))).
Proof.
  intros HA. unfold select_by_variable, bind, dataframe.
  assert (HD : df_ok m = true).
  { unfold df_ok. apply forallb_forall. intros c Hc. apply Nat.eqb_eq. destruct HA as (A & _ & _ & D).
    rewrite Forall_forall in D. rewrite (D c Hc). auto. }
  rewrite HD. reflexivity.
Qed.
(** v removed from a constraint that contains it. *)
Definition without (v : var) (c : constr) : constr :=
  match c with
  | NHot vs n l s => NHot (filter (fun w => negb (var_eqb w v)) vs) n l s
  | ZeroOrOne vs l s => ZeroOrOne (filter (fun w => negb (var_eqb w v)) vs) l s
  | Equality a b l s => c
  end.
Definition mentions (v : var) (c : constr) : Prop :=
  match c with NHot vs _ _ _ | ZeroOrOne vs _ _ => In v vs | Equality _ _ _ _ => False end.
Lemma c_remove_one v c : mentions v c -> c_remove_variable (VA_one v) c = (without v c, Ok tt).
Proof.
  assert (HM : forall w, negb (mem w [v]) = negb (var_eqb w v)).
  { intros w. simpl. destruct (var_eqb w v); reflexivity. }
  destruct c; simpl; intros H; try contradiction; apply mem_in in H; rewrite H; simpl; unfold set_diff; do 2 f_equal;
    apply filter_ext; intros w; apply HM.
Qed.
Lemma constrs_remove_ok v todo : forall done m, m_constrs m = done ++ todo -> NoDup (dkeys (done ++ todo)) ->
  Forall (fun kc => mentions v (snd kc)) todo ->
  mfor (dkeys todo) (fun k => constr_remove k v) m =
  (with_constrs (done ++ map (fun kc => (fst kc, without v (snd kc))) todo) m, Ok tt).
Proof.
  induction todo as [|[k c] todo IH]; intros done m E ND F; simpl.
  - rewrite app_nil_r in *. unfold ret. rewrite <- E. destruct m; reflexivity.
  - inversion F as [|? ? HM F']; subst. unfold bind, constr_remove at 1.
    assert (NK : ~ In k (dkeys done)).
    { unfold dkeys in *. rewrite map_app in ND. apply NoDup_app_iff in ND. destruct ND as (_ & _ & ND). intros HI. apply (ND k HI). simpl; auto. }
    rewrite E, dget_mid by auto. simpl in HM. rewrite (c_remove_one v c HM).
    rewrite dset_mid by auto. change (done ++ (k, without v c) :: todo) with (done ++ [(k, without v c)] ++ todo).
    rewrite app_assoc. rewrite (IH (done ++ [(k, without v c)])); auto.
    + rewrite <- app_assoc. simpl. destruct m; reflexivity.
    + unfold dkeys in *. rewrite !map_app in *. simpl in *. rewrite <- app_assoc. exact ND.
Qed.
(** It succeeds when there are no constraints, or every constraint is an N-hot
    or zero-or-one-hot constraint that contains the variable (see C16). *)
Theorem C16_delete_succeeds_partial : forall v m, aligned m -> names_unique m ->
  (forall r, In r (m_rows m) -> r_name r <> ""%string) -> NoDup (dkeys (m_constrs m)) ->
  (forall l c, In (l, c) (m_constrs m) -> mentions v c) ->
  exists m', delete_variable (TVar v) m = (m', Ok tt) /\
    m_constrs m' = map (fun kc => (fst kc, without v (snd kc))) (m_constrs m) /\
    m_rows m' = map (dropped (v_label v)) (m_rows m).
Proof.
  intros v m HA HU HN ND HM. unfold delete_variable. cbv [guard t_truthy]. unfold bind at 1. simpl.
  unfold bind at 1, modify. unfold bind at 1, get. set (m1 := with_deleted _ m).
  change (m_constrs m1) with (m_constrs m). unfold bind at 1.
  rewrite (constrs_remove_ok v (m_constrs m) [] m1 eq_refl ND) by (apply Forall_forall; intros [l c] HI; eapply HM; eauto).
  set (m2 := with_constrs _ m1). unfold bind at 1.
  assert (HA2 : aligned m2) by (unfold m2, m1; destruct HA as (A & B & C & D); repeat split; auto).
  rewrite (select_ok (v_label v) m2 HA2).
  assert (ER : m_rows m2 = [] ++ m_rows m) by reflexivity.
  change (m_rows m2) with (m_rows m).
  rewrite (remove_loop_succeeds (touches (v_label v)) [] (m_rows m) m2 ER HU) by (intros; auto).
  eexists. split; [reflexivity|]. split; [reflexivity|]. simpl. apply map_ext.
  intros r; unfold dropped, rm_if, rm; destruct (touches (v_label v) r); reflexivity.
Qed.
Corollary C15_delete_succeeds : forall v m, aligned m -> names_unique m -> m_constrs m = [] ->
  (forall r, In r (m_rows m) -> r_name r <> ""%string) ->
  exists m', delete_variable (TVar v) m = (m', Ok tt).
Proof.
  intros v m HA HU HC HN. destruct (C16_delete_succeeds_partial v m HA HU HN) as (m' & E & _).
  - rewrite HC. constructor.
  - rewrite HC. intros l c [].
  - eauto.
Qed.
Example C15_hyps : exists m' m2 p, aligned ising_model /\ names_unique ising_model /\ 
  delete_variable (TVar (spn "x" 1)) ising_model = (m', Ok tt) /\ m_len m' = length (m_rows m') /\
  In "x[1]"%string (dkeys (m_deleted m')) /\
  to_physical env0 evs0 feed0 m' = (m2, Ok p) /\ (exists i, dget "x[0]"%string (p_l2i p) = Some i).
Proof.
  pose (m' := fst (delete_variable (TVar (spn "x" 1)) ising_model)).
  destruct (to_physical env0 evs0 feed0 m') as [m2 [p|e]] eqn:EP.
  - exists m', m2, p. split; [apply ising_al|]. split; [apply ising_wf|]. split; [unfold m'; apply okb_ok; vm_compute; reflexivity|].
    split; [reflexivity|]. split; [vm_compute; auto|]. split; [auto|].
    exists 0. assert (HX : match snd (to_physical env0 evs0 feed0 m') with Ok p => dget "x[0]"%string (p_l2i p) | Err _ => None end = Some 0) by (vm_compute; reflexivity).
    rewrite EP in HX. exact HX.
  - exfalso. assert (HB : okb (to_physical env0 evs0 feed0 m') = true) by (vm_compute; reflexivity). rewrite EP in HB. discriminate.
Qed.

(** ** C16 *)

(** Full statement: delete_variable succeeds on every model with constraints.
    It raises as soon as some constraint does not contain the variable, or is an
    EqualityConstraint; the variable is then already marked deleted while its
    interactions are still active. *)
Theorem C16_refuted :
  (exists m m1 r, aligned m /\ well_formed m /\ delete_variable (TVar (bin "q" 3)) m = (m1, Err ValueError) /\
     In "q[3]"%string (dkeys (m_deleted m1)) /\ In r (m_rows m1) /\ active r /\ touches "q[3]" r = true /\
     m_constrs m = [("one"%string, NHot [bin "q" 0; bin "q" 1; bin "q" 2] 1 "one" (qz 2))]) /\
  (exists m m1, aligned m /\ well_formed m /\ delete_variable (TVar (bin "q" 0)) m = (m1, Err AttributeError) /\
     m_constrs m = [("same"%string, Equality [bin "q" 0] [bin "q" 1] "same" 1%Qc)]).
Proof.
  split.
  - pose (m := fst ((variables (VName "q") (ShTuple [ShInt 4]) ;;;
       add_interaction env0 (TVar (bin "q" 3)) (NStr "") (num 1) (num 1) AtNone TsNone ;;;
       add_constraint (Some (NHot [bin "q" 0; bin "q" 1; bin "q" 2] 1 "one" (qz 2))))%py (new_model Qubo))).
    exists m. eexists. eexists. split; [apply alignedb_ok; reflexivity|]. split; [apply wfb_ok; reflexivity|].
    split; [unfold m; simpl; reflexivity|]. split; [vm_compute; auto|]. split; [left; reflexivity|].
    split; [reflexivity|]. split; reflexivity.
  - pose (m := fst ((variables (VName "q") (ShTuple [ShInt 2]) ;;;
       add_constraint (Some (Equality [bin "q" 0] [bin "q" 1] "same" 1%Qc)))%py (new_model Qubo))).
    exists m. eexists. split; [apply alignedb_ok; reflexivity|]. split; [apply wfb_ok; reflexivity|].
    split; [unfold m; simpl; reflexivity|]. reflexivity.
Qed.
Example C16_hyps : exists m, aligned m /\ names_unique m /\ (forall r, In r (m_rows m) -> r_name r <> ""%string) /\
  NoDup (dkeys (m_constrs m)) /\ (forall l c, In (l, c) (m_constrs m) -> mentions (bin "q" 1) c) /\ m_constrs m <> [].
Proof.
  exists (fst ((variables (VName "q") (ShTuple [ShInt 4]) ;;;
       add_interaction env0 (TVar (bin "q" 1)) (NStr "") (num 1) (num 1) AtNone TsNone ;;;
       add_constraint (Some (NHot [bin "q" 0; bin "q" 1; bin "q" 2] 1 "one" (qz 2))) ;;;
       add_constraint (Some (ZeroOrOne [bin "q" 3; bin "q" 1] "zo" (qz 2))))%py (new_model Qubo))).
  split; [apply alignedb_ok; reflexivity|]. split; [apply wfb_ok; reflexivity|].
  split; [intros r [<-|[]]; discriminate|]. split; [apply nodupb_ok; reflexivity|].
  split; [|discriminate]. intros l c [H|[H|[]]]; inversion H; simpl; auto.
Qed.

(** ** C17, C18 *)

(** What the removed interactions that mention the variable add back. *)
Definition resurrected fd (s : assignment) (l : string) (m : lmodel) : Qc :=
  qsum (map (fun r => if touches l r && r_removed r
                      then (value fd (r_coef r) * value fd (r_scale r) * monomial s (r_key r))%Qc else 0%Qc) (m_rows m)).
Lemma csum_split_touch_all fd s l v rows :
  (csum fd (assign s l v) rows +
   qsum (map (fun r => if touches l r && r_removed r
                      then value fd (r_coef r) * value fd (r_scale r) * monomial (assign s l v) (r_key r) else 0) rows) =
   csum fd s (map (rm_if (touches l)) rows) +
   qsum (map (fun r => value fd (r_coef r) * value fd (r_scale r) * monomial (assign s l v) (r_key r))
             (filter (touches l) rows)))%Qc.
Proof.
  induction rows as [|r rows IH]; [reflexivity|]. simpl map. rewrite !csum_cons. simpl. unfold rm_if at 1.
  destruct (touches l r) eqn:ET; simpl.
  - rewrite contribution_rm. unfold contribution at 1. destruct (r_removed r); simpl.
    + match goal with |- context [(0 + csum ?f ?a rows)%Qc] => idtac end.
      transitivity ((value fd (r_coef r) * value fd (r_scale r) * monomial (assign s l v) (r_key r)) +
        (csum fd (assign s l v) rows + qsum (map (fun r => if touches l r && r_removed r
           then value fd (r_coef r) * value fd (r_scale r) * monomial (assign s l v) (r_key r) else 0) rows)))%Qc; [ring|].
      rewrite IH. ring.
    + transitivity ((value fd (r_coef r) * value fd (r_scale r) * monomial (assign s l v) (r_key r)) +
        (csum fd (assign s l v) rows + qsum (map (fun r => if touches l r && r_removed r
           then value fd (r_coef r) * value fd (r_scale r) * monomial (assign s l v) (r_key r) else 0) rows)))%Qc; [ring|].
      rewrite IH. ring.
  - rewrite contribution_untouched by exact ET.
    transitivity (contribution fd s r +
        (csum fd (assign s l v) rows + qsum (map (fun r => if touches l r && r_removed r
           then value fd (r_coef r) * value fd (r_scale r) * monomial (assign s l v) (r_key r) else 0) rows)))%Qc; [ring|].
    rewrite IH. ring.
Qed.
(** What fix_variable does exactly: it substitutes the value, and brings back
    the removed interactions that mention the variable. *)
Theorem C18_exact_effect : forall ev v q m m' fd, well_formed m -> resolves fd (m_offset m) ->
  (forall r, In r (m_rows m) -> active r \/ touches (v_label v) r = true -> resolves fd (r_coef r) /\ resolves fd (r_scale r)) ->
  fix_variable ev (TVar v) q m = (m', Ok tt) ->
  forall s, energy fd s m' = (energy fd (assign s (v_label v) q) m - resurrected fd (assign s (v_label v) q) (v_label v) m)%Qc.
Proof.
  intros ev v q m m' fd HW HO HR E s.
  destruct (fix_ok _ _ _ _ _ _ E HW) as (ex & off & R1 & R2 & _ & _ & _ & R3).
  destruct (R3 fd) as (_ & _ & R4); auto.
  specialize (R4 s). rewrite !energy_csum, R1, R2, csum_app.
  pose proof (csum_split_touch_all fd s (v_label v) q (m_rows m)) as HS. fold (resurrected fd (assign s (v_label v) q) (v_label v) m) in HS.
  set (A := csum fd s (map (rm_if (touches (v_label v))) (m_rows m))) in *.
  set (B := qsum (map _ (filter _ _))) in *.
  set (C := resurrected _ _ _ _) in *.
  transitivity (- A + (- csum fd s ex + value fd off))%Qc; [ring|]. rewrite R4.
  assert (HA : (csum fd (assign s (v_label v) q) (m_rows m) = A + B - C)%Qc) by (rewrite <- HS; ring).
  rewrite HA. ring.
Qed.
Theorem C17_fix : forall ev v q m m' fd, well_formed m -> resolved fd m ->
  (forall r, In r (m_rows m) -> touches (v_label v) r = true -> active r) ->
  fix_variable ev (TVar v) q m = (m', Ok tt) ->
  (forall s, energy fd s m' = energy fd (assign s (v_label v) q) m) /\
  (forall r, In r (m_rows m') -> active r -> touches (v_label v) r = false) /\
  m_mtype m' = m_mtype m /\ m_vars m' = m_vars m /\ m_deleted m' = m_deleted m /\ m_constrs m' = m_constrs m /\
  (forall l, In l (dkeys (m_fixed m')) <-> l = v_label v \/ In l (dkeys (m_fixed m))).
Proof.
  intros ev v q m m' fd HW HR HA E. split; [intros s; eapply fix_energy; eauto|].
  destruct (fix_ok _ _ _ _ _ _ E HW) as (ex & off & R1 & R2 & R3 & R4 & R5 & _). split.
  { intros r HI HAc. rewrite R1 in HI. apply in_app_iff in HI. destruct HI as [HI|HI].
    - apply in_map_iff in HI. destruct HI as (r0 & <- & HI). unfold rm_if in *. destruct (touches (v_label v) r0) eqn:ET; auto. discriminate HAc.
    - rewrite Forall_forall in R5. apply R5 in HI. tauto. }
  injection R3 as F1 F2 F3 F4 F5 F6. do 4 (split; [auto|]). intros l. rewrite F4. apply dset_in_iff.
Qed.
(** In a QUBO, fixing to 0 is never disturbed by removed interactions. *)
Theorem C18_zero_partial : forall ev v m m' fd, well_formed m -> resolved fd m ->
  fix_variable ev (TVar v) 0%Qc m = (m', Ok tt) ->
  forall s, energy fd s m' = energy fd (assign s (v_label v) 0) m.
Proof.
  intros ev v m m' fd HW HR E s.
  assert (HX : energy fd s m' = (- csum fd s (map (rm_if (touches (v_label v))) (m_rows m)) + value fd (m_offset m))%Qc).
  { unfold fix_variable in E. apply bind_ok in E. destruct E as (? & [] & E1 & E). apply guard_ok in E1. destruct E1 as [_ ->].
    apply bind_ok in E. destruct E as (? & ? & E1 & E). unfold get in E1. inversion E1; subst; clear E1.
    apply bind_ok in E. destruct E as (? & [] & E1 & E). apply guard_ok in E1. destruct E1 as [_ ->].
    apply bind_ok in E. destruct E as (? & [] & E1 & E). unfold modify in E1. inversion E1; subst; clear E1.
    apply bind_ok in E. destruct E as (m3 & sel & E1 & E).
    unfold select_by_variable in E1. apply bind_ok in E1. destruct E1 as (m4 & rows & E2 & E3).
    apply dataframe_ok in E2. destruct E2 as [-> ->]. unfold ret in E3. inversion E3; subst; clear E3.
    assert (HZ : Qc_eqb 0 0 = true) by reflexivity. rewrite HZ in E.
    apply (remove_loop (touches (v_label v)) [] (m_rows x0)) in E; [|reflexivity|apply HW].
    rewrite E, energy_csum. reflexivity. }
  rewrite HX, energy_csum. f_equal. f_equal. 
  unfold csum. rewrite map_map. apply qsum_map_ext. intros r HI. unfold rm_if.
  destruct (touches (v_label v) r) eqn:ET; [|symmetry; apply contribution_untouched; auto].
  rewrite contribution_rm. unfold contribution. destruct (r_removed r); auto.
  assert (HM : monomial (assign s (v_label v) 0) (r_key r) = 0%Qc).
  { unfold touches in ET. destruct (r_key r) as [a|a b]; simpl in *; unfold assign.
    - rewrite ET. reflexivity.
    - destruct (String.eqb a (v_label v)); simpl in ET; [ring|rewrite ET; ring]. }
  rewrite HM. ring.
Qed.
(** Full statement of C18 fails: a removed interaction is resurrected. *)
Theorem C18_refuted : exists m m' s, well_formed m /\ resolved [] m /\
  fix_variable env0 (TVar (spn "x" 0)) 1%Qc m = (m', Ok tt) /\
  energy [] s m' <> energy [] (assign s "x[0]" 1%Qc) m.
Proof.
  pose (m := fst ((variables (VName "x") (ShTuple [ShInt 2]) ;;;
     add_interaction env0 (pair (spn "x" 0) (spn "x" 1)) (NStr "") (num 5) (num 1) AtNone TsNone ;;;
     remove_interaction (pair (spn "x" 0) (spn "x" 1)) (NStr ""))%py (new_model Ising))).
  exists m. eexists. exists (fun _ => 1%Qc). split; [apply wfb_ok; reflexivity|]. split; [apply resolvedb_ok; reflexivity|].
  split; [apply okb_ok; vm_compute; reflexivity|].
  intros H. apply (f_equal this) in H. vm_compute in H. discriminate.
Qed.

(** When fixing succeeds: a legal value, and the names it makes up for the
    one-body interactions that replace the two-body ones are not taken. *)
Definition two_body (r : row) : bool := match r_key r with K2 _ _ => true | _ => false end.
Definition other (l : string) (k : ikey) : string :=
  match k with K1 a => a | K2 a b => if String.eqb a l then b else a end.
Definition fixed_name (l : string) (r : row) : string :=
  (other l (r_key r) +++ " (before fixed: " +++ r_name r +++ ")")%string.
Definition new_names (l : string) (rows : list row) : list string :=
  map (fixed_name l) (filter (fun r => touches l r && two_body r) rows).

Lemma fix_step_succeeds ev l v l1 r l2 m : aligned m ->
  m_rows m = l1 ++ r :: l2 -> names_unique m -> key_ok r -> touches l r = true -> r_name r <> ""%string ->
  (two_body r = true -> ~ In (fixed_name l r) (names m)) ->
  exists m', fix_one ev l v (r_name r) m = (m', Ok tt) /\ aligned m' /\
    exists ex, m_rows m' = l1 ++ rm r :: l2 ++ ex /\ map r_name ex = (if two_body r then [fixed_name l r] else []).
Proof.
  intros HA ER ND [HK1 HK2] HT HNE HF. unfold names_unique, names in ND.
  assert (HN : ~ In (r_name r) (map r_name l1)).
  { rewrite ER, map_app in ND. simpl in ND. apply NoDup_remove_2 in ND. rewrite in_app_iff in ND; tauto. }
  unfold fix_one. unfold bind at 1, get. unfold bind at 1, lift. rewrite (name_index_mid m l1 r l2) by auto.
  rewrite ER. rewrite nth_error_app2, Nat.sub_diag by auto. cbn [nth_error].
  assert (AL : forall m2 l3, aligned m2 -> m_rows m2 = l1 ++ r :: l3 -> aligned (with_rows (l1 ++ rm r :: l3) m2)).
  { intros m2 l3 (A & B & C & D) ER2. split; [|split; [|split]]; auto. simpl. rewrite A, ER2, !app_length. reflexivity. }
  unfold two_body, fixed_name in HF. unfold two_body, fixed_name. destruct (r_key r) as [a|a b] eqn:EK.
  - unfold bind, modify.
    rewrite (remove_by_name_eq (with_offset _ m) l1 r l2 ER) by auto.
    eexists. split; [reflexivity|]. split.
    + apply (AL (with_offset _ m)); auto.
    + exists []. rewrite app_nil_r. auto.
  - unfold inter_key in HK1. destruct (r_inter r) as [w|w0 w1] eqn:EI; [discriminate|].
    inversion HK1; subst a b. clear HK1. unfold touches in HT. rewrite EK in HT. simpl in HT.
    set (to := if String.eqb (v_label w0) l then w1 else w0).
    assert (EO : v_label to = other l (K2 (v_label w0) (v_label w1))).
    { unfold to, other. destruct (String.eqb (v_label w0) l); reflexivity. }
    assert (ET : (if String.eqb (v_label w0) l then Ok w1 else if String.eqb (v_label w1) l then Ok w0 else Err UnboundLocalError) = Ok to).
    { unfold to. destruct (String.eqb (v_label w0) l); simpl in HT; [auto|]. rewrite HT. auto. }
    unfold bind at 1. rewrite ET. rewrite <- EO in HF |- *. set (nm := (v_label to +++ " (before fixed: " +++ r_name r +++ ")")%string) in *.
    assert (WF : attrs_wf AtNone) by (intros d H; discriminate).
    set (c := cmul (cmul (CNum v) (r_coef r)) (r_scale r)).
    destruct (proj2 (C03_succeeds_iff ev (TVar to) (NStr nm) (AC c) (AC (CNum 1%Qc)) AtNone TsNone m HA WF)) as [m2 E2].
    { exists c, (CNum 1%Qc), (I1 to), (v_label to), nm. do 4 (split; [try reflexivity; discriminate|]). split; [constructor|]. split; [|apply HF; auto].
      right. split; auto. unfold nm. destruct (v_label to); discriminate. }
    destruct (C03_effect _ _ _ _ _ _ _ _ _ HA WF E2) as (c' & s' & i & dn & nm' & _ & _ & HD & HS & _ & ER2 & _ & AL2 & _).
    unfold bind at 1. rewrite E2.
    assert (EN : nm' = nm). { destruct HS as [[H _]|[H _]]; [|congruence]. unfold n_truthy, nm in H. destruct (v_label to); discriminate. }
    rewrite ER, <- app_assoc in ER2. simpl in ER2. rewrite (remove_by_name_eq m2 l1 r _ ER2) by auto.
    eexists. split; [reflexivity|]. split; [apply AL; auto|].
    eexists. split; [reflexivity|]. simpl. rewrite EN. reflexivity.
Qed.
Lemma fix_loop_succeeds ev l v l2 : forall l1 ex0 m, aligned m ->
  m_rows m = l1 ++ l2 ++ ex0 -> Forall key_ok l2 -> Forall (fun r => r_name r <> ""%string) l2 ->
  NoDup (names m ++ new_names l l2) ->
  exists m', mfor (map r_name (filter (touches l) l2)) (fix_one ev l v) m = (m', Ok tt).
Proof.
  induction l2 as [|r l2 IH]; intros l1 ex0 m HA ER HK HNE ND; simpl.
  - eexists; reflexivity.
  - inversion HK as [|? ? HKr HK']; subst. inversion HNE as [|? ? HNr HNE']; subst.
    assert (ND1 : names_unique m) by (apply NoDup_app_iff in ND; tauto).
    destruct (touches l r) eqn:ET; simpl.
    + destruct (fix_step_succeeds ev l v l1 r (l2 ++ ex0) m HA ER ND1 HKr ET HNr) as (m1 & E1 & HA1 & ex & ER1 & EX).
      { intros H2. apply NoDup_app_iff in ND. destruct ND as (_ & _ & ND). intros HI. apply (ND _ HI).
        unfold new_names. simpl. rewrite ET, H2. simpl; auto. }
      unfold bind. rewrite E1. apply (IH (l1 ++ [rm r]) (ex0 ++ ex)); auto.
      * rewrite ER1. rewrite <- !app_assoc. reflexivity.
      * unfold names in *. rewrite ER1. rewrite ER in ND. unfold new_names in *. simpl in ND. rewrite ET in ND.
        rewrite !map_app in *. simpl. rewrite !map_app, EX. simpl in ND. rewrite !map_app in ND. destruct (two_body r); simpl in ND |- *.
        -- rewrite <- !app_assoc in *. simpl in *. rewrite <- !app_assoc in *. exact ND.
        -- rewrite app_nil_r. exact ND.
    + apply (IH (l1 ++ [r]) ex0); auto.
      * rewrite ER, <- app_assoc. reflexivity.
      * unfold new_names in *. simpl in ND. rewrite ET in ND. exact ND.
Qed.
Theorem C17_fix_succeeds : forall ev v q m, aligned m -> well_formed m ->
  (forall r, In r (m_rows m) -> r_name r <> ""%string) ->
  (match m_mtype m with Ising => q = 1%Qc \/ q = (- (1))%Qc | Qubo => q = 0%Qc \/ q = 1%Qc end) ->
  NoDup (names m ++ new_names (v_label v) (m_rows m)) ->
  exists m', fix_variable ev (TVar v) q m = (m', Ok tt).
Proof.
  intros ev v q m HA [HU HK] HN HQ HF. unfold fix_variable, guard. unfold bind at 1. cbn [t_truthy].
  assert (HL : legal_value (m_mtype m) q = true).
  { unfold legal_value. destruct (m_mtype m); apply orb_true_iff; rewrite !Qc_eqb_eq; tauto. }
  cbv [ret]. unfold bind at 1, get. unfold bind at 1. rewrite HL. unfold bind at 1, modify.
  set (m1 := with_fixed _ m). assert (HA1 : aligned m1) by (destruct HA as (A & B & C & D); split; [|split; [|split]]; auto).
  unfold bind. rewrite (select_ok _ m1 HA1). change (m_rows m1) with (m_rows m).
  destruct (Qc_eqb q 0).
  - eexists. rewrite (remove_loop_succeeds (touches (v_label v)) [] (m_rows m) m1 eq_refl HU) by (intros; auto). reflexivity.
  - apply (fix_loop_succeeds ev (v_label v) q (m_rows m) [] [] m1); auto.
    + rewrite app_nil_r. reflexivity.
    + apply Forall_forall. auto.
Qed.
(** In particular, whenever no name and no label contains "(". *)
Lemma split_paren a b n k : has_char "("%char a = false -> has_char "("%char b = false ->
  (a +++ " (before fixed: " +++ n = b +++ " (before fixed: " +++ k)%string -> n = k.
Proof.
  revert b. induction a as [|c a IH]; intros b HA HB E.
  - destruct b as [|d b]; simpl in E; [inversion E; auto|]. injection E as E1 E2. subst d.
    destruct b as [|d b]; simpl in E2; [discriminate|]. injection E2 as E1 E2. subst d. simpl in HB. discriminate.
  - destruct b as [|d b]; simpl in E.
    + injection E as E1 E2. subst c. destruct a as [|c a]; simpl in E2; [discriminate|]. injection E2 as E1 E2. subst c. simpl in HA. discriminate.
    + injection E as E1 E2. subst d. cbn [has_char] in HA, HB. apply orb_false_iff in HA, HB. apply (IH b); tauto.
Qed.
Corollary C17_fix_succeeds_plain : forall ev v q m, aligned m -> well_formed m ->
  (forall r, In r (m_rows m) -> r_name r <> ""%string /\ has_char "("%char (r_name r) = false /\
     Forall (fun l => has_char "("%char l = false) (labels_of (r_inter r))) ->
  (match m_mtype m with Ising => q = 1%Qc \/ q = (- (1))%Qc | Qubo => q = 0%Qc \/ q = 1%Qc end) ->
  exists m', fix_variable ev (TVar v) q m = (m', Ok tt).
Proof.
  intros ev v q m HA HW HN HQ. apply C17_fix_succeeds; auto.
  { intros r HI. apply HN; auto. }
  assert (HO : forall r, In r (m_rows m) -> has_char "("%char (other (v_label v) (r_key r)) = false).
  { intros r HI. destruct (HN r HI) as (_ & _ & HL). destruct HW as [_ HK]. rewrite Forall_forall in HK. destruct (HK r HI) as [EK _]. rewrite EK.
    destruct (r_inter r); simpl in *; inversion HL as [|? ? HL1 HL2]; subst; auto. inversion HL2; subst. destruct (String.eqb _ _); auto. }
  apply NoDup_app_iff. split; [apply HW|]. split.
  - unfold new_names. destruct HW as [HU _]. unfold names_unique, names in HU.
    assert (HS : forall r, In r (filter (fun r => touches (v_label v) r && two_body r) (m_rows m)) -> In r (m_rows m)) by (intros r HI; apply filter_In in HI; tauto).
    assert (HU2 : NoDup (map r_name (filter (fun r => touches (v_label v) r && two_body r) (m_rows m)))).
    { clear -HU. induction (m_rows m) as [|r rows IH]; simpl; [constructor|]. simpl in HU. inversion HU; subst.
      destruct (_ && _); simpl; auto. constructor; auto. intros HI. apply in_map_iff in HI. destruct HI as (r' & E & HI). apply filter_In in HI.
      apply H1. apply in_map_iff. exists r'. tauto. }
    revert HS HU2. generalize (filter (fun r => touches (v_label v) r && two_body r) (m_rows m)).
    intros rows HS HU2. induction rows as [|r rows IH]; simpl; [constructor|]. simpl in HU2. inversion HU2; subst.
    constructor; [|apply IH; auto; intros; apply HS; simpl; auto].
    intros HI. apply in_map_iff in HI. destruct HI as (r' & E & HI). apply H1. unfold fixed_name in E.
    apply split_paren in E; [|apply HO, HS; simpl; auto|apply HO, HS; simpl; auto].
    apply in_map_iff. exists r'. split; auto. symmetry; eapply append_inj_r; eauto.
  - intros n HI HI2. apply in_map_iff in HI. destruct HI as (r & <- & HI).
    unfold new_names in HI2. apply in_map_iff in HI2. destruct HI2 as (r' & E & HI2).
    destruct (HN r HI) as (_ & H1 & _). rewrite <- E in H1. unfold fixed_name in H1. rewrite has_char_app in H1.
    apply orb_false_iff in H1. destruct H1 as [_ H1]. simpl in H1. discriminate.
Qed.
Example C17_hyps : exists m m', aligned m /\ well_formed m /\ resolved feed0 m /\
  (forall r, In r (m_rows m) -> touches "x[0]" r = true -> active r) /\
  (forall r, In r (m_rows m) -> r_name r <> ""%string /\ has_char "("%char (r_name r) = false /\
     Forall (fun l => has_char "("%char l = false) (labels_of (r_inter r))) /\
  NoDup (names m ++ new_names "x[0]" (m_rows m)) /\
  fix_variable env0 (TVar (spn "x" 0)) 1%Qc m = (m', Ok tt) /\ length (filter (touches "x[0]") (m_rows m)) = 2.
Proof.
  pose (m := fst ((variables (VName "x") (ShTuple [ShInt 3]) ;;;
     add_interaction env0 (TVar (spn "x" 0)) (NStr "") (num 5) (num 1) AtNone TsNone ;;;
     add_interaction env0 (pair (spn "x" 0) (spn "x" 1)) (NStr "") (num 5) (num 2) AtNone TsNone ;;;
     add_interaction env0 (pair (spn "x" 2) (spn "x" 1)) (NStr "") (num 5) (num 1) AtNone TsNone)%py (new_model Ising))).
  exists m. eexists. split; [apply alignedb_ok; reflexivity|]. split; [apply wfb_ok; reflexivity|]. split; [apply resolvedb_ok; reflexivity|].
  split. { intros r [<-|[<-|[<-|[]]]] _; reflexivity. }
  split. { intros r [<-|[<-|[<-|[]]]]; (split; [discriminate|]; split; [reflexivity|]; repeat constructor). }
  split. { apply nodupb_ok. vm_compute. reflexivity. }
  split; [apply okb_ok; vm_compute; reflexivity|]. reflexivity.
Qed.

Example C18_hyps : exists m m', well_formed m /\ resolved [] m /\
  fix_variable env0 (TVar (bin "q" 0)) 0%Qc m = (m', Ok tt) /\ (exists r, In r (m_rows m) /\ r_removed r = true /\ touches "q[0]" r = true).
Proof.
  pose (m := fst ((variables (VName "q") (ShTuple [ShInt 2]) ;;;
     add_interaction env0 (pair (bin "q" 0) (bin "q" 1)) (NStr "") (num 5) (num 1) AtNone TsNone ;;;
     add_interaction env0 (TVar (bin "q" 0)) (NStr "") (num 5) (num 1) AtNone TsNone ;;;
     remove_interaction (pair (bin "q" 0) (bin "q" 1)) (NStr ""))%py (new_model Qubo))).
  exists m. eexists. split; [apply wfb_ok; reflexivity|]. split; [apply resolvedb_ok; reflexivity|].
  split; [apply okb_ok; vm_compute; reflexivity|]. eexists. split; [left; reflexivity|]. split; reflexivity.
Qed.

Print Assumptions C15_deleted_not_indexed.
Print Assumptions C15_delete.
Print Assumptions C16_delete_succeeds_partial.
Print Assumptions C15_delete_succeeds.
Print Assumptions C16_refuted.
Print Assumptions C18_exact_effect.
Print Assumptions C17_fix.
Print Assumptions C18_zero_partial.
Print Assumptions C18_refuted.
Print Assumptions C17_fix_succeeds.
Print Assumptions C17_fix_succeeds_plain.
