(** * PropsRejected: what the calls of C16 and C25 leave behind when they raise.

    C16 and C25 (a call that fails changes nothing / deleting always works) are
    false of the code. The theorems of this file say exactly when the calls
    raise and what the models are then. *)
From Verif Require Import PyBase PyLemmas Constraint LogicalModel Spec LogicalProofs EnergyProofs ConvertProofs
  ConstraintProofs MergeProofs PhysicalProofs ToPhysicalProofs InteractionProofs Samples PropsPhysical PropsInteractions
  PropsVariables PropsConvert PropsMerge.
Open Scope list_scope.

(** ** C16: delete_variable *)

(** The exception of a constraint that cannot give up the variable. *)
Definition refusal (c : constr) : exn := match c with Equality _ _ _ _ => AttributeError | _ => ValueError end.
Lemma c_remove_refused v c : ~ PropsVariables.mentions v c -> c_remove_variable (VA_one v) c = (c, Err (refusal c)).
Proof.
  destruct c as [vs n l s|vs l s|a b l s]; simpl; intros H; auto.
  - rewrite (proj2 (mem_nin _ _) H). reflexivity.
  - rewrite (proj2 (mem_nin _ _) H). reflexivity.
Qed.
Lemma constrs_remove_stops v l c post : forall pre done m, m_constrs m = done ++ pre ++ (l, c) :: post ->
  NoDup (dkeys (done ++ pre ++ (l, c) :: post)) -> Forall (fun kc => PropsVariables.mentions v (snd kc)) pre ->
  ~ PropsVariables.mentions v c ->
  mfor (dkeys (pre ++ (l, c) :: post)) (fun k => constr_remove k v) m =
  (with_constrs (done ++ map (fun kc => (fst kc, without v (snd kc))) pre ++ (l, c) :: post) m, Err (refusal c)).
Proof.
  induction pre as [|[k d] pre IH]; intros done m E ND F HM; simpl.
  - simpl in *. unfold bind, constr_remove at 1.
    assert (NK : ~ In l (dkeys done)).
    { unfold dkeys in *. rewrite map_app in ND. apply NoDup_app_iff in ND. destruct ND as (_ & _ & ND). intros HI. apply (ND l HI). simpl; auto. }
    rewrite E, dget_mid by auto. rewrite (c_remove_refused v c HM), dset_mid by auto. reflexivity.
  - inversion F as [|? ? HD F']; subst. unfold bind, constr_remove at 1.
    assert (NK : ~ In k (dkeys done)).
    { unfold dkeys in *. rewrite map_app in ND. apply NoDup_app_iff in ND. destruct ND as (_ & _ & ND). intros HI. apply (ND k HI). simpl; auto. }
    rewrite E. simpl. rewrite dget_mid by auto. simpl in HD. rewrite (c_remove_one v d HD).
    rewrite dset_mid by auto. change (done ++ (k, without v d) :: pre ++ (l, c) :: post) with (done ++ [(k, without v d)] ++ (pre ++ (l, c) :: post)).
    rewrite app_assoc. rewrite (IH (done ++ [(k, without v d)])); auto.
    + rewrite <- app_assoc. simpl. destruct m; reflexivity.
    + unfold dkeys in *. rewrite !map_app in *. simpl in *. rewrite <- app_assoc. simpl. exact ND.
Qed.
Lemma delete_stops v m pre l c post : m_constrs m = pre ++ (l, c) :: post -> NoDup (dkeys (m_constrs m)) ->
  Forall (fun kc => PropsVariables.mentions v (snd kc)) pre -> ~ PropsVariables.mentions v c ->
  delete_variable (TVar v) m =
  (with_constrs (map (fun kc => (fst kc, without v (snd kc))) pre ++ (l, c) :: post)
     (with_deleted (dset (v_label v) true (m_deleted m)) m), Err (refusal c)).
Proof.
  intros E ND F HM. unfold delete_variable. cbv [guard t_truthy]. unfold bind at 1. simpl.
  unfold bind at 1, modify. unfold bind at 1, get. set (m1 := with_deleted _ m).
  change (m_constrs m1) with (m_constrs m). unfold bind at 1. rewrite E.
  rewrite E in ND. rewrite (constrs_remove_stops v l c post pre [] m1) by auto. reflexivity.
Qed.

(** The first constraint that does not contain the variable as a plain member
    (an equality constraint never does) stops the call: the constraints before
    it have lost the variable, the label is marked deleted, and all the rest of
    the model, the interactions of the variable in particular, is as before. *)
Theorem C16_exact_effect : forall v m pre l c post, m_constrs m = pre ++ (l, c) :: post -> NoDup (dkeys (m_constrs m)) ->
  (forall k d, In (k, d) pre -> PropsVariables.mentions v d) -> ~ PropsVariables.mentions v c ->
  exists m1, delete_variable (TVar v) m = (m1, Err (match c with Equality _ _ _ _ => AttributeError | _ => ValueError end)) /\
    m_constrs m1 = map (fun kc => (fst kc, without v (snd kc))) pre ++ (l, c) :: post /\
    (forall x, In x (dkeys (m_deleted m1)) <-> x = v_label v \/ In x (dkeys (m_deleted m))) /\
    m_rows m1 = m_rows m /\ m_cols m1 = m_cols m /\ m_attrs m1 = m_attrs m /\ m_len m1 = m_len m /\ m_offset m1 = m_offset m /\
    m_mtype m1 = m_mtype m /\ m_vars m1 = m_vars m /\ m_fixed m1 = m_fixed m /\ m_prev m1 = m_prev m /\
    forall fd s, energy fd s m1 = energy fd s m.
Proof.
  intros v m pre l c post E ND F HM. eexists. split; [apply (delete_stops v m pre l c post); auto|].
  - apply Forall_forall. intros [k d] HI. apply (F k d HI).
  - simpl. split; [reflexivity|]. split; [intros x; apply dset_in_iff|]. do 9 (split; [reflexivity|]). reflexivity.
Qed.

Lemma mentions_dec v c : {PropsVariables.mentions v c} + {~ PropsVariables.mentions v c}.
Proof.
  destruct c as [vs n l s|vs l s|a b l s]; simpl; [| |right; auto].
  - destruct (mem v vs) eqn:E; [left; apply mem_in; auto|right; apply mem_nin; auto].
  - destruct (mem v vs) eqn:E; [left; apply mem_in; auto|right; apply mem_nin; auto].
Qed.
Lemma first_refusal v (cs : dict string constr) :
  (forall k d, In (k, d) cs -> PropsVariables.mentions v d) \/
  exists pre l c post, cs = pre ++ (l, c) :: post /\ (forall k d, In (k, d) pre -> PropsVariables.mentions v d) /\ ~ PropsVariables.mentions v c.
Proof.
  induction cs as [|[k d] cs IH]; [left; intros k d []|]. destruct (mentions_dec v d) as [HM|HM].
  - destruct IH as [IH|(pre & l & c & post & -> & H1 & H2)].
    + left. intros k' d' [X|X]; [inversion X; subst; auto|eauto].
    + right. exists ((k, d) :: pre), l, c, post. split; auto. split; auto. intros k' d' [X|X]; [inversion X; subst; auto|eauto].
  - right. exists [], k, d, cs. split; auto. split; [intros k' d' []|auto].
Qed.
(** delete_variable works exactly when every constraint is an N-hot or
    zero-or-one-hot constraint of the variable. *)
Theorem C16_succeeds_iff : forall v m, aligned m -> names_unique m ->
  (forall r, In r (m_rows m) -> r_name r <> ""%string) -> NoDup (dkeys (m_constrs m)) ->
  ((exists m', delete_variable (TVar v) m = (m', Ok tt)) <-> (forall l c, In (l, c) (m_constrs m) -> PropsVariables.mentions v c)).
Proof.
  intros v m HA HU HN ND. split.
  - intros [m' E]. destruct (first_refusal v (m_constrs m)) as [H|(pre & l & c & post & EC & H1 & H2)]; auto.
    destruct (C16_exact_effect v m pre l c post EC ND H1 H2) as (m1 & E1 & _). rewrite E1 in E. discriminate.
  - intros H. destruct (C16_delete_succeeds_partial v m HA HU HN ND H) as (m' & E & _). eauto.
Qed.
Lemma dset_again {V} (k : string) (x : V) d : dset k x (dset k x d) = dset k x d.
Proof.
  induction d as [|[k' y] d IH]; simpl.
  - rewrite String.eqb_refl. reflexivity.
  - destruct (String.eqb k k') eqn:E; simpl; rewrite E; [reflexivity|]. f_equal. exact IH.
Qed.
Lemma without_refuses v c : ~ PropsVariables.mentions v (without v c).
Proof.
  destruct c as [vs n l s|vs l s|a b l s]; simpl; auto; intros H; apply filter_In in H; destruct H as [_ H]; apply negb_true_iff in H;
    assert (X : var_eqb v v = true) by exact (proj2 (eqb_eq v v) eq_refl); congruence.
Qed.
(** Trying again does not help: after a call that a constraint has stopped,
    every further call raises, and changes nothing. *)
Theorem C16_retry : forall v m m1 e, aligned m -> names_unique m ->
  (forall r, In r (m_rows m) -> r_name r <> ""%string) -> NoDup (dkeys (m_constrs m)) ->
  delete_variable (TVar v) m = (m1, Err e) -> exists e', delete_variable (TVar v) m1 = (m1, Err e').
Proof.
  intros v m m1 e HA HU HN ND E. destruct (first_refusal v (m_constrs m)) as [H|(pre & l & c & post & EC & H1 & H2)].
  - destruct (C16_delete_succeeds_partial v m HA HU HN ND H) as (m' & E' & _). rewrite E' in E. discriminate.
  - rewrite (delete_stops v m pre l c post EC ND) in E; [|apply Forall_forall; intros [k d] HI; apply (H1 k d HI)|auto].
    apply (f_equal fst) in E. cbn [fst] in E. set (m2 := with_constrs _ _) in E. subst m1.
    assert (HK : NoDup (dkeys (m_constrs m2))).
    { unfold m2. cbn [m_constrs with_constrs]. rewrite EC in ND. unfold dkeys in *. rewrite map_app in *. rewrite map_map. exact ND. }
    assert (HD : forall cs, with_constrs (m_constrs m2) (with_deleted (dset (v_label v) true (m_deleted m2)) m2) = m2 ->
                 cs = m_constrs m2 -> with_constrs cs (with_deleted (dset (v_label v) true (m_deleted m2)) m2) = m2) by (intros cs X ->; exact X).
    assert (HI : with_constrs (m_constrs m2) (with_deleted (dset (v_label v) true (m_deleted m2)) m2) = m2).
    { unfold m2. cbn [m_deleted m_constrs with_constrs with_deleted]. rewrite dset_again. reflexivity. }
    destruct pre as [|[k0 c0] pre].
    + exists (refusal c). rewrite (delete_stops v m2 [] l c post); auto. f_equal. apply HD; auto.
    + exists (refusal (without v c0)).
      rewrite (delete_stops v m2 [] k0 (without v c0) (map (fun kc => (fst kc, without v (snd kc))) pre ++ (l, c) :: post)); auto.
      * f_equal. apply HD; auto.
      * apply without_refuses.
Qed.

(** Two constraints, of which only the first contains q[0]. *)
Definition two_constrs : lmodel := fst ((variables (VName "q") (ShTuple [ShInt 4]) ;;;
  add_interaction env0 (TVar (bin "q" 0)) (NStr "") (num 1) (num 1) AtNone TsNone ;;;
  add_constraint (Some (NHot [bin "q" 0; bin "q" 1] 1 "one" (qz 2))) ;;;
  add_constraint (Some (ZeroOrOne [bin "q" 2; bin "q" 3] "zo" (qz 2))))%py (new_model Qubo)).
Example C16_exact_hyps : exists m1, aligned two_constrs /\ names_unique two_constrs /\
  (forall r, In r (m_rows two_constrs) -> r_name r <> ""%string) /\ NoDup (dkeys (m_constrs two_constrs)) /\
  m_constrs two_constrs = [("one"%string, NHot [bin "q" 0; bin "q" 1] 1 "one" (qz 2))] ++ ("zo"%string, ZeroOrOne [bin "q" 2; bin "q" 3] "zo" (qz 2)) :: [] /\
  delete_variable (TVar (bin "q" 0)) two_constrs = (m1, Err ValueError) /\
  m_constrs m1 = [("one"%string, NHot [bin "q" 1] 1 "one" (qz 2)); ("zo"%string, ZeroOrOne [bin "q" 2; bin "q" 3] "zo" (qz 2))].
Proof.
  eexists. split; [apply alignedb_ok; reflexivity|]. split; [apply wfb_ok; reflexivity|].
  split; [intros r [<-|[]]; discriminate|]. split; [apply nodupb_ok; reflexivity|]. split; [reflexivity|].
  split; [vm_compute; reflexivity|]. reflexivity.
Qed.

(** ** C25: merge *)

Definition shares_label (m o : lmodel) : Prop := exists l, In l (dkeys (m_constrs m)) /\ In l (dkeys (m_constrs o)).
(** A shared constraint label is noticed when the variables and the
    interactions of other are already in self: self is then what it would be
    after merging other without its constraints, but with the offset and the
    marks of deleted and fixed variables it had. *)
Theorem C25_clash_effect : forall ev evo k m o, m_mtype m = m_mtype o -> aligned m -> aligned o ->
  NoDup (dkeys (m_vars m)) -> NoDup (dkeys (m_vars o)) ->
  (forall n a, dget n (m_vars m) = Some a -> In n (dkeys (m_vars o)) -> regular n a) ->
  same_dims (m_vars m) (m_vars o) -> shares_label m o ->
  exists m' m0, merge ev evo k m o = (m', o, Err ValueError) /\
    merge ev evo k m (with_constrs [] o) = (m0, with_constrs [] o, Ok tt) /\
    m_vars m' = m_vars m0 /\ m_rows m' = m_rows m0 /\ m_cols m' = m_cols m0 /\ m_attrs m' = m_attrs m0 /\ m_len m' = m_len m0 /\
    m_constrs m' = m_constrs m /\ m_offset m' = m_offset m /\ m_deleted m' = m_deleted m /\ m_fixed m' = m_fixed m /\
    m_prev m' = m_prev m /\ m_mtype m' = m_mtype m /\
    forall fd s, energy fd s m' = (energy fd s m + (energy fd s o - value fd (m_offset o)))%Qc.
Proof.
  intros ev evo k m o HT HA HB N1 N2 HR HS (l & L1 & L2).
  assert (HE : mtype_eqb (m_mtype m) (m_mtype o) = true) by (rewrite HT; destruct (m_mtype o); reflexivity).
  set (o0 := with_constrs [] o).
  destruct (merge_same_succeeds ev k o0 m HA HB N1 N2 HS HR) as [m0 E0]; [intros x _ []|].
  assert (E1 : exists m', merge_same ev k o m = (m', Err ValueError)).
  { unfold merge_same. cbv [bind get guard]. rewrite (proj2 (dims_ok_spec m o N1 N2) HS). cbv [ret].
    destruct (merge_vars_succeeds (m_vars o) m N2 HS HR) as [vs ->]. rewrite merge_cols_vars.
    change (merge_attrs_list (with_vars vs m) o) with (merge_attrs_list m o).
    destruct (merge_cols_some m o (merge_attrs_list m o) HA HB) as [cols ->]; [intros a Ha; apply merge_attrs_in; auto|].
    cbv [modify]. cbn [m_constrs with_vars].
    replace (existsb (fun l => dmem l (m_constrs o)) (dkeys (m_constrs m))) with true; [cbv [negb raise]; eauto|].
    symmetry. apply existsb_exists. exists l. split; auto. apply dmem_in; auto. }
  destruct E1 as [m' E1]. exists m', m0. unfold merge. change (m_mtype o0) with (m_mtype o). rewrite HE, E0, E1.
  split; [reflexivity|]. split; [reflexivity|].
  pose proof E0 as E0'. apply merge_same_ok in E0'. destruct E0' as (vs & cols & _ & HV & HCo & _ & ->).
  unfold merge_same in E1. cbv [bind get guard] in E1. rewrite (proj2 (dims_ok_spec m o N1 N2) HS) in E1. cbv [ret] in E1.
  change (m_vars o0) with (m_vars o) in HV. rewrite HV in E1. rewrite merge_cols_vars in E1.
  change (merge_attrs_list (with_vars vs m) o) with (merge_attrs_list m o0) in E1.
  assert (HX : forall ls, merge_cols m o ls = merge_cols m o0 ls).
  { induction ls as [|a ls IH]; simpl; auto. rewrite IH. reflexivity. }
  rewrite HX, HCo in E1. cbv [modify] in E1. cbn [m_constrs with_vars] in E1.
  assert (HC : existsb (fun l => dmem l (m_constrs o)) (dkeys (m_constrs m)) = true).
  { apply existsb_exists. exists l. split; auto. apply dmem_in; auto. }
  rewrite HC in E1. cbv [negb raise] in E1. apply (f_equal fst) in E1. cbn [fst] in E1. subst m'.
  cbn [m_vars m_rows m_cols m_attrs m_len m_constrs m_offset m_deleted m_fixed m_prev m_mtype with_len with_attrs with_cols with_rows with_vars].
  do 11 (split; [reflexivity|]). intros fd s. rewrite !energy_csum.
  cbn [m_rows m_offset with_len with_attrs with_cols with_rows with_vars].
  rewrite (eqx_csum fd s _ _ (rename_eqx _ _ _ _ _ _)), csum_app. ring.
Qed.
(** Exactly when models of the same type can be merged, and what a rejected
    merge leaves. *)
Theorem C25_exact_effect : forall ev evo k m o, m_mtype m = m_mtype o -> aligned m -> aligned o ->
  NoDup (dkeys (m_vars m)) -> NoDup (dkeys (m_vars o)) ->
  (forall n a, dget n (m_vars m) = Some a -> In n (dkeys (m_vars o)) -> regular n a) ->
  (~ same_dims (m_vars m) (m_vars o) /\ merge ev evo k m o = (m, o, Err ValueError)) \/
  (same_dims (m_vars m) (m_vars o) /\ shares_label m o /\
     exists m', merge ev evo k m o = (m', o, Err ValueError) /\ length (m_rows m') = length (m_rows m) + length (m_rows o)) \/
  (same_dims (m_vars m) (m_vars o) /\ ~ shares_label m o /\ exists m', merge ev evo k m o = (m', o, Ok tt)).
Proof.
  intros ev evo k m o HT HA HB N1 N2 HR.
  assert (HE : mtype_eqb (m_mtype m) (m_mtype o) = true) by (rewrite HT; destruct (m_mtype o); reflexivity).
  destruct (dims_ok m o) eqn:HD.
  - apply dims_ok_spec in HD; auto. right. destruct (existsb (fun l => dmem l (m_constrs o)) (dkeys (m_constrs m))) eqn:EX.
    + left. apply existsb_exists in EX. destruct EX as (l & L1 & L2). apply dmem_in in L2. split; auto.
      assert (SL : shares_label m o) by (exists l; auto). split; auto.
      destruct (C25_clash_effect ev evo k m o HT HA HB N1 N2 HR HD SL) as (m' & m0 & E & E0 & _ & HRW & _). exists m'. split; auto.
      rewrite HRW. unfold merge in E0. change (m_mtype (with_constrs [] o)) with (m_mtype o) in E0. rewrite HE in E0.
      destruct (merge_same ev k (with_constrs [] o) m) as [m1 r1] eqn:EM. inversion E0; subst.
      apply merge_same_ok in EM. destruct EM as (vs & cols & _ & _ & _ & _ & ->). cbn [m_rows]. rewrite rename_length, app_length. reflexivity.
    + right. split; auto.
      assert (NS : forall l, In l (dkeys (m_constrs m)) -> ~ In l (dkeys (m_constrs o))).
      { intros l L1 L2. assert (X : existsb (fun l => dmem l (m_constrs o)) (dkeys (m_constrs m)) = true); [|congruence].
        apply existsb_exists. exists l. split; auto. apply dmem_in; auto. }
      split; [intros (l & L1 & L2); apply (NS l L1 L2)|].
      destruct (C23_succeeds_iff ev evo k m o HT HA HB N1 N2 HR NS) as [[_ H]|[H _]]; [auto|contradiction].
  - left. split; [rewrite <- dims_ok_spec by auto; congruence|]. unfold merge. rewrite HE. unfold merge_same, bind, get, guard. rewrite HD. reflexivity.
Qed.
(** Models of different types: other is converted first, whatever happens
    then. If that succeeds, the call is a merge of models of the same type; if it
    raises, self is as it was. *)
Theorem C25_other_type : forall ev evo k m o m' o' r, well_formed o -> m_mtype m <> m_mtype o -> resolves [] (m_offset o) ->
  merge ev evo k m o = (m', o', r) ->
  (convert_mtype evo o = (o', Ok tt) /\ m_mtype o' = m_mtype m /\ merge ev evo k m o' = (m', o', r)) \/
  (exists e, convert_mtype evo o = (o', Err e) /\ m' = m /\ r = Err e).
Proof.
  intros ev evo k m o m' o' r HW HT HO E. unfold merge in E.
  assert (HE : mtype_eqb (m_mtype m) (m_mtype o) = false) by (destruct (m_mtype m), (m_mtype o); auto; congruence). rewrite HE in E.
  destruct (convert_mtype evo o) as [o1 [[]|e]] eqn:EC.
  - destruct (merge_same ev k o1 m) as [m1 r1] eqn:EM. inversion E; subst. left. split; auto.
    destruct (convert_mtype_resolves _ _ _ _ EC HW HO) as (_ & HX & _).
    assert (HY : m_mtype o' = m_mtype m) by (destruct (m_mtype m), (m_mtype o), (m_mtype o'); congruence). split; auto.
    unfold merge. rewrite HY. replace (mtype_eqb (m_mtype m) (m_mtype m)) with true by (destruct (m_mtype m); reflexivity). rewrite EM. reflexivity.
  - inversion E; subst. right. eauto.
Qed.
Example C25_exact_hyps : exists m' o', m_mtype (with_con 0) = m_mtype (with_con 1) /\ aligned (with_con 0) /\ aligned (with_con 1) /\
  NoDup (dkeys (m_vars (with_con 0))) /\ NoDup (dkeys (m_vars (with_con 1))) /\
  (forall n a, dget n (m_vars (with_con 0)) = Some a -> In n (dkeys (m_vars (with_con 1))) -> regular n a) /\
  same_dims (m_vars (with_con 0)) (m_vars (with_con 1)) /\ shares_label (with_con 0) (with_con 1) /\
  well_formed dims2 /\ m_mtype (with_con 0) <> m_mtype dims2 /\ resolves [] (m_offset dims2) /\
  merge env0 env0 0 (with_con 0) dims2 = (m', o', Err ValueError).
Proof.
  eexists. eexists. split; [reflexivity|]. do 2 (split; [apply alignedb_ok; reflexivity|]). do 2 (split; [apply nodupb_ok; reflexivity|]).
  split.
  { intros n a. simpl. destruct (String.eqb_spec n "q") as [->|N]; [|discriminate].
    intros H _. inversion H; subst. split; [reflexivity|]. split; [discriminate|]. repeat constructor. }
  split.
  { intros n a b Ha Hb. simpl in Ha, Hb. destruct Hb as [Hb|[]]. inversion Hb; subst. simpl in Ha. inversion Ha; reflexivity. }
  split; [exists "one"%string; split; left; reflexivity|]. split; [apply wfb_ok; reflexivity|]. split; [discriminate|]. split; [discriminate|].
  vm_compute. reflexivity.
Qed.
Print Assumptions C16_exact_effect.
Print Assumptions C16_succeeds_iff.
Print Assumptions C16_retry.
Print Assumptions C25_clash_effect.
Print Assumptions C25_exact_effect.
Print Assumptions C25_other_type.
