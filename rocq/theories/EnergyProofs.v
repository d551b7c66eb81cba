(** * EnergyProofs: what delete/fix/convert/merge/to_physical do to the energy. *)
From Verif Require Import PyBase PyLemmas Constraint LogicalModel Spec LogicalProofs.
Open Scope list_scope.

(** ** Values *)
Lemma value_num fd q : value fd (CNum q) = q.
Proof. reflexivity. Qed.
Lemma ceval_cmul fd a b : ceval fd (cmul a b) =
  match ceval fd a, ceval fd b with Some x, Some y => Some (x * y)%Qc | _, _ => None end.
Proof. destruct a, b; reflexivity. Qed.
Lemma ceval_cadd fd a b : ceval fd (cadd a b) =
  match ceval fd a, ceval fd b with Some x, Some y => Some (x + y)%Qc | _, _ => None end.
Proof. destruct a, b; reflexivity. Qed.
Lemma value_cmul fd a b : value fd (cmul a b) = (value fd a * value fd b)%Qc.
Proof. unfold value. rewrite ceval_cmul. destruct (ceval fd a), (ceval fd b); ring. Qed.
Lemma resolves_cmul fd a b : resolves fd (cmul a b) <-> resolves fd a /\ resolves fd b.
Proof.
  unfold resolves. rewrite ceval_cmul. destruct (ceval fd a), (ceval fd b);
  split; intros; repeat split; try tauto; congruence.
Qed.
Lemma resolves_cadd fd a b : resolves fd (cadd a b) <-> resolves fd a /\ resolves fd b.
Proof.
  unfold resolves. rewrite ceval_cadd. destruct (ceval fd a), (ceval fd b);
  split; intros; repeat split; try tauto; congruence.
Qed.
Lemma value_cadd fd a b : resolves fd a -> resolves fd b ->
  value fd (cadd a b) = (value fd a + value fd b)%Qc.
Proof.
  unfold resolves, value. rewrite ceval_cadd.
  destruct (ceval fd a), (ceval fd b); intros; congruence.
Qed.

#[global] Arguments cmul : simpl never.
#[global] Arguments cadd : simpl never.

Definition csum fd s (l : list row) : Qc := qsum (map (contribution fd s) l).
Lemma csum_app fd s a b : csum fd s (a ++ b) = (csum fd s a + csum fd s b)%Qc.
Proof. unfold csum. rewrite map_app, qsum_app. auto. Qed.
Lemma csum_cons fd s r l : csum fd s (r :: l) = (contribution fd s r + csum fd s l)%Qc.
Proof. reflexivity. Qed.
Lemma csum_nil fd s : csum fd s [] = 0%Qc.
Proof. reflexivity. Qed.
Lemma energy_csum fd s m : energy fd s m = (- csum fd s (m_rows m) + value fd (m_offset m))%Qc.
Proof. reflexivity. Qed.
Lemma contribution_rm fd s r : contribution fd s (rm r) = 0%Qc.
Proof. reflexivity. Qed.

Lemma monomial_untouched s l v k : key_touches l k = false ->
  monomial (assign s l v) k = monomial s k.
Proof.
  unfold assign; destruct k; simpl; intros E.
  - rewrite E; auto.
  - apply orb_false_iff in E. destruct E as [-> ->]; auto.
Qed.
Lemma contribution_untouched fd s l v r : key_touches l (r_key r) = false ->
  contribution fd (assign s l v) r = contribution fd s r.
Proof. intros E. unfold contribution. rewrite monomial_untouched; auto. Qed.

(** ** Removing a selected set of interactions *)
Definition rm_if (p : row -> bool) (r : row) : row := if p r then rm r else r.

Lemma names_rm_if p l : map r_name (map (rm_if p) l) = map r_name l.
Proof. rewrite map_map. apply map_ext. intros r; unfold rm_if; destruct (p r); auto. Qed.

Lemma remove_empty_name_err m : exists e, remove_interaction TNone (NStr "") m = (m, Err e).
Proof. eexists; reflexivity. Qed.

Lemma with_rows_twice a b m : with_rows a (with_rows b m) = with_rows a m.
Proof. reflexivity. Qed.
Lemma with_rows_id m l : m_rows m = l -> with_rows l m = m.
Proof. intros <-; destruct m; auto. Qed.

Lemma remove_loop p l1 l2 m m' u :
  m_rows m = l1 ++ l2 -> NoDup (map r_name (l1 ++ l2)) ->
  mfor (map r_name (filter p l2)) (fun n => remove_interaction TNone (NStr n)) m = (m', Ok u) ->
  m' = with_rows (l1 ++ map (rm_if p) l2) m.
Proof.
  revert l1 m; induction l2 as [|r l2 IH]; intros l1 m ER ND E; simpl in *.
  - minv. symmetry; apply with_rows_id; auto.
  - destruct (p r) eqn:Ep; simpl in E.
    + apply bind_ok in E. destruct E as (m1 & u1 & E1 & E).
      destruct (String.eqb_spec (r_name r) "").
      { rewrite e in E1. destruct (remove_empty_name_err m) as [x Hx]. congruence. }
      assert (HN : ~ In (r_name r) (map r_name l1)).
      { rewrite map_app in ND; simpl in ND. apply NoDup_remove_2 in ND.
        rewrite in_app_iff in ND; tauto. }
      rewrite (remove_by_name_eq m l1 r l2) in E1 by auto. inversion E1; subst m1 u1; clear E1.
      apply (IH (l1 ++ [rm r])) in E.
      * rewrite E. unfold rm_if at 2. rewrite Ep. rewrite <- app_assoc. reflexivity.
      * simpl. rewrite <- app_assoc. reflexivity.
      * rewrite !map_app in *. simpl in *. rewrite <- app_assoc. exact ND.
    + unfold rm_if at 1. rewrite Ep.
      apply (IH (l1 ++ [r])) in E.
      * rewrite E, <- app_assoc. reflexivity.
      * rewrite <- app_assoc; auto.
      * rewrite <- app_assoc; auto.
Qed.

(** The loop succeeds when no selected name is empty. *)
Lemma remove_loop_succeeds p l1 l2 m :
  m_rows m = l1 ++ l2 -> NoDup (map r_name (l1 ++ l2)) ->
  (forall r, In r l2 -> p r = true -> r_name r <> ""%string) ->
  mfor (map r_name (filter p l2)) (fun n => remove_interaction TNone (NStr n)) m
  = (with_rows (l1 ++ map (rm_if p) l2) m, Ok tt).
Proof.
  revert l1 m; induction l2 as [|r l2 IH]; intros l1 m ER ND HE; simpl in *.
  - unfold ret. rewrite with_rows_id; auto.
  - destruct (p r) eqn:Ep; simpl.
    + assert (HN : ~ In (r_name r) (map r_name l1)).
      { rewrite map_app in ND; simpl in ND. apply NoDup_remove_2 in ND.
        rewrite in_app_iff in ND; tauto. }
      unfold bind. rewrite (remove_by_name_eq m l1 r l2) by auto.
      rewrite (IH (l1 ++ [rm r])).
      * unfold rm_if at 2. rewrite Ep. rewrite <- app_assoc. reflexivity.
      * simpl. rewrite <- app_assoc. reflexivity.
      * rewrite !map_app in *. simpl in *. rewrite <- app_assoc. exact ND.
      * auto.
    + rewrite (IH (l1 ++ [r])); auto.
      * unfold rm_if at 2. rewrite Ep, <- app_assoc. reflexivity.
      * rewrite <- app_assoc; auto.
      * rewrite <- app_assoc; auto.
Qed.


Lemma constr_remove_frame k v m m' r : constr_remove k v m = (m', r) ->
  exists cs, m' = with_constrs cs m.
Proof.
  unfold constr_remove. destruct (dget k (m_constrs m)).
  - destruct (c_remove_variable (VA_one v) c). intros E; inversion E; eauto.
  - intros E; inversion E; subst. exists (m_constrs m'); destruct m'; auto.
Qed.
Lemma constrs_remove_frame ks v m m' r : mfor ks (fun k => constr_remove k v) m = (m', r) ->
  exists cs, m' = with_constrs cs m.
Proof.
  apply (mfor_inv (fun x => exists cs, x = with_constrs cs m)).
  - intros x s s' r' _ [cs ->] E. apply constr_remove_frame in E. destruct E as [cs' ->].
    exists cs'; reflexivity.
  - exists (m_constrs m); destruct m; auto.
Qed.

Lemma delete_ok v m m' u : delete_variable (TVar v) m = (m', Ok u) -> names_unique m ->
  exists cs, m' = with_rows (map (rm_if (touches (v_label v))) (m_rows m))
             (with_constrs cs (with_deleted (dset (v_label v) true (m_deleted m)) m)).
Proof.
  unfold delete_variable. intros E ND.
  apply bind_ok in E. destruct E as (m1 & u1 & E1 & E). apply guard_ok in E1. destruct E1 as [_ ->].
  apply bind_ok in E. destruct E as (m2 & u2 & E2 & E). inversion E2; subst m2 u2; clear E2.
  apply bind_ok in E. destruct E as (m2 & u2 & E2 & E). inversion E2; subst m2 u2; clear E2.
  apply bind_ok in E. destruct E as (m3 & u3 & E3 & E).
  apply constrs_remove_frame in E3. destruct E3 as [cs ->].
  unfold select_by_variable, dataframe in E.
  apply bind_ok in E. destruct E as (m4 & sel & E4 & E).
  apply bind_ok in E4. destruct E4 as (m5 & rows & E5 & E6).
  destruct (df_ok _) in E5; inversion E5; subst m5 rows; clear E5. inversion E6; subst m4 sel; clear E6.
  simpl in E. apply (remove_loop (touches (v_label v)) []) in E; simpl; auto.
  exists cs. rewrite E. reflexivity.
Qed.

Lemma csum_rm_if fd s p l : csum fd s (map (rm_if p) l) = csum fd s (filter (fun r => negb (p r)) l).
Proof.
  induction l as [|r l IH]; simpl; auto.
  unfold rm_if at 1. destruct (p r); simpl; rewrite !csum_cons, IH; auto.
  rewrite contribution_rm. ring.
Qed.

(** ** fix_variable *)
Lemma add_names_fresh ev t n co sc at_ ts m m' u :
  add_interaction ev t n co sc at_ ts m = (m', Ok u) -> names_unique m -> names_unique m'.
Proof.
  intros E ND. apply add_ok_core in E. destruct E as (c&s&q&inf&nm&d&[]&EC).
  unfold names_unique, names. rewrite (core_rows _ _ EC). simpl. rewrite map_app. simpl.
  apply NoDup_snoc; auto.
Qed.

Lemma fix_step ev l v l1 r l2 m m' u :
  m_rows m = l1 ++ r :: l2 -> names_unique m -> key_ok r -> touches l r = true ->
  fix_one ev l v (r_name r) m = (m', Ok u) ->
  exists ex off, m_rows m' = l1 ++ rm r :: l2 ++ ex /\ m_offset m' = off /\
    (m_mtype m', m_vars m', m_deleted m', m_fixed m', m_constrs m', m_prev m') =
    (m_mtype m, m_vars m, m_deleted m, m_fixed m, m_constrs m, m_prev m) /\
    names_unique m' /\
    Forall (fun x => key_ok x /\ active x /\ touches l x = false /\ r_scale x = CNum 1%Qc) ex /\
    (forall fd, resolves fd (r_coef r) -> resolves fd (r_scale r) -> resolves fd (m_offset m) ->
       resolves fd off /\ Forall (fun x => resolves fd (r_coef x)) ex /\
       forall s, (- csum fd s ex + value fd off =
         - (value fd (r_coef r) * value fd (r_scale r) * monomial (assign s l v) (r_key r))
         + value fd (m_offset m))%Qc).
Proof.
  intros ER ND [HK1 HK2] HT E. unfold names_unique, names in ND.
  assert (HN : ~ In (r_name r) (map r_name l1)).
  { rewrite ER, map_app in ND. simpl in ND. apply NoDup_remove_2 in ND. rewrite in_app_iff in ND; tauto. }
  unfold fix_one in E. apply bind_ok in E. destruct E as (m1 & x & E1 & E).
  inversion E1; subst m1 x; clear E1.
  unfold bind at 1, lift in E. rewrite (name_index_mid m l1 r l2) in E by auto.
  rewrite ER in E. rewrite nth_error_app2, Nat.sub_diag in E by auto. simpl in E.
  destruct (r_key r) as [a|a b] eqn:EK.
  - (* 1-body *)
    apply bind_ok in E. destruct E as (m1 & x & E1 & E). inversion E1; subst m1 x; clear E1.
    destruct (String.eqb_spec (r_name r) "").
    { rewrite e in E. edestruct remove_empty_name_err as [y Hy]. rewrite Hy in E; discriminate. }
    rewrite (remove_by_name_eq _ l1 r l2) in E by (simpl; auto).
    inversion E; subst m' u; clear E.
    exists [], (cadd (m_offset m) (cmul (cmul (CNum (- v)%Qc) (r_coef r)) (r_scale r))).
    rewrite app_nil_r. simpl. split; [reflexivity|]. split; [reflexivity|]. split; [reflexivity|].
    split. { unfold names_unique, names; simpl. rewrite ER in ND. rewrite map_app in *; simpl in *; auto. }
    split; [constructor|].
    intros fd R1 R2 R3. split; [|split; [constructor|]].
    + apply resolves_cadd. split; auto. apply resolves_cmul; split; auto. apply resolves_cmul; split; auto.
      unfold resolves; simpl; congruence.
    + intros s. rewrite csum_nil. rewrite value_cadd, !value_cmul; auto.
      * rewrite value_num. unfold touches in HT. rewrite EK in HT. simpl in HT.
        unfold assign. simpl. rewrite HT. ring.
      * apply resolves_cmul; split; auto. apply resolves_cmul; split; auto. unfold resolves; simpl; congruence.
  - (* 2-body *)
    unfold inter_key in HK1. destruct (r_inter r) as [w|w0 w1] eqn:EI; [discriminate|].
    inversion HK1; subst a b. clear HK1.
    assert (NEl : v_label w0 <> v_label w1).
    { intros EE. rewrite EE, ltb_irrefl in HK2; discriminate. }
    apply bind_ok in E. destruct E as (m1 & to & E1 & E). apply lift_eq in E1. destruct E1 as [E1 ->].
    apply bind_ok in E. destruct E as (m2 & u2 & E2 & E).
    pose proof (add_names_fresh _ _ _ _ _ _ _ _ _ _ E2 ND) as ND2.
    apply add_ok_core in E2. destruct E2 as (c&sc&q&inf&nm&d&[A1 A2 A3 A4 A5 A6 A7 A8]&EC).
    inversion A2; subst c; clear A2. inversion A3; subst sc; clear A3.
    simpl in A5. inversion A5; subst inf; clear A5.
    pose proof (core_rows _ _ EC) as ER2. cbn [m_rows with_rows] in ER2.
    rewrite ER in ER2. rewrite <- app_assoc in ER2. simpl in ER2.
    destruct (String.eqb_spec (r_name r) "").
    { rewrite e in E. edestruct (remove_empty_name_err m2) as [y Hy]. rewrite Hy in E; discriminate. }
    rewrite (remove_by_name_eq m2 l1 r _ ER2) in E by auto.
    inversion E; subst m' u; clear E.
    set (nr := new_row nm _ _ _ _) in *.
    exists [nr], (m_offset m2). simpl.
    assert (EO : m_offset m2 = m_offset m) by (apply core_offset in EC; auto).
    split; [reflexivity|]. split; [reflexivity|]. split; [unfold core in EC; cbn in EC; congruence|].
    split. { unfold names_unique, names in *; simpl. rewrite ER2 in ND2. rewrite map_app in *; simpl in *; auto. }
    assert (HTo : String.eqb (v_label to) l = false /\ forall s, monomial (assign s l v) (K2 (v_label w0) (v_label w1)) = (v * s (v_label to))%Qc).
    { unfold touches in HT. rewrite EK in HT. simpl in HT. unfold assign; simpl.
      destruct (String.eqb_spec (v_label w0) l).
      - inversion E1; subst. destruct (String.eqb_spec (v_label to) (v_label w0)); [congruence|]. auto.
      - destruct (String.eqb_spec (v_label w1) l); [|discriminate].
        inversion E1; subst to l. destruct (String.eqb_spec (v_label w0) (v_label w1)); [congruence|].
        split; auto. intros s; ring. }
    destruct HTo as [HTo HM].
    split. { constructor; [|constructor]. repeat split; simpl; auto. }
    intros fd R1 R2 R3. rewrite EO. split; auto. split.
    + constructor; [|constructor]. simpl. apply resolves_cmul; split; auto. apply resolves_cmul; split; auto.
      unfold resolves; simpl; congruence.
    + intros s. rewrite csum_cons, csum_nil. unfold contribution; simpl.
      rewrite !value_cmul, !value_num. pose proof (HM s) as HMs. simpl in HMs. rewrite HMs. ring.
Qed.

Lemma fix_loop ev l v l2 : forall l1 ex0 m m' u,
  m_rows m = l1 ++ l2 ++ ex0 -> names_unique m -> Forall key_ok l2 ->
  mfor (map r_name (filter (touches l) l2)) (fix_one ev l v) m = (m', Ok u) ->
  exists ex off, m_rows m' = l1 ++ map (rm_if (touches l)) l2 ++ ex0 ++ ex /\ m_offset m' = off /\
    (m_mtype m', m_vars m', m_deleted m', m_fixed m', m_constrs m', m_prev m') =
    (m_mtype m, m_vars m, m_deleted m, m_fixed m, m_constrs m, m_prev m) /\
    names_unique m' /\
    Forall (fun x => key_ok x /\ active x /\ touches l x = false /\ r_scale x = CNum 1%Qc) ex /\
    (forall fd, (forall r, In r l2 -> touches l r = true -> resolves fd (r_coef r) /\ resolves fd (r_scale r)) ->
       resolves fd (m_offset m) ->
       resolves fd off /\ Forall (fun x => resolves fd (r_coef x)) ex /\
       forall s, (- csum fd s ex + value fd off =
         - qsum (map (fun r => value fd (r_coef r) * value fd (r_scale r) * monomial (assign s l v) (r_key r))
                     (filter (touches l) l2))
         + value fd (m_offset m))%Qc).
Proof.
  induction l2 as [|r l2 IH]; intros l1 ex0 m m' u ER ND HK E; simpl in *.
  - minv. exists [], (m_offset m'). rewrite app_nil_r. simpl.
    split; [auto|]. split; [auto|]. split; [auto|]. split; [auto|]. split; [constructor|].
    intros fd _ RO. split; [auto|]. split; [constructor|]. intros s. rewrite csum_nil. ring.
  - inversion HK as [|? ? HKr HK']; subst.
    destruct (touches l r) eqn:ET; simpl in E.
    + apply bind_ok in E. destruct E as (m1 & u1 & E1 & E).
      destruct (fix_step ev l v l1 r (l2 ++ ex0) m m1 u1 ER ND HKr ET E1)
        as (ex1 & off1 & ER1 & EO1 & EF1 & ND1 & HX1 & HV1).
      assert (ER1' : m_rows m1 = (l1 ++ [rm r]) ++ l2 ++ (ex0 ++ ex1)).
      { rewrite ER1, <- !app_assoc. reflexivity. }
      destruct (IH _ _ _ _ _ ER1' ND1 HK' E) as (ex2 & off2 & ER2 & EO2 & EF2 & ND2 & HX2 & HV2).
      exists (ex1 ++ ex2), off2. split; [|split; [|split; [|split; [|split]]]]; auto.
      * rewrite ER2. unfold rm_if at 2. rewrite ET. rewrite <- !app_assoc. reflexivity.
      * congruence.
      * apply Forall_app; auto.
      * intros fd R RO. destruct (R r (or_introl eq_refl) ET) as [Rc Rs].
        destruct (HV1 fd Rc Rs RO) as (RO1 & RX1 & V1). subst off1.
        destruct (HV2 fd (fun r Hr => R r (or_intror Hr)) RO1) as (RO2 & RX2 & V2).
        split; auto. split; [apply Forall_app; auto|].
        intros s. rewrite csum_app. specialize (V1 s). specialize (V2 s). simpl.
        transitivity ((- csum fd s ex1) + (- csum fd s ex2 + value fd off2))%Qc; [ring|].
        rewrite V2.
        transitivity ((- csum fd s ex1 + value fd (m_offset m1)) - qsum (map (fun r => value fd (r_coef r) * value fd (r_scale r) * monomial (assign s l v) (r_key r)) (filter (touches l) l2)))%Qc; [ring|].
        rewrite V1. ring.
    + assert (ER1 : m_rows m = (l1 ++ [r]) ++ l2 ++ ex0) by (rewrite ER, <- app_assoc; auto).
      destruct (IH _ _ _ _ _ ER1 ND HK' E) as (ex2 & off2 & ER2 & EO2 & EF2 & ND2 & HX2 & HV2).
      exists ex2, off2. split; [|split; [|split; [|split; [|split]]]]; auto.
      rewrite ER2. unfold rm_if at 2. rewrite ET. rewrite <- !app_assoc. reflexivity.
Qed.

Lemma fix_ok ev v q m m' u :
  fix_variable ev (TVar v) q m = (m', Ok u) -> well_formed m ->
  exists ex off, m_rows m' = map (rm_if (touches (v_label v))) (m_rows m) ++ ex /\ m_offset m' = off /\
    (m_mtype m', m_vars m', m_deleted m', m_fixed m', m_constrs m', m_prev m') =
    (m_mtype m, m_vars m, m_deleted m, dset (v_label v) true (m_fixed m), m_constrs m, m_prev m) /\
    names_unique m' /\
    Forall (fun x => key_ok x /\ active x /\ touches (v_label v) x = false /\ r_scale x = CNum 1%Qc) ex /\
    (forall fd, (forall r, In r (m_rows m) -> touches (v_label v) r = true -> resolves fd (r_coef r) /\ resolves fd (r_scale r)) ->
       resolves fd (m_offset m) ->
       resolves fd off /\ Forall (fun x => resolves fd (r_coef x)) ex /\
       forall s, (- csum fd s ex + value fd off =
         - qsum (map (fun r => value fd (r_coef r) * value fd (r_scale r) * monomial (assign s (v_label v) q) (r_key r))
                     (filter (touches (v_label v)) (m_rows m)))
         + value fd (m_offset m))%Qc).
Proof.
  intros E [ND HK]. unfold fix_variable in E.
  apply bind_ok in E. destruct E as (m1 & u1 & E1 & E). apply guard_ok in E1. destruct E1 as [_ ->].
  apply bind_ok in E. destruct E as (m2 & u2 & E2 & E). inversion E2; subst m2 u2; clear E2.
  apply bind_ok in E. destruct E as (m2 & u2 & E2 & E). apply guard_ok in E2. destruct E2 as [HL ->].
  apply bind_ok in E. destruct E as (m3 & u3 & E3 & E). inversion E3; subst m3 u3; clear E3.
  set (m1 := with_fixed (dset (v_label v) true (m_fixed m)) m) in *.
  unfold select_by_variable, dataframe in E.
  apply bind_ok in E. destruct E as (m4 & sel & E4 & E).
  apply bind_ok in E4. destruct E4 as (m5 & rows & E5 & E6).
  destruct (df_ok _) in E5; inversion E5; subst m5 rows; clear E5. inversion E6; subst m4 sel; clear E6.
  destruct (Qc_eqb q 0) eqn:EQ.
  - apply (remove_loop (touches (v_label v)) []) in E; simpl; auto.
    simpl in E. exists [], (m_offset m). rewrite app_nil_r. rewrite E. simpl.
    split; [reflexivity|]. split; [reflexivity|]. split; [reflexivity|]. split.
    { unfold names_unique, names; simpl. rewrite names_rm_if. auto. }
    split; [constructor|].
    intros fd R RO. split; auto. split; [constructor|]. intros s. rewrite csum_nil.
    rewrite qsum_map_zero; [simpl; ring|].
    intros r HI. apply filter_In in HI. destruct HI as [_ HT]. apply Qc_eqb_eq in EQ. subst q.
    unfold touches, assign in *. destruct (r_key r); simpl in *.
    + rewrite HT. ring.
    + destruct (String.eqb l0 (v_label v)); [ring|]. simpl in HT. rewrite HT. ring.
  - destruct (fix_loop ev (v_label v) q (m_rows m1) [] [] m1 m' u) as (ex & off & H1 & H2 & H3 & H4 & H5 & H6); auto.
    + rewrite app_nil_r; auto.
    + exists ex, off. simpl in *. repeat split; auto; try congruence.
      * apply H6; auto.
      * apply H6; auto.
      * apply H6; auto.
Qed.

(** The whole-model energy identity. *)
Lemma csum_split_touch fd s l v rows :
  (forall r, In r rows -> touches l r = true -> active r) ->
  csum fd (assign s l v) rows =
  (csum fd s (map (rm_if (touches l)) rows) +
   qsum (map (fun r => value fd (r_coef r) * value fd (r_scale r) * monomial (assign s l v) (r_key r))
             (filter (touches l) rows)))%Qc.
Proof.
  induction rows as [|r rows IH]; intros HA; simpl; [rewrite !csum_nil; ring|].
  simpl in HA. rewrite !csum_cons, IH by auto. unfold rm_if at 2. destruct (touches l r) eqn:ET; simpl.
  - rewrite contribution_rm. unfold contribution. rewrite (HA r) by auto. ring.
  - rewrite contribution_untouched by exact ET. ring.
Qed.

Lemma fix_energy ev v q m m' u fd s :
  fix_variable ev (TVar v) q m = (m', Ok u) -> well_formed m -> resolved fd m ->
  (forall r, In r (m_rows m) -> touches (v_label v) r = true -> active r) ->
  energy fd s m' = energy fd (assign s (v_label v) q) m.
Proof.
  intros E HW [HR1 HR2] HA.
  destruct (fix_ok _ _ _ _ _ _ E HW) as (ex & off & H1 & H2 & H3 & H4 & H5 & H6).
  destruct (H6 fd) as (A & B & C); [|auto|].
  { intros r HI HT. apply HR1; auto. }
  rewrite !energy_csum, H1, H2, csum_app, (csum_split_touch fd s (v_label v) q) by auto.
  transitivity (- csum fd s (map (rm_if (touches (v_label v))) (m_rows m)) + (- csum fd s ex + value fd off))%Qc; [ring|].
  rewrite C. ring.
Qed.
