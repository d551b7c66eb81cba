(** * HeapProofs: the objects of a program behave like the values of LogicalModel.v and Constraint.v. *)
From Verif Require Import PyBase PyLemmas Constraint LogicalModel Spec LogicalProofs ConstraintProofs History ConstrFrame Heap HeapSpec.
Require Import Lia.
Open Scope list_scope.

Lemma put_nth_length {A} i (x : A) l : length (put_nth i x l) = length l.
Proof. revert i; induction l as [|y l IH]; intros [|i]; simpl; auto. Qed.
Lemma put_nth_same {A} i (x : A) l : i < length l -> nth_error (put_nth i x l) i = Some x.
Proof. revert i; induction l as [|y l IH]; intros [|i] H; simpl in *; auto; try lia. apply IH. lia. Qed.
Lemma put_nth_other {A} i j (x : A) l : i <> j -> nth_error (put_nth i x l) j = nth_error l j.
Proof. revert i j; induction l as [|y l IH]; intros [|i] [|j] H; simpl; auto; try lia. Qed.
Lemma put_nth_in {A} i (x : A) l y : In y (put_nth i x l) -> y = x \/ In y l.
Proof.
  revert i; induction l as [|z l IH]; intros [|i] H; simpl in *; auto.
  - destruct H; auto.
  - destruct H; auto. destruct (IH _ H); auto.
Qed.
Lemma nth_put_other {A} i j (x d : A) l : i <> j -> nth j (put_nth i x l) d = nth j l d.
Proof. revert i j; induction l as [|y l IH]; intros [|i] [|j] H; simpl; auto; try lia. Qed.
Lemma nth_put_same {A} i (x d : A) l : i < length l -> nth i (put_nth i x l) d = x.
Proof. revert i; induction l as [|y l IH]; intros [|i] H; simpl in *; auto; try lia. apply IH. lia. Qed.
Lemma nth_error_lt {A} (l : list A) i x : nth_error l i = Some x -> i < length l.
Proof. intros H. apply nth_error_Some. congruence. Qed.

Definition sets_of (o : cobj) : list nat := match o with HNHot s _ _ _ | HZeroOrOne s _ _ => [s] | HEquality s t _ _ => [s; t] end.
Definition link_ok (w : world) (kc : string * nat) : Prop := exists o, nth_error (w_objs w) (snd kc) = Some o /\ o_label o = fst kc.
Record ok (w : world) : Prop := mkOk {
  ok_sets : Forall (fun s : list var => NoDup s) (w_sets w);
  ok_objs : forall o s, In o (w_objs w) -> In s (sets_of o) -> s < length (w_sets w);
  ok_keys : forall h, In h (w_models w) -> NoDup (dkeys (h_constrs h));
  ok_links : forall h kc, In h (w_models w) -> In kc (h_constrs h) -> link_ok w kc }.

Lemma set_at_app w x s : s < length (w_sets w) -> set_at (with_sets (w_sets w ++ x) w) s = set_at w s.
Proof. intros H. unfold set_at. simpl. apply app_nth1, H. Qed.
Lemma set_nodup w s : ok w -> NoDup (set_at w s).
Proof.
  intros H. unfold set_at. destruct (nth_in_or_default s (w_sets w) []) as [HI|HD].
  - exact (proj1 (Forall_forall _ _) (ok_sets _ H) _ HI).
  - rewrite HD. constructor.
Qed.

(** What a call does to the heap of constraints, leaving the models alone. *)
Record grows (w w' : world) : Prop := mkGrows {
  g_models : w_models w' = w_models w;
  g_sets : forall s, s < length (w_sets w) -> set_at w' s = set_at w s;
  g_len : length (w_sets w) <= length (w_sets w') }.
Lemma grows_refl w : grows w w. Proof. split; auto. Qed.
Lemma grows_trans a b c : grows a b -> grows b c -> grows a c.
Proof.
  intros [A1 A2 A3] [B1 B2 B3]. split; [congruence| |lia]. intros s H. rewrite B2 by lia. auto.
Qed.
Lemma value_grows w w' o : (forall s, In s (sets_of o) -> s < length (w_sets w)) -> (forall s, s < length (w_sets w) -> set_at w' s = set_at w s) ->
  value_of w' o = value_of w o.
Proof. intros H G. destruct o; simpl in *; rewrite !G by auto; reflexivity. Qed.

Lemma new_set_ok w vs : ok w -> NoDup vs -> ok (fst (new_set vs w)).
Proof.
  intros [H1 H2 H3 H4] HN. split; simpl; auto.
  - apply Forall_app; auto.
  - intros o s HO HS. rewrite app_length. simpl. specialize (H2 o s HO HS). lia.
Qed.
Lemma new_set_grows w vs : grows w (fst (new_set vs w)).
Proof. split; simpl; auto. - intros s H. unfold set_at. simpl. apply app_nth1, H. - rewrite app_length. lia. Qed.
Lemma new_set_at w vs : set_at (fst (new_set vs w)) (length (w_sets w)) = vs.
Proof. unfold set_at. simpl. rewrite app_nth2, Nat.sub_diag by lia. reflexivity. Qed.

Lemma all_some_map {A} (l : list A) : all_some (map Some l) = Some l.
Proof. induction l as [|x l IH]; simpl; auto. rewrite IH. reflexivity. Qed.
Lemma to_set_app l : forall acc, NoDup (acc ++ l) -> to_set acc l = acc ++ l.
Proof.
  induction l as [|x l IH]; intros acc H; simpl; [symmetry; apply app_nil_r|].
  assert (X : mem x acc = false). { apply mem_nin. intros HI. apply NoDup_remove_2 in H. apply H. apply in_or_app; auto. }
  rewrite X, IH; rewrite <- app_assoc; auto.
Qed.
Lemma to_set_nodup l : forall acc, NoDup acc -> NoDup (to_set acc l).
Proof.
  induction l as [|x l IH]; intros acc H; simpl; auto. destruct (mem x acc) eqn:E; auto. apply IH, NoDup_snoc. split; auto. apply mem_nin, E.
Qed.
Lemma check_nodup a vs : check_variables_and_to_set a = Ok vs -> NoDup vs.
Proof.
  destruct a; simpl; intros E; try discriminate.
  - inversion E; subst. repeat constructor; auto.
  - destruct l; [discriminate|]. destruct (all_some _); inversion E; subst. apply to_set_nodup. constructor.
  - destruct l; [discriminate|]. destruct (all_some _); inversion E; subst. apply to_set_nodup. constructor.
  - inversion E; subst. apply to_set_nodup. constructor.
Qed.
Lemma check_spec a w w' r : ok w -> h_check a w = (w', r) ->
  ok w' /\ grows w w' /\ w_objs w' = w_objs w /\
  match r with
  | Ok s => s < length (w_sets w') /\ check_variables_and_to_set (arg_value w a) = Ok (set_at w' s)
  | Err e => w' = w /\ check_variables_and_to_set (arg_value w a) = Err e
  end.
Proof.
  intros HW E. destruct a as [s|a]; simpl in *.
  - destruct (nth_error (w_sets w) s) as [vs|] eqn:ES; [|inversion E; subst; auto using grows_refl].
    destruct vs as [|v vs]; inversion E; subst; repeat (split; [auto using grows_refl|]).
    + reflexivity.
    + eapply nth_error_lt; eauto.
    + simpl. rewrite all_some_map. simpl.
      assert (N := set_nodup w' s HW). assert (ES' : set_at w' s = v :: vs) by (unfold set_at; apply nth_error_nth, ES).
      rewrite ES' in *. f_equal. change [v] with ([] ++ [v]). rewrite to_set_app; auto.
  - destruct (check_variables_and_to_set a) as [vs|e] eqn:EC; [|inversion E; subst; auto using grows_refl].
    assert (N := check_nodup _ _ EC). unfold new_set in E. inversion E; subst w' r.
    split; [exact (new_set_ok w vs HW N)|]. split; [exact (new_set_grows w vs)|]. split; [reflexivity|]. split.
    + simpl. rewrite app_length. simpl. lia.
    + f_equal. symmetry. apply (new_set_at w vs).
Qed.

(** A call that changes constraint object [c] to the value [k] and no other. *)
Record changes (w : world) (c : nat) (k : constr) (w' : world) : Prop := mkCh {
  ch_models : w_models w' = w_models w;
  ch_len : length (w_objs w') = length (w_objs w);
  ch_labels : forall d, option_map o_label (nth_error (w_objs w') d) = option_map o_label (nth_error (w_objs w) d);
  ch_same : constr_at w' c = k;
  ch_other : forall d, d <> c -> d < length (w_objs w) -> constr_at w' d = constr_at w d;
  ch_handles : forall d, d <> c -> nth_error (w_objs w') d = nth_error (w_objs w) d;
  ch_sets : forall s, s < length (w_sets w) -> set_at w' s = set_at w s;
  ch_slen : length (w_sets w) <= length (w_sets w') }.
Lemma obj_sets w d o : ok w -> nth_error (w_objs w) d = Some o -> forall s, In s (sets_of o) -> s < length (w_sets w).
Proof. intros H E s. apply (ok_objs _ H). eapply nth_error_In; eauto. Qed.
Lemma constr_at_some w d o : nth_error (w_objs w) d = Some o -> constr_at w d = value_of w o.
Proof. intros E. unfold constr_at. erewrite nth_error_nth; eauto. Qed.
Lemma constr_at_grows w w' d : ok w -> grows w w' -> w_objs w' = w_objs w -> d < length (w_objs w) -> constr_at w' d = constr_at w d.
Proof.
  intros HW G E H. destruct (nth_error (w_objs w) d) as [o|] eqn:EO; [|apply nth_error_None in EO; lia].
  assert (EO' : nth_error (w_objs w') d = Some o) by (rewrite E; exact EO).
  rewrite (constr_at_some _ _ _ EO), (constr_at_some _ _ _ EO'). apply value_grows; [eapply obj_sets; eauto|apply G].
Qed.
Lemma no_change w w' c : ok w -> grows w w' -> w_objs w' = w_objs w -> c < length (w_objs w) -> changes w c (constr_at w c) w'.
Proof.
  intros HW G E HC. split; try (rewrite E; auto; fail).
  - apply G.
  - apply constr_at_grows; auto.
  - intros d _ HD. apply constr_at_grows; auto.
  - apply G.
  - apply G.
Qed.
(** Storing a new object with the label of the old one. *)
Lemma set_obj_spec w w1 c o o' : ok w -> ok w1 -> grows w w1 -> w_objs w1 = w_objs w -> nth_error (w_objs w) c = Some o ->
  o_label o' = o_label o -> (forall s, In s (sets_of o') -> s < length (w_sets w1)) ->
  ok (fst (set_obj c o' w1)) /\ changes w c (value_of w1 o') (fst (set_obj c o' w1)).
Proof.
  intros HW H1 G E EO EL HS. assert (HC := nth_error_lt _ _ _ EO). split.
  - split; simpl.
    + apply H1.
    + intros x s HX HI. apply put_nth_in in HX. destruct HX as [->|HX]; auto. eapply (ok_objs _ H1); eauto.
    + apply H1.
    + intros h kc A B. destruct (ok_links _ H1 h kc A B) as (y & Y1 & Y2). unfold link_ok. simpl. destruct (Nat.eq_dec c (snd kc)) as [EQ|NE].
      * rewrite <- EQ in *. rewrite E, EO in Y1. inversion Y1; subst y. exists o'. rewrite put_nth_same by (rewrite E; auto). split; congruence.
      * exists y. rewrite put_nth_other by auto. auto.
  - assert (V : forall d x, nth_error (put_nth c o' (w_objs w1)) d = Some x -> constr_at (fst (set_obj c o' w1)) d = value_of w1 x).
    { intros d x EX. unfold constr_at. cbn [fst set_obj with_objs w_objs]. erewrite nth_error_nth by exact EX. destruct x; reflexivity. }
    split; simpl.
    + apply G.
    + rewrite put_nth_length, E. reflexivity.
    + intros d. destruct (Nat.eq_dec c d) as [->|NE].
      * rewrite put_nth_same by (rewrite E; auto). rewrite EO. simpl. congruence.
      * rewrite put_nth_other by auto. rewrite E. reflexivity.
    + apply V. apply put_nth_same. rewrite E. exact HC.
    + intros d NE HD. destruct (nth_error (w_objs w) d) as [x|] eqn:EX; [|apply nth_error_None in EX; lia].
      etransitivity; [apply (V d x); rewrite put_nth_other, E by auto; exact EX|]. rewrite (constr_at_some _ _ _ EX). apply value_grows; [eapply obj_sets; eauto|apply G].
    + intros d NE. rewrite put_nth_other, E by auto. reflexivity.
    + intros s H. apply (g_sets _ _ G), H.
    + apply G.
Qed.

Lemma union_nodup a b : NoDup a -> NoDup (set_union a b).
Proof. apply to_set_nodup. Qed.
Lemma diff_nodup a b : NoDup a -> NoDup (set_diff a b).
Proof. apply NoDup_filter. Qed.
Ltac lt_solve := repeat match goal with |- context[length (_ ++ _)] => rewrite app_length end; simpl; try lia.

(** The part common to the methods of constraints: check, compute a new set, store. *)
Lemma change_spec w c o a (f : list var -> list var) (mk : nat -> cobj) w1 s t :
  ok w -> nth_error (w_objs w) c = Some o -> h_check a w = (w1, Ok t) ->
  (forall u, o_label (mk u) = o_label o) ->
  (forall u x, In x (sets_of (mk u)) -> x = u \/ In x (sets_of o)) ->
  NoDup (f (set_at w s)) ->
  let w2 := fst (new_set (f (set_at w s)) w1) in
  let w3 := fst (set_obj c (mk (length (w_sets w1))) w2) in
  ok w3 /\ changes w c (value_of w2 (mk (length (w_sets w1)))) w3 /\
  set_at w2 (length (w_sets w1)) = f (set_at w s) /\ (forall x, In x (sets_of o) -> set_at w2 x = set_at w x).
Proof.
  intros HW EO EC HL HS HN. cbv zeta. apply check_spec in EC; auto. destruct EC as (H1 & G1 & O1 & L1 & C1).
  set (w2 := fst (new_set (f (set_at w s)) w1)). assert (H2 : ok w2) by (apply new_set_ok; auto). assert (G2 : grows w w2) by (eapply grows_trans; [exact G1|apply new_set_grows]).
  destruct (set_obj_spec w w2 c o (mk (length (w_sets w1))) HW H2 G2) as [A B]; auto.
  - intros x HX. destruct (HS _ _ HX) as [->|HI].
    + unfold w2; simpl; lt_solve.
    + assert (X := obj_sets _ _ _ HW EO _ HI). assert (Y := g_len _ _ G2). lia.
  - split; [exact A|]. split; [exact B|]. split; [apply new_set_at|]. intros x HX. apply (g_sets _ _ G2). eapply obj_sets; eauto.
Qed.

(** Each method does to the object what Constraint.v says it does to the value. *)
Definition method_spec (h : nat -> varg -> WM unit) (v : varsarg -> M constr unit) : Prop :=
  forall w c a w' r, ok w -> c < length (w_objs w) -> h c a w = (w', r) ->
  ok w' /\ changes w c (fst (v (arg_value w a) (constr_at w c))) w' /\ r = snd (v (arg_value w a) (constr_at w c)).

Lemma add_spec : method_spec h_add_variable c_add_variable.
Proof.
  intros w c a w' r HW HC E. destruct (nth_error (w_objs w) c) as [o|] eqn:EO; [|apply nth_error_None in EO; lia].
  assert (NC := no_change w w c HW (grows_refl w) eq_refl HC). rewrite (constr_at_some _ _ _ EO) in *.
  unfold h_add_variable, bind, get_obj in E. rewrite EO in E. destruct o as [s n l q|s l q|s1 s2 l q]; [| |inversion E; subst; auto].
  all: destruct (h_check a w) as [w1 [t|e]] eqn:EC; destruct (check_spec _ _ _ _ HW EC) as (H1 & G1 & O1 & X1 & X2); simpl value_of; simpl c_add_variable; rewrite X2.
  2,4: inversion E; subst; split; [assumption|]; split; [exact NC|reflexivity].
  all: unfold get, new_set, set_obj in E; inversion E; subst w' r; rewrite (g_sets _ _ G1) by (eapply obj_sets; eauto; simpl; auto).
  - destruct (change_spec w c _ a (fun vs => set_union vs (set_at w1 t)) (fun u => HNHot u n l q) w1 s t HW EO EC) as (A & B & C & D); auto.
    { intros u x [<-|[]]. auto. } { apply union_nodup, set_nodup, HW. }
    split; [exact A|]. split; [|reflexivity]. cbn [value_of] in B. rewrite C in B. exact B.
  - destruct (change_spec w c _ a (fun vs => set_union vs (set_at w1 t)) (fun u => HZeroOrOne u l q) w1 s t HW EO EC) as (A & B & C & D); auto.
    { intros u x [<-|[]]. auto. } { apply union_nodup, set_nodup, HW. }
    split; [exact A|]. split; [|reflexivity]. cbn [value_of] in B. rewrite C in B. exact B.
Qed.
Lemma grown w w1 c a t : ok w -> c < length (w_objs w) -> h_check a w = (w1, Ok t) -> ok w1 /\ changes w c (constr_at w c) w1.
Proof.
  intros HW HC EC. destruct (check_spec _ _ _ _ HW EC) as (H1 & G1 & O1 & X1). split; auto. apply no_change; auto.
Qed.
Lemma remove_spec : method_spec h_remove_variable c_remove_variable.
Proof.
  intros w c a w' r HW HC E. destruct (nth_error (w_objs w) c) as [o|] eqn:EO; [|apply nth_error_None in EO; lia].
  assert (NC := no_change w w c HW (grows_refl w) eq_refl HC). assert (GR := fun w1 t => grown w w1 c a t HW HC). rewrite (constr_at_some _ _ _ EO) in *.
  unfold h_remove_variable, bind, get_obj in E. rewrite EO in E. destruct o as [s n l q|s l q|s1 s2 l q]; [| |inversion E; subst; auto].
  all: destruct (h_check a w) as [w1 [t|e]] eqn:EC; destruct (check_spec _ _ _ _ HW EC) as (H1 & G1 & O1 & X1 & X2); simpl value_of; simpl c_remove_variable; rewrite X2.
  2,4: inversion E; subst; split; [assumption|]; split; [exact NC|reflexivity].
  all: unfold get, new_set, set_obj in E; rewrite (g_sets _ _ G1) in E by (eapply obj_sets; eauto; simpl; auto);
    destruct (forallb _ _); cbn [guard ret raise] in E; unfold ret, raise in E; inversion E; subst w' r;
    [|destruct (GR _ _ eq_refl) as [A B]; split; [exact A|]; split; [exact B|reflexivity]].
  - destruct (change_spec w c _ a (fun vs => set_diff vs (set_at w1 t)) (fun u => HNHot u n l q) w1 s t HW EO EC) as (A & B & C & D); auto.
    { intros u x [<-|[]]. auto. } { apply diff_nodup, set_nodup, HW. }
    split; [exact A|]. split; [|reflexivity]. cbn [value_of] in B. rewrite C in B. exact B.
  - destruct (change_spec w c _ a (fun vs => set_diff vs (set_at w1 t)) (fun u => HZeroOrOne u l q) w1 s t HW EO EC) as (A & B & C & D); auto.
    { intros u x [<-|[]]. auto. } { apply diff_nodup, set_nodup, HW. }
    split; [exact A|]. split; [|reflexivity]. cbn [value_of] in B. rewrite C in B. exact B.
Qed.
Lemma eq_add_spec b : method_spec (h_eq_add b) (c_eq_add b).
Proof.
  intros w c a w' r HW HC E. destruct (nth_error (w_objs w) c) as [o|] eqn:EO; [|apply nth_error_None in EO; lia].
  assert (NC := no_change w w c HW (grows_refl w) eq_refl HC). rewrite (constr_at_some _ _ _ EO) in *.
  unfold h_eq_add, bind, get_obj in E. rewrite EO in E. destruct o as [s n l q|s l q|s1 s2 l q]; [inversion E; subst; auto|inversion E; subst; auto|].
  destruct (h_check a w) as [w1 [t|e]] eqn:EC; destruct (check_spec _ _ _ _ HW EC) as (H1 & G1 & O1 & X1 & X2); simpl value_of; simpl c_eq_add; rewrite X2.
  2: inversion E; subst; split; [assumption|]; split; [exact NC|reflexivity].
  unfold get, new_set, set_obj in E. inversion E; subst w' r. destruct b.
  - rewrite (g_sets _ _ G1) by (eapply obj_sets; eauto; simpl; auto).
    destruct (change_spec w c _ a (fun vs => set_union vs (set_at w1 t)) (fun u => HEquality u s2 l q) w1 s1 t HW EO EC) as (A & B & C & D); auto.
    { intros u x [<-|[<-|[]]]; simpl; auto. } { apply union_nodup, set_nodup, HW. }
    split; [exact A|]. split; [|reflexivity]. cbn [value_of] in B. rewrite C, (D s2) in B by (simpl; auto). exact B.
  - rewrite (g_sets _ _ G1) by (eapply obj_sets; eauto; simpl; auto).
    destruct (change_spec w c _ a (fun vs => set_union vs (set_at w1 t)) (fun u => HEquality s1 u l q) w1 s2 t HW EO EC) as (A & B & C & D); auto.
    { intros u x [<-|[<-|[]]]; simpl; auto. } { apply union_nodup, set_nodup, HW. }
    split; [exact A|]. split; [|reflexivity]. cbn [value_of] in B. rewrite C, (D s1) in B by (simpl; auto). exact B.
Qed.
Lemma eq_remove_spec b : method_spec (h_eq_remove b) (c_eq_remove b).
Proof.
  intros w c a w' r HW HC E. destruct (nth_error (w_objs w) c) as [o|] eqn:EO; [|apply nth_error_None in EO; lia].
  assert (NC := no_change w w c HW (grows_refl w) eq_refl HC). assert (GR := fun w1 t => grown w w1 c a t HW HC). rewrite (constr_at_some _ _ _ EO) in *.
  unfold h_eq_remove, bind, get_obj in E. rewrite EO in E. destruct o as [s n l q|s l q|s1 s2 l q]; [inversion E; subst; auto|inversion E; subst; auto|].
  destruct (h_check a w) as [w1 [t|e]] eqn:EC; destruct (check_spec _ _ _ _ HW EC) as (H1 & G1 & O1 & X1 & X2); simpl value_of; simpl c_eq_remove; rewrite X2.
  2: inversion E; subst; split; [assumption|]; split; [exact NC|reflexivity].
  unfold get, new_set, set_obj in E. destruct b.
  - rewrite (g_sets _ _ G1) in E by (eapply obj_sets; eauto; simpl; auto).
    destruct (forallb _ _); cbn [guard ret raise] in E; unfold ret, raise in E; inversion E; subst w' r; [|destruct (GR _ _ eq_refl) as [A B]; split; [exact A|]; split; [exact B|reflexivity]].
    destruct (change_spec w c _ a (fun vs => set_diff vs (set_at w1 t)) (fun u => HEquality u s2 l q) w1 s1 t HW EO EC) as (A & B & C & D); auto.
    { intros u x [<-|[<-|[]]]; simpl; auto. } { apply diff_nodup, set_nodup, HW. }
    split; [exact A|]. split; [|reflexivity]. cbn [value_of] in B. rewrite C, (D s2) in B by (simpl; auto). exact B.
  - rewrite (g_sets _ _ G1) in E by (eapply obj_sets; eauto; simpl; auto).
    destruct (forallb _ _); cbn [guard ret raise] in E; unfold ret, raise in E; inversion E; subst w' r; [|destruct (GR _ _ eq_refl) as [A B]; split; [exact A|]; split; [exact B|reflexivity]].
    destruct (change_spec w c _ a (fun vs => set_diff vs (set_at w1 t)) (fun u => HEquality s1 u l q) w1 s2 t HW EO EC) as (A & B & C & D); auto.
    { intros u x [<-|[<-|[]]]; simpl; auto. } { apply diff_nodup, set_nodup, HW. }
    split; [exact A|]. split; [|reflexivity]. cbn [value_of] in B. rewrite C, (D s1) in B by (simpl; auto). exact B.
Qed.

(** ** Models *)
Lemma with_constrs_twice a b m : with_constrs a (with_constrs b m) = with_constrs a m.
Proof. destruct m; reflexivity. Qed.
Lemma with_constrs_self m : with_constrs (m_constrs m) m = m.
Proof. destruct m; reflexivity. Qed.
Lemma content_keys w h : dkeys (m_constrs (content w h)) = dkeys (h_constrs h).
Proof. unfold content, dkeys. simpl. rewrite map_map. reflexivity. Qed.
Lemma content_get w h l : dget l (m_constrs (content w h)) = option_map (constr_at w) (dget l (h_constrs h)).
Proof.
  unfold content. simpl. induction (h_constrs h) as [|[k c] d IH]; simpl; auto. destruct (String.eqb l k); auto.
Qed.
Lemma map_dset (f : nat -> constr) k c (d : dict string nat) :
  map (fun kc => (fst kc, f (snd kc))) (dset k c d) = dset k (f c) (map (fun kc => (fst kc, f (snd kc))) d).
Proof. induction d as [|[a b] d IH]; simpl; auto. destruct (String.eqb k a); simpl; [reflexivity|]. rewrite IH. reflexivity. Qed.
Lemma map_ddel (f : nat -> constr) k (d : dict string nat) :
  map (fun kc => (fst kc, f (snd kc))) (ddel k d) = ddel k (map (fun kc => (fst kc, f (snd kc))) d).
Proof. induction d as [|[a b] d IH]; simpl; auto. destruct (String.eqb k a); simpl; [reflexivity|]. rewrite IH. reflexivity. Qed.
Lemma map_dupdate (f : nat -> constr) (b : dict string nat) : forall a,
  map (fun kc => (fst kc, f (snd kc))) (dupdate a b) = dupdate (map (fun kc => (fst kc, f (snd kc))) a) (map (fun kc => (fst kc, f (snd kc))) b).
Proof. induction b as [|[k c] b IH]; intros a; simpl; auto. unfold dupdate in *. simpl. rewrite IH, map_dset. reflexivity. Qed.

(** Two links to one object have the same key. *)
Lemma link_label w h k c : ok w -> In h (w_models w) -> In (k, c) (h_constrs h) -> exists o, nth_error (w_objs w) c = Some o /\ o_label o = k.
Proof. intros H HI HL. exact (ok_links _ H _ _ HI HL). Qed.
Lemma value_label w o : c_label (value_of w o) = o_label o.
Proof. destruct o; reflexivity. Qed.
Lemma content_unheld w w' h c : ok w -> In h (w_models w) -> (forall d, d <> c -> d < length (w_objs w) -> constr_at w' d = constr_at w d) ->
  (forall k, ~ In (k, c) (h_constrs h)) -> content w' h = content w h.
Proof.
  intros HW HI HO HN. unfold content. f_equal. apply map_ext_in. intros [k d] HL. simpl. f_equal. apply HO.
  - intros ->. exact (HN _ HL).
  - destruct (link_label _ _ _ _ HW HI HL) as (o & EO & _). eapply nth_error_lt; eauto.
Qed.
Lemma content_held w w' h c k v : ok w -> In h (w_models w) -> In (k, c) (h_constrs h) -> changes w c v w' ->
  content w' h = with_constrs (dset k v (m_constrs (content w h))) (content w h).
Proof.
  intros HW HI HL CH. unfold content. rewrite with_constrs_twice. cbn [m_constrs with_constrs]. f_equal.
  assert (HK := ok_keys _ HW _ HI).
  assert (HX : forall kc, In kc (h_constrs h) -> snd kc < length (w_objs w) /\ (snd kc = c -> fst kc = k)).
  { intros [a b] HB. destruct (link_label _ _ _ _ HW HI HB) as (o & EO & EL). destruct (link_label _ _ _ _ HW HI HL) as (o' & EO' & EL'). simpl. split.
    - eapply nth_error_lt; eauto. - intros ->. congruence. }
  clear HI. revert HL HK HX. generalize (h_constrs h). intros d. induction d as [|[a b] d IH]; intros HL HK HX; [destruct HL|].
  inversion HK as [|? ? N1 N2]; subst. cbn [map fst snd dset]. change (eqb k a) with (String.eqb k a). destruct HL as [HL|HL].
  - inversion HL; subst. rewrite String.eqb_refl. f_equal; [rewrite (ch_same _ _ _ _ CH); reflexivity|].
    apply map_ext_in. intros [a' b'] HB. simpl. f_equal. destruct (HX (a', b')) as [X1 X2]; [right; exact HB|]. simpl in *. apply (ch_other _ _ _ _ CH); auto.
    intros ->. apply N1. rewrite <- (X2 eq_refl). apply (in_map fst) in HB. exact HB.
  - destruct (String.eqb k a) eqn:EA. { apply String.eqb_eq in EA. subst a. exfalso. apply N1. apply (in_map fst) in HL. exact HL. }
    f_equal.
    + f_equal. destruct (HX (a, b)) as [X1 X2]; [left; reflexivity|]. simpl in *. apply (ch_other _ _ _ _ CH); auto. intros ->.
      rewrite (X2 eq_refl), String.eqb_refl in EA. discriminate.
    + apply IH; auto. intros kc H. apply HX. right; exact H.
Qed.

(** Which constraint objects a call may change. *)
Record only (w w' : world) (P : nat -> Prop) : Prop := mkOnly {
  on_len : length (w_objs w) <= length (w_objs w');
  on_labels : forall d o, nth_error (w_objs w) d = Some o -> exists o', nth_error (w_objs w') d = Some o' /\ o_label o' = o_label o;
  on_same : forall d, d < length (w_objs w) -> ~ P d -> nth_error (w_objs w') d = nth_error (w_objs w) d /\ constr_at w' d = constr_at w d;
  on_sets : forall s, s < length (w_sets w) -> set_at w' s = set_at w s;
  on_slen : length (w_sets w) <= length (w_sets w') }.
Lemma only_refl w P : only w w P.
Proof. split; eauto. Qed.
Lemma only_trans w w1 w2 P : only w w1 P -> only w1 w2 P -> only w w2 P.
Proof.
  intros [A1 A2 A3 A4 A5] [B1 B2 B3 B4 B5]. split; try lia.
  - intros d o E. destruct (A2 d o E) as (x & X1 & X2). destruct (B2 d x X1) as (y & Y1 & Y2). exists y. split; congruence.
  - intros d HD HP. destruct (A3 d HD HP) as [X1 X2]. destruct (B3 d) as [Y1 Y2]; auto; [lia|]. split; congruence.
  - intros s HS. rewrite B4 by lia. auto.
Qed.
Lemma only_models w P ms : only w (with_models ms w) P.
Proof. split; simpl; auto. eauto. Qed.
Lemma only_weak w w' (P Q : nat -> Prop) : (forall d, P d -> Q d) -> only w w' P -> only w w' Q.
Proof. intros HPQ [A1 A2 A3 A4 A5]. split; auto. Qed.
Lemma changes_only w c k w' : changes w c k w' -> only w w' (fun d => d = c).
Proof.
  intros C. split.
  - rewrite (ch_len _ _ _ _ C). lia.
  - intros d o E. assert (X := ch_labels _ _ _ _ C d). rewrite E in X. destruct (nth_error (w_objs w') d); inversion X; eauto.
  - intros d HD HN. split; [apply (ch_handles _ _ _ _ C); auto|apply (ch_other _ _ _ _ C); auto].
  - apply C.
  - apply C.
Qed.

(** Storing model [i]. *)
Lemma set_model_ok w i h : ok w -> NoDup (dkeys (h_constrs h)) -> (forall kc, In kc (h_constrs h) -> link_ok w kc) -> ok (fst (set_model i h w)).
Proof.
  intros [H1 H2 H3 H4] HN HL. split; simpl; auto.
  - intros g HG. apply put_nth_in in HG. destruct HG as [->|HG]; auto.
  - intros g kc HG HK. apply put_nth_in in HG. destruct HG as [->|HG]; [apply HL, HK|]. apply (H4 g kc HG HK).
Qed.
Lemma on_model_spec w i h f : ok w -> nth_error (w_models w) i = Some h -> frame_c (m_constrs (content w h)) f ->
  exists h', on_model i f w = (with_models (put_nth i h' (w_models w)) w, snd (f (content w h))) /\ h_constrs h' = h_constrs h /\
    content w h' = fst (f (content w h)) /\ ok (with_models (put_nth i h' (w_models w)) w).
Proof.
  intros HW EH HF. unfold on_model, bind, get_model, get. rewrite EH. destruct (f (content w h)) as [m r] eqn:EF.
  assert (HC := HF _ _ _ EF eq_refl). unfold has_d in HC. exists (mkH (with_constrs [] m) (h_constrs h)). split; [reflexivity|]. split; [reflexivity|].
  assert (HI := nth_error_In _ _ EH). split.
  - unfold content. cbn [h_core h_constrs]. rewrite with_constrs_twice. change (map _ (h_constrs h)) with (m_constrs (content w h)). rewrite <- HC. apply with_constrs_self.
  - apply (set_model_ok w i); auto; simpl; [apply (ok_keys _ HW _ HI)|]. intros kc HK. apply (ok_links _ HW _ _ HI HK).
Qed.

(** remove_variable on the constraint objects of a model, one after the other. *)
Lemma del_objs v h links : forall w w' r, ok w -> In h (w_models w) -> incl links (h_constrs h) ->
  mfor links (fun kc => h_remove_variable (snd kc) (ByVal (VA_one v))) w = (w', r) ->
  ok w' /\ w_models w' = w_models w /\ only w w' (fun d => exists k, In (k, d) links) /\
  mfor (map fst links) (fun k => constr_remove k v) (content w h) = (content w' h, r).
Proof.
  induction links as [|[k c] links IH]; intros w w' r HW HI HL E.
  - inversion E; subst. split; [auto|]. split; [auto|]. split; [apply only_refl|reflexivity].
  - assert (HK : In (k, c) (h_constrs h)) by (apply HL; left; reflexivity).
    destruct (link_label _ _ _ _ HW HI HK) as (o & EO & EL). assert (HC := nth_error_lt _ _ _ EO).
    cbn [mfor map fst snd] in *. unfold bind in E |- *. destruct (h_remove_variable c (ByVal (VA_one v)) w) as [w1 r1] eqn:E1.
    destruct (remove_spec _ _ _ _ _ HW HC E1) as (H1 & CH & ER). cbn [arg_value] in *.
    assert (EC := content_held _ _ _ _ _ _ HW HI HK CH). assert (M1 := ch_models _ _ _ _ CH).
    assert (ECR : constr_remove k v (content w h) = (content w1 h, r1)).
    { unfold constr_remove. rewrite content_get, (in_dget k c (h_constrs h)) by (auto; apply (ok_keys _ HW _ HI)). cbn [option_map].
      destruct (c_remove_variable (VA_one v) (constr_at w c)) as [c' r'] eqn:EV. cbn [fst snd] in *. rewrite EC. subst r1. reflexivity. }
    rewrite ECR. assert (ON := only_weak _ _ _ (fun d => exists k0, In (k0, d) ((k, c) :: links)) (fun d (X : d = c) => ex_intro _ k (or_introl (f_equal2 pair eq_refl (eq_sym X)))) (changes_only _ _ _ _ CH)).
    destruct r1 as [u|e]; [|inversion E; subst; auto].
    destruct (IH w1 w' r) as (A & B & C & D); auto. { rewrite M1. exact HI. } { intros x HX. apply HL. right; exact HX. }
    split; [exact A|]. split; [congruence|]. split; [|exact D]. eapply only_trans; [exact ON|]. eapply only_weak; [|exact C]. intros d [k0 H0]. exists k0. right; exact H0.
Qed.

(** A method of model [i] does to its content what LogicalModel.v says. *)
Definition holds_any (w : world) (i c : nat) : Prop := exists h k, nth_error (w_models w) i = Some h /\ In (k, c) (h_constrs h).
Definition own_spec (w : world) (i : nat) (x : WM unit) (f : LM unit) (P : nat -> Prop) : Prop :=
  forall h w' r, nth_error (w_models w) i = Some h -> x w = (w', r) ->
  ok w' /\ only w w' P /\ (forall j, j <> i -> nth_error (w_models w') j = nth_error (w_models w) j) /\
  exists h', nth_error (w_models w') i = Some h' /\ f (content w h) = (content w' h', r).
Lemma content_models w ms h : content (with_models ms w) h = content w h.
Proof. reflexivity. Qed.
Lemma on_own w i f P : ok w -> (forall h, nth_error (w_models w) i = Some h -> frame_c (m_constrs (content w h)) f) -> own_spec w i (on_model i f) f P.
Proof.
  intros HW HF h w' r EH E. destruct (on_model_spec w i h f HW EH (HF h EH)) as (h' & E' & HC & HV & HO). rewrite E' in E. inversion E; subst w' r.
  split; [exact HO|]. split; [apply only_models|]. split; [intros j NE; simpl; apply put_nth_other; auto|].
  exists h'. split; [simpl; apply put_nth_same; eapply nth_error_lt; eauto|]. rewrite content_models, HV. destruct (f (content w h)); reflexivity.
Qed.
Lemma frame_select D l : frame_c D (sel <- select_by_variable l ;; mfor sel (fun n => remove_interaction TNone (NStr n))).
Proof. apply fc_bind; [apply fc_select|]. intros sel. apply fc_mfor. intros n. apply fc_remove. Qed.
Lemma delete_own w i t : ok w -> own_spec w i (h_delete i t) (delete_variable t) (holds_any w i).
Proof.
  intros HW h w' r EH E. assert (HL := nth_error_lt _ _ _ EH). assert (HI := nth_error_In _ _ EH).
  unfold h_delete, delete_variable in *. unfold bind at 1, get_model in E. rewrite EH in E. destruct (t_truthy t) eqn:ET; cbn [guard] in *.
  2: { inversion E; subst. split; [auto|]. split; [apply only_refl|]. split; [auto|]. exists h. split; auto. }
  unfold bind at 1, ret at 1 in E. unfold bind at 1, ret at 1. destruct t as [|v|l|]; try (inversion E; subst; split; [auto|]; split; [apply only_refl|]; split; [auto|]; exists h; split; auto; fail).
  set (f1 := modify (fun m => with_deleted (dset (v_label v) true (m_deleted m)) m)) in *.
  assert (HF1 : frame_c (m_constrs (content w h)) f1) by (apply fc_modify; auto).
  destruct (on_model_spec w i h f1 HW EH HF1) as (h1 & E1 & HC1 & HV1 & HO1). unfold bind at 1 in E. rewrite E1 in E.
  set (w1 := with_models (put_nth i h1 (w_models w)) w) in *. assert (EH1 : nth_error (w_models w1) i = Some h1) by (simpl; apply put_nth_same; auto).
  assert (HI1 := nth_error_In _ _ EH1). cbn [snd f1 modify] in E. unfold bind at 1 in E.
  unfold bind at 1. destruct (f1 (content w h)) as [m1 r1] eqn:EF1. assert (r1 = Ok tt) by (unfold f1, modify in EF1; inversion EF1; reflexivity). subst r1. cbn [fst] in HV1. subst m1.
  unfold bind at 1, get. cbn [snd] in E. unfold f1, modify in E. cbn [snd] in E.
  destruct (mfor (h_constrs h) _ w1) as [w2 r2] eqn:E2.
  destruct (del_objs v h1 (h_constrs h) w1 w2 r2 HO1 HI1) as (A & B & C & D); [rewrite HC1; apply incl_refl|exact E2|].
  assert (KK : dkeys (m_constrs (content w h1)) = map fst (h_constrs h)) by (rewrite content_keys, HC1; reflexivity).
  rewrite KK. change (content w1 h1) with (content w h1) in D. unfold bind at 1. rewrite D.
  assert (ON : only w w2 (holds_any w i)).
  { eapply only_trans; [apply (only_models w _ (put_nth i h1 (w_models w)))|]. eapply only_weak; [|exact C]. intros d [k Hk]. exists h, k. auto. }
  assert (EH2 : nth_error (w_models w2) i = Some h1) by (rewrite B; exact EH1).
  assert (OT : forall j, j <> i -> nth_error (w_models w2) j = nth_error (w_models w) j) by (intros j NE; rewrite B; simpl; apply put_nth_other; auto).
  destruct r2 as [u|e].
  - destruct (on_own w2 i _ (holds_any w i) A (fun h0 _ => frame_select _ _) h1 w' r EH2 E) as (X1 & X2 & X3 & h' & X4 & X5).
    split; [exact X1|]. split; [eapply only_trans; eauto|]. split; [intros j NE; rewrite X3; auto|]. exists h'. split; [exact X4|exact X5].
  - inversion E; subst. split; [exact A|]. split; [exact ON|]. split; [exact OT|]. exists h1. split; auto.
Qed.
Lemma remove_constraint_own w i l P : ok w -> own_spec w i (h_remove_constraint i l) (remove_constraint l) P.
Proof.
  intros HW h w' r EH E. assert (HL := nth_error_lt _ _ _ EH). assert (HI := nth_error_In _ _ EH).
  unfold h_remove_constraint, bind, get_model in E. rewrite EH in E.
  assert (ST : w' = w -> ok w' /\ only w w' P /\ (forall j, j <> i -> nth_error (w_models w') j = nth_error (w_models w) j) /\ nth_error (w_models w') i = Some h).
  { intros ->. split; [auto|]. split; [apply only_refl|]. auto. }
  destruct l as [l|]; [|inversion E; subst; destruct (ST eq_refl) as (A & B & C & D); repeat (split; auto); exists h; auto].
  unfold remove_constraint. assert (DM : dmem l (m_constrs (content w h)) = dmem l (h_constrs h)).
  { unfold dmem. rewrite content_get. destruct (dget l (h_constrs h)); reflexivity. }
  rewrite DM. destruct (dmem l (h_constrs h)); [|inversion E; subst; destruct (ST eq_refl) as (A & B & C & D); repeat (split; auto); exists h; auto].
  unfold set_model in E. inversion E; subst w' r. set (h' := mkH (h_core h) (ddel l (h_constrs h))).
  assert (SUB : forall kc, In kc (ddel l (h_constrs h)) -> In kc (h_constrs h)).
  { intros kc. generalize (h_constrs h). intros d. induction d as [|[a b] d IH]; simpl; auto. destruct (String.eqb l a); simpl; intuition. }
  split.
  { apply (set_model_ok w i h' HW).
    - simpl. assert (N := ok_keys _ HW _ HI). revert N. generalize (h_constrs h). clear. intros d. induction d as [|[a b] d IH]; simpl; auto. intros N. inversion N as [|? ? N1 N2]; subst.
      destruct (String.eqb l a); simpl; auto. constructor; auto. intros HX. apply N1. clear - HX. induction d as [|[x y] d IH]; simpl in *; auto. destruct (String.eqb l x); simpl in *; intuition.
    - intros kc HK. apply (ok_links _ HW _ _ HI), SUB, HK. }
  split; [apply only_models|]. split; [intros j NE; simpl; apply put_nth_other; auto|].
  exists h'. split; [simpl; apply put_nth_same; auto|]. f_equal. change (with_constrs (ddel l (m_constrs (content w h))) (content w h) = content w h').
  unfold content at 2. unfold content at 2. unfold content at 1. rewrite with_constrs_twice. cbn [m_constrs with_constrs h_core h_constrs h']. rewrite map_ddel. reflexivity.
Qed.
(** add_constraint of an object of the program. *)
Lemma add_constraint_own w i c P : ok w -> c < length (w_objs w) -> own_spec w i (h_add_constraint i (Some c)) (add_constraint (Some (constr_at w c))) P.
Proof.
  intros HW HC h w' r EH E. assert (HL := nth_error_lt _ _ _ EH). assert (HI := nth_error_In _ _ EH).
  destruct (nth_error (w_objs w) c) as [o|] eqn:EO; [|apply nth_error_None in EO; lia].
  unfold h_add_constraint, bind, get_model, get_obj in E. rewrite EH, EO in E. unfold set_model in E. inversion E; subst w' r.
  set (h' := mkH (h_core h) (dset (o_label o) c (h_constrs h))). split.
  { apply (set_model_ok w i h' HW).
    - simpl. apply dset_nodup, (ok_keys _ HW _ HI).
    - intros [k d] HK. simpl in HK. apply dset_in in HK. destruct HK as [[-> ->]|HK]; [exists o; auto|]. apply (ok_links _ HW _ _ HI HK). }
  split; [apply only_models|]. split; [intros j NE; simpl; apply put_nth_other; auto|].
  exists h'. split; [simpl; apply put_nth_same; auto|]. rewrite (constr_at_some _ _ _ EO). unfold add_constraint, modify. rewrite value_label. f_equal.
  change (with_constrs (dset (o_label o) (value_of w o) (m_constrs (content w h))) (content w h) = content w h').
  unfold content at 2. unfold content at 1. rewrite with_constrs_twice. unfold content. cbn [m_constrs with_constrs h_core h_constrs h']. rewrite map_dset, (constr_at_some _ _ _ EO). reflexivity.
Qed.

(** A constraint written down in the program: its lists as sets. *)
Definition as_sets (c : constr) : constr :=
  match c with
  | NHot vs n l q => NHot (to_set [] vs) n l q
  | ZeroOrOne vs l q => ZeroOrOne (to_set [] vs) l q
  | Equality a b l q => Equality (to_set [] a) (to_set [] b) l q
  end.
Definition op_sets (o : op) : op := match o with OAddConstraint (Some c) => OAddConstraint (Some (as_sets c)) | _ => o end.
Lemma new_obj_spec w w1 o : ok w -> ok w1 -> grows w w1 -> w_objs w1 = w_objs w -> (forall s, In s (sets_of o) -> s < length (w_sets w1)) ->
  ok (fst (new_obj o w1)) /\ only w (fst (new_obj o w1)) (fun _ => False) /\ w_models (fst (new_obj o w1)) = w_models w /\
  length (w_objs w) < length (w_objs (fst (new_obj o w1))) /\ constr_at (fst (new_obj o w1)) (length (w_objs w)) = value_of w1 o /\
  nth_error (w_objs (fst (new_obj o w1))) (length (w_objs w)) = Some o.
Proof.
  intros HW H1 G E HS. split; [|split; [|split; [|split; [|split]]]].
  - split; simpl.
    + apply H1.
    + intros x s HX HI. apply in_app_or in HX. destruct HX as [HX|[<-|[]]]; auto. eapply (ok_objs _ H1); eauto.
    + apply H1.
    + intros h kc A B. destruct (ok_links _ H1 h kc A B) as (y & Y1 & Y2). exists y. simpl. rewrite nth_error_app1 by (eapply nth_error_lt; eauto). auto.
  - split; simpl; try rewrite E.
    + rewrite app_length. lia.
    + intros d x EX. exists x. rewrite nth_error_app1 by (eapply nth_error_lt; eauto). auto.
    + intros d HD _. destruct (nth_error (w_objs w) d) as [x|] eqn:EX; [|apply nth_error_None in EX; lia]. split; [rewrite nth_error_app1 by lia; auto|].
      etransitivity; [apply constr_at_some with (o := x); simpl; rewrite nth_error_app1 by lia; auto|]. rewrite (constr_at_some _ _ _ EX).
      etransitivity; [|apply (value_grows w w1); [eapply obj_sets; eauto|apply G]]. destruct x; reflexivity.
    + intros s HS'. apply (g_sets _ _ G), HS'.
    + apply G.
  - simpl. apply G.
  - simpl. rewrite E, app_length. simpl. lia.
  - etransitivity; [apply constr_at_some with (o := o); simpl; rewrite E, nth_error_app2, Nat.sub_diag by lia; reflexivity|]. destruct o; reflexivity.
  - simpl. rewrite E, nth_error_app2, Nat.sub_diag by lia. reflexivity.
Qed.
Lemma fresh_spec w c : ok w -> exists w', h_fresh c w = (w', Ok (length (w_objs w))) /\ ok w' /\ only w w' (fun _ => False) /\ w_models w' = w_models w /\
  length (w_objs w) < length (w_objs w') /\ constr_at w' (length (w_objs w)) = as_sets c.
Proof.
  intros HW. assert (NS : forall vs, NoDup (to_set [] vs)) by (intros; apply to_set_nodup; constructor).
  destruct c as [vs n l q|vs l q|a b l q]; unfold h_fresh, bind.
  - set (w1 := fst (new_set (to_set [] vs) w)). exists (fst (new_obj (HNHot (length (w_sets w)) n l q) w1)).
    destruct (new_obj_spec w w1 (HNHot (length (w_sets w)) n l q) HW (new_set_ok _ _ HW (NS vs)) (new_set_grows _ _) eq_refl) as (A & B & C & D & F & _).
    { intros s [<-|[]]. simpl. lt_solve. }
    split; [reflexivity|]. split; [exact A|]. split; [exact B|]. split; [exact C|]. split; [exact D|]. rewrite F. simpl. unfold w1. f_equal. apply new_set_at.
  - set (w1 := fst (new_set (to_set [] vs) w)). exists (fst (new_obj (HZeroOrOne (length (w_sets w)) l q) w1)).
    destruct (new_obj_spec w w1 (HZeroOrOne (length (w_sets w)) l q) HW (new_set_ok _ _ HW (NS vs)) (new_set_grows _ _) eq_refl) as (A & B & C & D & F & _).
    { intros s [<-|[]]. simpl. lt_solve. }
    split; [reflexivity|]. split; [exact A|]. split; [exact B|]. split; [exact C|]. split; [exact D|]. rewrite F. simpl. unfold w1. f_equal. apply new_set_at.
  - set (w1 := fst (new_set (to_set [] a) w)). set (w2 := fst (new_set (to_set [] b) w1)). assert (H1 : ok w1) by (apply new_set_ok; auto).
    assert (G2 : grows w w2) by (eapply grows_trans; apply new_set_grows).
    exists (fst (new_obj (HEquality (length (w_sets w)) (length (w_sets w1)) l q) w2)).
    destruct (new_obj_spec w w2 (HEquality (length (w_sets w)) (length (w_sets w1)) l q) HW (new_set_ok _ _ H1 (NS b)) G2 eq_refl) as (A & B & C & D & F & _).
    { intros s [<-|[<-|[]]]; simpl; lt_solve. }
    split; [reflexivity|]. split; [exact A|]. split; [exact B|]. split; [exact C|]. split; [exact D|]. rewrite F. simpl. f_equal; [|apply new_set_at].
    etransitivity; [apply (g_sets _ _ (new_set_grows w1 (to_set [] b))); simpl; lt_solve|]. apply new_set_at.
Qed.
Lemma op_own w i ev evs o : ok w -> own_spec w i (h_op ev evs i o) (do_op ev evs (op_sets o)) (fun d => holds_any w i d /\ plain o = false).
Proof.
  intros HW. assert (PL : plain o = true -> own_spec w i (on_model i (do_op ev evs o)) (do_op ev evs o) (fun d => holds_any w i d /\ plain o = false)).
  { intros HP. apply on_own; auto. intros h _ m m' r E HD. unfold has_d in *. rewrite <- HD. change m' with (fst (m', r)). rewrite <- E. apply fc_do, HP. }
  destruct o; try (apply PL; reflexivity); cbn [h_op op_sets].
  - intros h w' r EH E. destruct (delete_own w i t HW h w' r EH E) as (A & B & C). split; [exact A|]. split; [|exact C]. eapply only_weak; [|exact B]. simpl; auto.
  - destruct c as [c|].
    + intros h w' r EH E. unfold bind at 1, get_model in E. rewrite EH in E. unfold bind at 1 in E. destruct (fresh_spec w c HW) as (w1 & F1 & F2 & F3 & F4 & F5 & F6). rewrite F1 in E.
      rewrite <- F4 in EH. destruct (add_constraint_own w1 i _ (fun d => holds_any w i d /\ plain (OAddConstraint (Some c)) = false) F2 F5 h w' r EH E) as (A & B & C & D). split; [exact A|].
      split; [eapply only_trans; [|exact B]; eapply only_weak; [|exact F3]; intros ? []|].
      split; [intros j NE; rewrite C by auto; rewrite F4; reflexivity|]. destruct D as (h' & D1 & D2). exists h'. split; auto.
      cbn [do_op]. rewrite <- F6. rewrite <- D2. f_equal. unfold content. f_equal. symmetry. apply map_ext_in. intros [k d] HK. simpl. f_equal. apply F3; auto.
      assert (HI := nth_error_In _ _ EH). rewrite F4 in HI. destruct (link_label _ _ _ _ HW HI HK) as (x & X & _). eapply nth_error_lt; eauto.
    + intros h w' r EH E. unfold h_add_constraint, bind, get_model in E. rewrite EH in E. inversion E; subst. split; [auto|]. split; [apply only_refl|]. split; auto. exists h. split; auto.
  - apply remove_constraint_own, HW.
Qed.

(** ** merge *)
Lemma dupdate_in {V} (b : dict string V) : forall a kc, In kc (dupdate a b) -> In kc a \/ In kc b.
Proof.
  induction b as [|[k v] b IH]; intros a kc H; [left; exact H|]. change (dupdate a ((k, v) :: b)) with (dupdate (dset k v a) b) in H.
  apply IH in H. destruct H as [H|H]; [|right; right; exact H]. destruct kc as [k' v']. apply dset_in in H. destruct H as [[-> ->]|H]; [right; left; reflexivity|left; exact H].
Qed.
Lemma dupdate_keys {V} (b : dict string V) : forall a, NoDup (dkeys a) -> NoDup (dkeys (dupdate a b)).
Proof. induction b as [|[k v] b IH]; intros a N; unfold dupdate in *; simpl; auto. apply IH. apply dset_nodup; auto. Qed.
Definition merged (r : res unit) (a b : dict string nat) : dict string nat := match r with Ok _ => dupdate a b | Err _ => a end.
Lemma merged_in r a b kc : In kc (merged r a b) -> In kc a \/ In kc b.
Proof. destruct r; simpl; auto. apply dupdate_in. Qed.
Lemma content_merged w h g m r : m_constrs m = match r with Ok _ => dupdate (m_constrs (content w h)) (m_constrs (content w g)) | Err _ => m_constrs (content w h) end ->
  content w (mkH (with_constrs [] m) (merged r (h_constrs h) (h_constrs g))) = m.
Proof.
  intros E. unfold content. cbn [h_core h_constrs]. rewrite with_constrs_twice. rewrite <- (with_constrs_self m) at 2. f_equal. rewrite E. destruct r; simpl; [apply map_dupdate|reflexivity].
Qed.
Lemma merge_spec ids ev evo w i j h g w' r : ok w -> i <> j -> nth_error (w_models w) i = Some h -> nth_error (w_models w) j = Some g ->
  h_merge ids ev evo i j w = (w', r) ->
  ok w' /\ w_objs w' = w_objs w /\ w_sets w' = w_sets w /\ (forall k, k <> i -> k <> j -> nth_error (w_models w') k = nth_error (w_models w) k) /\
  exists h' g', nth_error (w_models w') i = Some h' /\ nth_error (w_models w') j = Some g' /\
    h_constrs h' = merged r (h_constrs h) (h_constrs g) /\ h_constrs g' = h_constrs g /\
    merge (with_ids (ids i) (ids j) ev) evo 0 (content w h) (content w g) = (content w' h', content w' g', r).
Proof.
  intros HW NE EH EG E. assert (HL := nth_error_lt _ _ _ EH). assert (HG := nth_error_lt _ _ _ EG). assert (HI := nth_error_In _ _ EH). assert (GI := nth_error_In _ _ EG).
  unfold h_merge, bind, get_model, get in E. rewrite EH, EG in E. destruct (merge _ evo 0 (content w h) (content w g)) as [[m o] r0] eqn:EM.
  assert (NB : Nat.eqb i j = false) by (apply Nat.eqb_neq; auto). rewrite NB in E. unfold set_model, lift in E. inversion E; subst w' r0. cbn [w_models with_models].
  destruct (fc_merge _ _ _ _ _ _ _ _ EM) as [FO FM].
  set (g' := mkH (with_constrs [] o) (h_constrs g)). set (h' := mkH (with_constrs [] m) (merged r (h_constrs h) (h_constrs g))).
  change (match r with Ok _ => dupdate (h_constrs h) (h_constrs g) | Err _ => h_constrs h end) with (merged r (h_constrs h) (h_constrs g)).
  split.
  { assert (H1 : ok (fst (set_model j g' w))) by (apply set_model_ok; simpl; auto; [apply (ok_keys _ HW _ GI)|intros kc; apply (ok_links _ HW _ _ GI)]).
    apply (set_model_ok (fst (set_model j g' w)) i h' H1); simpl.
    - assert (N := ok_keys _ HW _ HI). destruct r; simpl; auto. apply dupdate_keys, N.
    - intros kc HK. apply merged_in in HK. destruct HK as [HK|HK]; [apply (ok_links _ HW _ _ HI HK)|apply (ok_links _ HW _ _ GI HK)]. }
  split; [reflexivity|]. split; [reflexivity|]. split; [intros k N1 N2; rewrite !put_nth_other by auto; reflexivity|].
  exists h', g'. rewrite put_nth_same by (rewrite put_nth_length; auto). rewrite put_nth_other, put_nth_same by auto. repeat (split; [reflexivity|]).
  f_equal. f_equal.
  - symmetry. apply (content_merged w). exact FM.
  - symmetry. change (content w (mkH (with_constrs [] o) (merged (Err KeyError) (h_constrs g) (h_constrs g))) = o). apply content_merged. exact FO.
Qed.
Lemma merge_self_spec ids ev evo w i h w' r : ok w -> nth_error (w_models w) i = Some h -> h_merge ids ev evo i i w = (w', r) ->
  ok w' /\ w_objs w' = w_objs w /\ w_sets w' = w_sets w /\ (forall k, k <> i -> nth_error (w_models w') k = nth_error (w_models w) k) /\
  exists h', nth_error (w_models w') i = Some h' /\ h_constrs h' = merged r (h_constrs h) (h_constrs h) /\
    merge (with_ids (ids i) (ids i) ev) evo 0 (content w h) (content w h) = (content w' h', content w h, r).
Proof.
  intros HW EH E. assert (HL := nth_error_lt _ _ _ EH). assert (HI := nth_error_In _ _ EH).
  unfold h_merge, bind, get_model, get in E. rewrite EH in E. cbn beta iota in E. rewrite EH in E. destruct (merge _ evo 0 (content w h) (content w h)) as [[m o] r0] eqn:EM.
  rewrite Nat.eqb_refl in E. cbn beta iota in E. unfold set_model, lift, ret in E. inversion E; subst w' r0. cbn [w_models with_models].
  destruct (fc_merge _ _ _ _ _ _ _ _ EM) as [_ FM]. set (h' := mkH (with_constrs [] m) (merged r (h_constrs h) (h_constrs h))).
  change (match r with Ok _ => dupdate (h_constrs h) (h_constrs h) | Err _ => h_constrs h end) with (merged r (h_constrs h) (h_constrs h)).
  split.
  { apply (set_model_ok w i h' HW); simpl.
    - assert (N := ok_keys _ HW _ HI). destruct r; simpl; auto. apply dupdate_keys, N.
    - intros kc HK. apply merged_in in HK. destruct HK as [HK|HK]; apply (ok_links _ HW _ _ HI HK). }
  split; [reflexivity|]. split; [reflexivity|]. split; [intros k N1; rewrite !put_nth_other by auto; reflexivity|].
  exists h'. rewrite put_nth_same by auto. repeat (split; [reflexivity|]). f_equal. f_equal.
  - symmetry. apply (content_merged w). exact FM.
  - unfold merge in EM. assert (X : forall t, mtype_eqb t t = true) by (intros []; reflexivity). rewrite X in EM. destruct (merge_same _ _ _ _). inversion EM. reflexivity.
Qed.

(** ** Constructors *)
Lemma vars_spec a w w' r : ok w -> h_vars a w = (w', r) ->
  ok w' /\ grows w w' /\ w_objs w' = w_objs w /\
  match r with
  | Ok s => s < length (w_sets w') /\ match a with None => Ok [] | Some a => check_variables_and_to_set (arg_value w a) end = Ok (set_at w' s)
  | Err e => w' = w /\ match a with None => Ok [] | Some a => check_variables_and_to_set (arg_value w a) end = Err e
  end.
Proof.
  intros HW E. destruct a as [a|]; [apply check_spec; auto|]. simpl in E. unfold new_set in E. inversion E; subst.
  split; [exact (new_set_ok w [] HW (NoDup_nil _))|]. split; [exact (new_set_grows w [])|]. split; [reflexivity|]. split.
  - simpl. rewrite app_length. simpl. lia.
  - f_equal. symmetry. apply (new_set_at w []).
Qed.
(** A constructor either makes a new object with the value Constraint.v gives it, or raises what Constraint.v raises. *)
Definition makes (x : WM unit) (v : world -> res constr) : Prop := forall w w' r, ok w -> x w = (w', r) ->
  ok w' /\ only w w' (fun _ => False) /\ w_models w' = w_models w /\
  match v w with
  | Ok c => r = Ok tt /\ length (w_objs w') = S (length (w_objs w)) /\ constr_at w' (length (w_objs w)) = c
  | Err e => r = Err e /\ w_objs w' = w_objs w
  end.
Lemma grows_only w w' P : ok w -> grows w w' -> w_objs w' = w_objs w -> only w w' P.
Proof.
  intros HW G E. split.
  - rewrite E. auto.
  - intros d o EO. rewrite E. eauto.
  - intros d HD _. rewrite E. split; [reflexivity|]. apply constr_at_grows; auto.
  - apply G.
  - apply G.
Qed.
Lemma common_spec l q w : h_common l q w = (w, match l with None => Err TypeError | Some l => if String.eqb l "" then Err ValueError else match q with None => Err TypeError | Some q => Ok (l, q) end end).
Proof. unfold h_common. destruct l as [l|]; [|reflexivity]. destruct (String.eqb l ""); [reflexivity|]. destruct q; reflexivity. Qed.
Lemma nhot_makes a n l q : makes (h_nhot a n l q) (fun w => mk_nhot (option_map (arg_value w) a) n l q).
Proof.
  intros w w' r HW E. unfold h_nhot in E. unfold bind at 1 in E. rewrite common_spec in E. unfold mk_nhot.
  destruct l as [l|]; [|inversion E; subst; repeat (split; auto using only_refl)]. destruct (String.eqb l ""); [inversion E; subst; repeat (split; auto using only_refl)|].
  destruct q as [q|]; [|inversion E; subst; repeat (split; auto using only_refl)]. unfold bind in E. destruct (h_vars a w) as [w1 r1] eqn:EV.
  destruct (vars_spec _ _ _ _ HW EV) as (H1 & G1 & O1 & X). assert (A : (match option_map (arg_value w) a with None => Ok [] | Some a => check_variables_and_to_set a end) = match a with None => Ok [] | Some a => check_variables_and_to_set (arg_value w a) end) by (destruct a; reflexivity).
  rewrite A. destruct r1 as [s|e]; destruct X as [X1 X2]; rewrite X2; [|inversion E; subst; repeat (split; auto using only_refl)].
  destruct n as [n|]; [|inversion E; subst; split; [auto|]; split; [apply grows_only; auto|]; split; [apply G1|]; auto].
  destruct (n <=? 0)%Z; [inversion E; subst; split; [auto|]; split; [apply grows_only; auto|]; split; [apply G1|]; auto|].
  cbn [fst snd] in E. destruct (new_obj_spec w w1 (HNHot s n l q) HW H1 G1 O1) as (B1 & B2 & B3 & B4 & B5 & _). { intros x [<-|[]]; auto. }
  unfold new_obj in E. inversion E; subst w' r. split; [exact B1|]. split; [exact B2|]. split; [exact B3|]. split; [reflexivity|]. split; [simpl; rewrite O1, app_length; simpl; lia|]. exact B5.
Qed.
Lemma zero_or_one_makes a l q : makes (h_zero_or_one a l q) (fun w => mk_zero_or_one (option_map (arg_value w) a) l q).
Proof.
  intros w w' r HW E. unfold h_zero_or_one in E. unfold bind at 1 in E. rewrite common_spec in E. unfold mk_zero_or_one.
  destruct l as [l|]; [|inversion E; subst; repeat (split; auto using only_refl)]. destruct (String.eqb l ""); [inversion E; subst; repeat (split; auto using only_refl)|].
  destruct q as [q|]; [|inversion E; subst; repeat (split; auto using only_refl)]. unfold bind in E. destruct (h_vars a w) as [w1 r1] eqn:EV.
  destruct (vars_spec _ _ _ _ HW EV) as (H1 & G1 & O1 & X). assert (A : (match option_map (arg_value w) a with None => Ok [] | Some a => check_variables_and_to_set a end) = match a with None => Ok [] | Some a => check_variables_and_to_set (arg_value w a) end) by (destruct a; reflexivity).
  rewrite A. destruct r1 as [s|e]; destruct X as [X1 X2]; rewrite X2; [|inversion E; subst; repeat (split; auto using only_refl)].
  cbn [fst snd] in E. destruct (new_obj_spec w w1 (HZeroOrOne s l q) HW H1 G1 O1) as (B1 & B2 & B3 & B4 & B5 & _). { intros x [<-|[]]; auto. }
  unfold new_obj in E. inversion E; subst w' r. split; [exact B1|]. split; [exact B2|]. split; [exact B3|]. split; [reflexivity|]. split; [simpl; rewrite O1, app_length; simpl; lia|]. exact B5.
Qed.
Lemma arg_value_bound w w1 a : grows w w1 -> arg_value w1 (bound w a) = arg_value w a.
Proof.
  intros G. destruct a as [s|a]; simpl; auto. destruct (s <? length (w_sets w))%nat eqn:E.
  - apply Nat.ltb_lt in E. simpl. assert (X := g_sets _ _ G s E). assert (L := g_len _ _ G). unfold set_at in X.
    destruct (nth_error (w_sets w) s) as [v|] eqn:E1; [|apply nth_error_None in E1; lia].
    destruct (nth_error (w_sets w1) s) as [v1|] eqn:E2; [|apply nth_error_None in E2; lia].
    rewrite (nth_error_nth _ _ _ E1), (nth_error_nth _ _ _ E2) in X. congruence.
  - apply Nat.ltb_ge in E. simpl. destruct (nth_error (w_sets w) s) as [v|] eqn:E1; [|reflexivity]. apply nth_error_lt in E1. lia.
Qed.
Lemma equality_makes a b l q : makes (h_equality a b l q) (fun w => mk_equality (option_map (arg_value w) a) (option_map (arg_value w) b) l q).
Proof.
  intros w w' r HW E. unfold h_equality in E. unfold bind at 1 in E. rewrite common_spec in E. unfold mk_equality.
  destruct l as [l|]; [|inversion E; subst; repeat (split; auto using only_refl)]. destruct (String.eqb l ""); [inversion E; subst; repeat (split; auto using only_refl)|].
  destruct q as [q|]; [|inversion E; subst; repeat (split; auto using only_refl)]. unfold bind, get in E. destruct (h_vars a w) as [w1 r1] eqn:EV.
  destruct (vars_spec _ _ _ _ HW EV) as (H1 & G1 & O1 & X). assert (A : (match option_map (arg_value w) a with None => Ok [] | Some a => check_variables_and_to_set a end) = match a with None => Ok [] | Some a => check_variables_and_to_set (arg_value w a) end) by (destruct a; reflexivity).
  rewrite A. destruct r1 as [s|e]; destruct X as [X1 X2]; rewrite X2; [|inversion E; subst; repeat (split; auto using only_refl)].
  destruct (h_vars (option_map (bound w) b) w1) as [w2 r2] eqn:EV2. destruct (vars_spec _ _ _ _ H1 EV2) as (H2 & G2 & O2 & Y).
  assert (G3 := grows_trans _ _ _ G1 G2). assert (O3 : w_objs w2 = w_objs w) by congruence.
  assert (B : (match option_map (arg_value w) b with None => Ok [] | Some a => check_variables_and_to_set a end) = match option_map (bound w) b with None => Ok [] | Some a => check_variables_and_to_set (arg_value w1 a) end).
  { destruct b as [b|]; simpl; auto. rewrite (arg_value_bound w w1 b G1). reflexivity. }
  rewrite B. destruct r2 as [t|e]; destruct Y as [Y1 Y2]; rewrite Y2; [|inversion E; subst; split; [auto|]; split; [apply grows_only; auto|]; split; [apply G3|]; auto].
  cbn [fst snd] in E. destruct (new_obj_spec w w2 (HEquality s t l q) HW H2 G3 O3) as (B1 & B2 & B3 & B4 & B5 & _). { assert (L := g_len _ _ G2). intros x [<-|[<-|[]]]; auto. lia. }
  unfold new_obj in E. inversion E; subst w' r. split; [exact B1|]. split; [exact B2|]. split; [exact B3|]. split; [reflexivity|]. split; [simpl; rewrite O3, app_length; simpl; lia|].
  rewrite <- (g_sets _ _ G2 s X1). exact B5.
Qed.
