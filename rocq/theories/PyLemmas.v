(** * PyLemmas: facts about PyBase used by the proofs. *)
From Verif Require Import PyBase.
From Coq Require Import DecimalString DecimalNat.
Open Scope list_scope.

(** ** Monad inversion *)
Lemma bind_ok {S A B} (m : M S A) (k : A -> M S B) s s' b :
  bind m k s = (s', Ok b) -> exists s1 a, m s = (s1, Ok a) /\ k a s1 = (s', Ok b).
Proof.
  unfold bind. destruct (m s) as [s1 [a|e]] eqn:E; intros H; [eauto|discriminate].
Qed.
Lemma bind_err {S A B} (m : M S A) (k : A -> M S B) s s' e :
  bind m k s = (s', Err e) ->
  m s = (s', Err e) \/ exists s1 a, m s = (s1, Ok a) /\ k a s1 = (s', Err e).
Proof.
  unfold bind. destruct (m s) as [s1 [a|e']] eqn:E; intros H; [eauto|].
  inversion H; subst; auto.
Qed.
Lemma guard_ok {S} b e (s s' : S) u : guard b e s = (s', Ok u) -> b = true /\ s' = s.
Proof. unfold guard, ret, raise; destruct b; intros H; inversion H; auto. Qed.
Lemma guard_err {S} b e (s s' : S) x : guard b e s = (s', Err x) -> b = false /\ s' = s /\ x = e.
Proof. unfold guard, ret, raise; destruct b; intros H; inversion H; auto. Qed.
Lemma lift_eq {S A} (r : res A) (s s' : S) x : lift r s = (s', x) -> r = x /\ s' = s.
Proof. unfold lift; intros H; inversion H; auto. Qed.

Ltac minv1 :=
  match goal with
  | H : bind _ _ _ = (_, Ok _) |- _ =>
      apply bind_ok in H; destruct H as (? & ? & ? & H)
  | H : guard _ _ _ = (_, Ok _) |- _ => apply guard_ok in H; destruct H as [? ?]
  | H : guard _ _ _ = (_, Err _) |- _ => apply guard_err in H; destruct H as (? & ? & ?)
  | H : lift _ _ = (_, _) |- _ => apply lift_eq in H; destruct H as [? ?]
  | H : get _ = (_, _) |- _ => unfold get in H; inversion H; clear H
  | H : put _ _ = (_, _) |- _ => unfold put in H; inversion H; clear H
  | H : modify _ _ = (_, _) |- _ => unfold modify in H; inversion H; clear H
  | H : ret _ _ = (_, _) |- _ => unfold ret in H; inversion H; clear H
  | H : raise _ _ = (_, _) |- _ => unfold raise in H; inversion H; clear H
  end.
Ltac minv := repeat (minv1; subst).

Lemma mfor_app {S A} (l1 l2 : list A) (f : A -> M S unit) s :
  mfor (l1 ++ l2) f s = (mfor l1 f ;;; mfor l2 f) s.
Proof.
  revert s; induction l1; intros s; simpl; [reflexivity|].
  unfold bind in *. destruct (f a s) as [s1 [u|e]]; auto.
Qed.

(** ** Membership, index_of *)
Lemma eqb_refl {A} `{Eqb A} x : eqb x x = true.
Proof. apply eqb_eq; reflexivity. Qed.
Lemma eqb_neq {A} `{Eqb A} x y : eqb x y = false <-> x <> y.
Proof.
  destruct (eqb x y) eqn:E; split; intros; try congruence.
  - apply eqb_eq in E. congruence.
  - intros ->. rewrite eqb_refl in E; discriminate.
Qed.
Lemma eqb_sym {A} `{Eqb A} x y : eqb x y = eqb y x.
Proof.
  destruct (eqb x y) eqn:E; symmetry.
  - apply eqb_eq in E; subst; apply eqb_refl.
  - apply eqb_neq; apply eqb_neq in E; congruence.
Qed.
Lemma mem_in {A} `{Eqb A} x l : mem x l = true <-> In x l.
Proof.
  unfold mem. rewrite existsb_exists. split.
  - intros (y & Hy & E). apply eqb_eq in E; subst; auto.
  - intros Hx; exists x; split; auto. apply eqb_refl.
Qed.
Lemma mem_nin {A} `{Eqb A} x l : mem x l = false <-> ~ In x l.
Proof.
  destruct (mem x l) eqn:E; split; intros; try congruence.
  - apply mem_in in E; contradiction.
  - rewrite <- mem_in; congruence.
Qed.
Lemma index_of_some {A} `{Eqb A} x l i :
  index_of x l = Some i -> nth_error l i = Some x.
Proof.
  revert i; induction l as [|y r IH]; simpl; intros i Hi; [discriminate|].
  destruct (eqb x y) eqn:E.
  - inversion Hi; subst. apply eqb_eq in E; subst; reflexivity.
  - destruct (index_of x r) eqn:E2; inversion Hi; subst. simpl; auto.
Qed.
Lemma index_of_none {A} `{Eqb A} x l : index_of x l = None <-> ~ In x l.
Proof.
  induction l as [|y r IH]; simpl; [tauto|].
  destruct (eqb x y) eqn:E.
  - apply eqb_eq in E; subst. split; [discriminate|tauto].
  - apply eqb_neq in E. destruct (index_of x r); split; intros; try discriminate.
    + exfalso. apply H0; right. destruct IH as [_ IH].
      destruct (in_dec (fun a b => match eqb a b as q return (eqb a b = q -> {a=b}+{a<>b}) with
        | true => fun e => left (proj1 (eqb_eq a b) e)
        | false => fun e => right (proj1 (eqb_neq a b) e) end eq_refl) x r); auto.
      apply IH in n0; discriminate.
    + intros [->|HI]; [congruence|]. apply IH in HI; auto.
    + reflexivity.
Qed.
Lemma index_of_in {A} `{Eqb A} x l : In x l -> exists i, index_of x l = Some i.
Proof.
  intros HI. destruct (index_of x l) eqn:E; eauto.
  apply index_of_none in E; contradiction.
Qed.
Lemma index_of_app_l {A} `{Eqb A} x l1 l2 i :
  index_of x l1 = Some i -> index_of x (l1 ++ l2) = Some i.
Proof.
  revert i; induction l1 as [|y r IH]; simpl; intros i Hi; [discriminate|].
  destruct (eqb x y); auto.
  destruct (index_of x r); [|discriminate]. rewrite (IH _ eq_refl); auto.
Qed.
Lemma index_of_mid {A} `{Eqb A} x l1 l2 :
  ~ In x l1 -> index_of x (l1 ++ x :: l2) = Some (length l1).
Proof.
  induction l1 as [|y r IH]; simpl; intros HN.
  - rewrite eqb_refl; auto.
  - destruct (eqb x y) eqn:E; [apply eqb_eq in E; subst; tauto|].
    rewrite IH; auto.
Qed.

(** ** Positional updates *)
Lemma upd_nth_mid {A} (f : A -> A) l1 x l2 :
  upd_nth (length l1) f (l1 ++ x :: l2) = l1 ++ f x :: l2.
Proof. induction l1; simpl; congruence. Qed.
Lemma upd_nth_length {A} i (f : A -> A) l : length (upd_nth i f l) = length l.
Proof. revert i; induction l; destruct i; simpl; auto. Qed.
Lemma set_nth_mid {A} (v : A) l1 x l2 :
  set_nth (length l1) v (l1 ++ x :: l2) = Some (l1 ++ v :: l2).
Proof. induction l1; simpl; auto. rewrite IHl1; auto. Qed.
Lemma pop_nth_mid {A} (l1 : list A) x l2 :
  pop_nth (length l1) (l1 ++ x :: l2) = Some (l1 ++ l2).
Proof. induction l1; simpl; auto. rewrite IHl1; auto. Qed.
Lemma nth_error_split_mid {A} (l : list A) i x :
  nth_error l i = Some x -> exists l1 l2, l = l1 ++ x :: l2 /\ length l1 = i.
Proof. apply nth_error_split. Qed.
Lemma set_nth_some {A} i (v : A) l : i < length l -> exists l', set_nth i v l = Some l'.
Proof.
  revert i; induction l; intros [|i] Hi; simpl in *; try lia; eauto.
  destruct (IHl i) as [l' ->]; [lia|eauto].
Qed.
Lemma set_nth_length {A} i (v : A) l l' : set_nth i v l = Some l' -> length l' = length l.
Proof.
  revert i l'; induction l; intros [|i] l'; simpl; intros E; inversion E; subst; auto.
  destruct (set_nth i v l) eqn:E2; inversion E; subst. simpl; f_equal; eauto.
Qed.
Lemma set_nth_nth {A} i (v : A) l l' j : set_nth i v l = Some l' ->
  nth_error l' j = if (j =? i)%nat then Some v else nth_error l j.
Proof.
  revert i l' j; induction l; intros [|i] l' j; simpl; intros E; inversion E; subst; auto.
  - destruct j; auto.
  - destruct (set_nth i v l) eqn:E2; inversion E; subst. destruct j; simpl; [auto|].
    apply IHl; auto.
Qed.
Lemma pop_nth_some {A} i (l : list A) : i < length l -> exists l', pop_nth i l = Some l'.
Proof.
  revert i; induction l; intros [|i] Hi; simpl in *; try lia; eauto.
  destruct (IHl i) as [l' ->]; [lia|eauto].
Qed.
Lemma pop_nth_length {A} i (l l' : list A) : pop_nth i l = Some l' -> length l = S (length l').
Proof.
  revert i l'; induction l; intros [|i] l'; simpl; intros E; inversion E; subst; auto.
  destruct (pop_nth i l) eqn:E2; inversion E; subst. simpl; f_equal; eauto.
Qed.

(** ** Dictionaries *)
Section DictFacts.
  Context {K V : Type} `{Eqb K}.
  Implicit Types d : dict K V.
  Lemma dget_in k d v : dget k d = Some v -> In (k, v) d.
  Proof.
    induction d as [|[k' v'] r IH]; simpl; [discriminate|].
    destruct (eqb k k') eqn:E; intros HI; auto.
    inversion HI; subst. apply eqb_eq in E; subst; auto.
  Qed.
  Lemma dget_none k d : dget k d = None <-> ~ In k (dkeys d).
  Proof.
    induction d as [|[k' v'] r IH]; simpl; [tauto|].
    destruct (eqb k k') eqn:E.
    - apply eqb_eq in E; subst. split; [discriminate|tauto].
    - apply eqb_neq in E. rewrite IH. unfold dkeys. split; intros HH; [intros [?|?]; congruence|tauto].
  Qed.
  Lemma dget_some_in k d : (exists v, dget k d = Some v) <-> In k (dkeys d).
  Proof.
    destruct (dget k d) eqn:E.
    - split; intros; eauto. apply dget_in in E. apply (in_map fst) in E; auto.
    - apply dget_none in E. split; [intros [v Hv]; discriminate|contradiction].
  Qed.
  Lemma dmem_in k d : dmem k d = true <-> In k (dkeys d).
  Proof.
    rewrite <- dget_some_in. unfold dmem. destruct (dget k d).
    - split; eauto. - split; [discriminate|intros [? ?]; discriminate].
  Qed.
  Lemma dmem_nin k d : dmem k d = false <-> ~ In k (dkeys d).
  Proof. rewrite <- dmem_in. destruct (dmem k d); split; congruence. Qed.
  Lemma in_dget k v d : NoDup (dkeys d) -> In (k, v) d -> dget k d = Some v.
  Proof.
    induction d as [|[k' v'] r IH]; simpl; [tauto|].
    intros ND [E|HI].
    - inversion E; subst. rewrite eqb_refl; auto.
    - inversion ND; subst. destruct (eqb k k') eqn:E; auto.
      apply eqb_eq in E; subst. exfalso; apply H2. apply (in_map fst) in HI; auto.
  Qed.
  Lemma dget_dset_same k v d : dget k (dset k v d) = Some v.
  Proof.
    induction d as [|[k' v'] r IH]; simpl; [rewrite eqb_refl; auto|].
    destruct (eqb k k') eqn:E; simpl; rewrite E; auto.
  Qed.
  Lemma dget_dset_other k k' v d : k <> k' -> dget k (dset k' v d) = dget k d.
  Proof.
    intros NE. induction d as [|[k2 v2] r IH]; simpl.
    - rewrite (proj2 (eqb_neq k k') NE); auto.
    - destruct (eqb k' k2) eqn:E; simpl.
      + apply eqb_eq in E; subst. rewrite (proj2 (eqb_neq k k2) NE); auto.
      + rewrite IH; auto.
  Qed.
  Lemma dset_keys_in k v d : In k (dkeys d) -> dkeys (dset k v d) = dkeys d.
  Proof.
    induction d as [|[k2 v2] r IH]; simpl; [tauto|].
    destruct (eqb k k2) eqn:E; simpl; auto.
    intros [->|HI]; [rewrite eqb_refl in E; discriminate|]. f_equal; apply IH; auto.
  Qed.
  Lemma dset_keys_new k v d : ~ In k (dkeys d) -> dset k v d = d ++ [(k, v)].
  Proof.
    induction d as [|[k2 v2] r IH]; simpl; auto.
    intros HN. destruct (eqb k k2) eqn:E; [apply eqb_eq in E; subst; tauto|].
    f_equal; apply IH; auto.
  Qed.
  Lemma dset_nodup k v d : NoDup (dkeys d) -> NoDup (dkeys (dset k v d)).
  Proof.
    intros ND. destruct (dmem k d) eqn:E.
    - apply dmem_in in E. rewrite dset_keys_in; auto.
    - apply dmem_nin in E. rewrite dset_keys_new; auto.
      unfold dkeys; rewrite map_app; simpl.
      apply NoDup_rev in ND. rewrite <- (rev_involutive (map fst d ++ [k])).
      apply NoDup_rev. rewrite rev_app_distr; simpl. constructor; auto.
      rewrite <- in_rev; auto.
  Qed.
  Lemma dset_in_iff k v d k' : In k' (dkeys (dset k v d)) <-> k' = k \/ In k' (dkeys d).
  Proof.
    destruct (dmem k d) eqn:E.
    - apply dmem_in in E. rewrite dset_keys_in; auto. split; auto. intros [->|?]; auto.
    - apply dmem_nin in E. rewrite dset_keys_new; auto.
      unfold dkeys; rewrite map_app, in_app_iff; simpl. split; intuition.
  Qed.
  Lemma dset_in k v d k' w : In (k', w) (dset k v d) -> (k' = k /\ w = v) \/ In (k', w) d.
  Proof.
    induction d as [|[k2 v2] r IH]; simpl.
    - intros [E|[]]. inversion E; auto.
    - destruct (eqb k k2) eqn:E; simpl; intros [HI|HI]; auto.
      + inversion HI; subst. apply eqb_eq in E; subst; auto.
      + destruct (IH HI); auto.
  Qed.
  Lemma ddel_get_same k d : NoDup (dkeys d) -> dget k (ddel k d) = None.
  Proof.
    induction d as [|[k2 v2] r IH]; simpl; auto. intros ND; inversion ND; subst.
    destruct (eqb k k2) eqn:E; simpl.
    - apply eqb_eq in E; subst. apply dget_none; auto.
    - rewrite E; auto.
  Qed.
  Lemma ddel_get_other k k' d : k <> k' -> dget k (ddel k' d) = dget k d.
  Proof.
    intros NE. induction d as [|[k2 v2] r IH]; simpl; auto.
    destruct (eqb k' k2) eqn:E; simpl.
    - apply eqb_eq in E; subst. rewrite (proj2 (eqb_neq k k2) NE); auto.
    - rewrite IH; auto.
  Qed.
  Lemma dset_mid k v v' d1 d2 : ~ In k (dkeys d1) ->
    dset k v (d1 ++ (k, v') :: d2) = d1 ++ (k, v) :: d2.
  Proof.
    induction d1 as [|[k2 v2] r IH]; simpl; intros HN.
    - rewrite eqb_refl; auto.
    - destruct (eqb k k2) eqn:E; [apply eqb_eq in E; subst; tauto|].
      rewrite IH; auto.
  Qed.
  Lemma dget_mid k v d1 d2 : ~ In k (dkeys d1) -> dget k (d1 ++ (k, v) :: d2) = Some v.
  Proof.
    induction d1 as [|[k2 v2] r IH]; simpl; intros HN.
    - rewrite eqb_refl; auto.
    - destruct (eqb k k2) eqn:E; [apply eqb_eq in E; subst; tauto|]. auto.
  Qed.
  Lemma dupdate_nil d : dupdate d [] = d.
  Proof. reflexivity. Qed.
End DictFacts.

(** ** NoDup helpers *)
Lemma NoDup_app_iff {A} (l1 l2 : list A) :
  NoDup (l1 ++ l2) <-> NoDup l1 /\ NoDup l2 /\ (forall x, In x l1 -> ~ In x l2).
Proof.
  induction l1 as [|a l1 IH]; simpl.
  - split; [intros H; repeat split; auto; constructor | tauto].
  - rewrite !NoDup_cons_iff, IH, in_app_iff. split.
    + intros [HN (H1 & H2 & H3)]. repeat split; auto.
      intros x [->|HI] HI2; [tauto|eapply H3; eauto].
    + intros [[HN H1] [H2 H3]]. repeat split; auto.
      * intros [HI|HI]; [tauto|]. eapply H3; eauto.
Qed.
Lemma NoDup_snoc {A} (l : list A) x : NoDup (l ++ [x]) <-> NoDup l /\ ~ In x l.
Proof.
  rewrite NoDup_app_iff. split.
  - intros (H1 & H2 & H3). split; auto. intros HI; apply (H3 x HI); simpl; auto.
  - intros [H1 H2]. repeat split; auto.
    + constructor; [simpl; tauto|constructor].
    + intros y HI [->|[]]; auto.
Qed.

(** ** Rationals *)
Lemma qsum_app a b : qsum (a ++ b) = (qsum a + qsum b)%Qc.
Proof. induction a; simpl; [ring|rewrite IHa; ring]. Qed.
Lemma qsum_perm a b : Permutation a b -> qsum a = qsum b.
Proof. induction 1; simpl; try congruence. ring. Qed.
Lemma qsum_map_mul {A} (k : Qc) (f : A -> Qc) l :
  qsum (map (fun x => k * f x)%Qc l) = (k * qsum (map f l))%Qc.
Proof. induction l; simpl; [ring|rewrite IHl; ring]. Qed.
Lemma qsum_map_add {A} (f g : A -> Qc) l :
  qsum (map (fun x => f x + g x)%Qc l) = (qsum (map f l) + qsum (map g l))%Qc.
Proof. induction l; simpl; [ring|rewrite IHl; ring]. Qed.
Lemma qsum_map_ext {A} (f g : A -> Qc) l :
  (forall x, In x l -> f x = g x) -> qsum (map f l) = qsum (map g l).
Proof.
  induction l; simpl; intros E; auto. rewrite (E a), IHl; auto.
Qed.
Lemma qsum_map_zero {A} (f : A -> Qc) l :
  (forall x, In x l -> f x = 0%Qc) -> qsum (map f l) = 0%Qc.
Proof.
  induction l; simpl; intros E; auto. rewrite (E a), IHl; auto.
Qed.

(** ** Strings *)
Lemma append_assoc_s (a b c : string) : ((a +++ b) +++ c = a +++ (b +++ c))%string.
Proof. induction a; simpl; congruence. Qed.
Lemma append_nil_r_s (a : string) : (a +++ "")%string = a.
Proof. induction a; simpl; congruence. Qed.
Lemma append_inj_l (a b c : string) : (a +++ b)%string = (a +++ c)%string -> b = c.
Proof. induction a; simpl; auto. intros E; inversion E; auto. Qed.
Lemma length_append_s (a b : string) :
  String.length (a +++ b)%string = (String.length a + String.length b)%nat.
Proof. induction a; simpl; auto. Qed.
Lemma append_inj_same_length (a b c d : string) :
  String.length a = String.length c -> (a +++ b = c +++ d)%string -> a = c /\ b = d.
Proof.
  revert c; induction a; destruct c; simpl; intros L E; try discriminate; auto.
  inversion E; subst. destruct (IHa c) as [-> ->]; auto.
Qed.
Lemma append_inj_r (a b c : string) : (a +++ c)%string = (b +++ c)%string -> a = b.
Proof.
  intros E. assert (L : String.length a = String.length b).
  { apply (f_equal String.length) in E. rewrite !length_append_s in E. lia. }
  eapply append_inj_same_length in E; tauto.
Qed.
Lemma has_char_app c a b : has_char c (a +++ b)%string = has_char c a || has_char c b.
Proof. induction a; simpl; auto. rewrite IHa, orb_assoc; auto. Qed.
(** splitting at the first occurrence of a separator *)
Lemma split_first_sep (sep : ascii) a b c d :
  has_char sep a = false -> has_char sep c = false ->
  (a +++ String sep b = c +++ String sep d)%string -> a = c /\ b = d.
Proof.
  revert c; induction a; destruct c; simpl; intros HA HC E.
  - inversion E; auto.
  - inversion E; subst. rewrite Ascii.eqb_refl in HC; discriminate.
  - inversion E; subst. rewrite Ascii.eqb_refl in HA; discriminate.
  - inversion E; subst. apply orb_false_iff in HA, HC.
    destruct (IHa c) as [-> ->]; tauto.
Qed.
Lemma before_char_app c a b : has_char c a = false ->
  before_char c (a +++ String c b)%string = Some a.
Proof.
  induction a; simpl; intros HA; [rewrite Ascii.eqb_refl; auto|].
  apply orb_false_iff in HA; destruct HA as [H1 H2]. rewrite H1, IHa; auto.
Qed.
Lemma str_of_nat_inj a b : str_of_nat a = str_of_nat b -> a = b.
Proof.
  unfold str_of_nat. intros E. apply (f_equal NilEmpty.uint_of_string) in E.
  rewrite !NilEmpty.usu in E. inversion E as [E2].
  apply (f_equal Nat.of_uint) in E2. rewrite !DecimalNat.Unsigned.of_to in E2; auto.
Qed.
Lemma uint_no_char c u : (forall d, In d ["0"%char;"1"%char;"2"%char;"3"%char;"4"%char;"5"%char;"6"%char;"7"%char;"8"%char;"9"%char] -> c <> d) ->
  has_char c (NilEmpty.string_of_uint u) = false.
Proof.
  intros HC. induction u; simpl; auto; rewrite IHu, orb_false_r;
    apply Ascii.eqb_neq; apply HC; simpl; tauto.
Qed.
Lemma str_of_nat_no_char c n : (forall d, In d ["0"%char;"1"%char;"2"%char;"3"%char;"4"%char;"5"%char;"6"%char;"7"%char;"8"%char;"9"%char] -> c <> d) ->
  has_char c (str_of_nat n) = false.
Proof. intros; apply uint_no_char; auto. Qed.

(** String order facts *)
Lemma ltb_irrefl s : String.ltb s s = false.
Proof.
  unfold String.ltb. destruct (s ?= s)%string eqn:E; auto.
  pose proof (String.compare_antisym s s) as A. rewrite E in A; discriminate.
Qed.
Lemma ltb_asym a b : String.ltb a b = true -> String.ltb b a = false.
Proof.
  unfold String.ltb. rewrite (String.compare_antisym b a).
  destruct (a ?= b)%string; simpl; congruence.
Qed.
Lemma ltb_total a b : a <> b -> String.ltb a b = negb (String.ltb b a).
Proof.
  intros NE. unfold String.ltb. rewrite (String.compare_antisym b a).
  destruct (a ?= b)%string eqn:E; simpl; auto.
  apply String.compare_eq_iff in E; contradiction.
Qed.
