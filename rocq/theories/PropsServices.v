(** * PropsServices: number input, flattening, element-wise operations and the
    solvers that call other programs (C57, C59, C61, C74-C78). *)
From Verif Require Import PyBase PyLemmas Numbers Constraint LogicalModel Spec Physical BqmProofs PropsBqm Solver SolverSpec SolverProofs
  PropsSolver Services ServicesSpec.
From Coq Require Import Lqa Permutation Sorted.
From Coq Require DecimalString DecimalNat.
Local Open Scope string_scope.
Local Open Scope list_scope.

(** ** C57: number input *)
Lemma digit_spec c : (exists d, digit_of c = Some (Z.of_nat d) /\ digit_value c d /\ is_space c = false /\
                        Ascii.eqb c "-"%char = false /\ Ascii.eqb c "+"%char = false) \/
                     (digit_of c = None /\ forall d, ~ digit_value c d).
Proof.
  destruct c as [[] [] [] [] [] [] [] []];
  first [ right; split; [reflexivity|]; intros d H; apply nth_error_In in H; simpl in H; intuition discriminate
        | left; exists 0; repeat split; reflexivity | left; exists 1; repeat split; reflexivity
        | left; exists 2; repeat split; reflexivity | left; exists 3; repeat split; reflexivity
        | left; exists 4; repeat split; reflexivity | left; exists 5; repeat split; reflexivity
        | left; exists 6; repeat split; reflexivity | left; exists 7; repeat split; reflexivity
        | left; exists 8; repeat split; reflexivity | left; exists 9; repeat split; reflexivity ].
Qed.
Lemma digit_value_fun c d e : digit_value c d -> digit_value c e -> d = e.
Proof.
  unfold digit_value. intros A B. assert (ND : NoDup digits) by (repeat constructor; simpl; intuition discriminate).
  apply (proj1 (NoDup_nth_error digits) ND); [|congruence]. apply nth_error_Some. congruence.
Qed.
Lemma digit_of_iff c d : digit_of c = Some (Z.of_nat d) <-> digit_value c d.
Proof.
  destruct (digit_spec c) as [(e & E & V & _)|[E N]].
  - rewrite E. split; [intros H; injection H as H; apply Nat2Z.inj in H; subst; auto|]. intros H. rewrite (digit_value_fun _ _ _ V H). auto.
  - rewrite E. split; [discriminate|]. intros H. destruct (N d H).
Qed.
Lemma digit_facts c d : digit_value c d ->
  digit_of c = Some (Z.of_nat d) /\ is_digit c = true /\ is_space c = false /\ Ascii.eqb c "-"%char = false /\ Ascii.eqb c "+"%char = false.
Proof.
  intros H. destruct (digit_spec c) as [(e & E & V & A & B & C)|[_ N]]; [|destruct (N d H)].
  rewrite <- (digit_value_fun _ _ _ H V) in E. unfold is_digit. rewrite E. auto.
Qed.
Lemma is_digit_value c : is_digit c = true -> exists d, digit_value c d.
Proof. unfold is_digit. destruct (digit_spec c) as [(e & E & V & _)|[E N]]; rewrite E; [eauto|discriminate]. Qed.
Lemma newline_not_digit : is_digit newline = false.
Proof. reflexivity. Qed.

Lemma number_fun s v : number s v -> forall w, number s w -> v = w.
Proof.
  induction 1 as [c d H|c d s v H N IH]; intros w W; inversion W; subst.
  - f_equal. eapply digit_value_fun; eauto.
  - inversion H4.
  - inversion N.
  - rewrite (digit_value_fun _ _ _ H H2), (IH _ H4). auto.
Qed.
Lemma number_ne s v : number s v -> s <> "".
Proof. destruct 1; discriminate. Qed.
Lemma int_number s v : number s v -> forall acc k prev,
  int_digits acc k prev s = Ok ((acc * 10 ^ Z.of_nat (String.length s) + v)%Z, k + String.length s).
Proof.
  induction 1 as [c d H|c d s v H N IH]; intros acc k prev; destruct (digit_facts _ _ H) as (E & _); cbn [int_digits]; rewrite E.
  - cbn [int_digits String.length]. f_equal. f_equal; [rewrite Z.pow_1_r; lia|lia].
  - rewrite IH. cbn [String.length]. f_equal. f_equal; [|lia]. rewrite Nat2Z.inj_succ, Z.pow_succ_r by lia. ring.
Qed.
Lemma rstrip_number s v : number s v -> rstrip s = s /\ rstrip (s ++ String newline "") = s.
Proof.
  induction 1 as [c d H|c d s v H N [IH1 IH2]]; destruct (digit_facts _ _ H) as (_ & _ & E & _).
  - cbn [rstrip String.append]. rewrite E. change (is_space newline) with true. auto.
  - pose proof (number_ne _ _ N) as NE. cbn [rstrip String.append]. rewrite IH1, IH2. destruct s; [congruence|auto].
Qed.
Lemma lstrip_number s v : number s v -> lstrip s = s.
Proof. destruct 1 as [c d H|c d s v H N]; destruct (digit_facts _ _ H) as (_ & _ & E & _); cbn [lstrip]; rewrite E; auto. Qed.
Lemma py_int_number limit s t v : number t v -> s = t \/ s = (t ++ String newline "")%string ->
  py_int limit s = match limit with Some n => if Nat.ltb n (String.length t) then Err ValueError else Ok v | None => Ok v end.
Proof.
  intros N HS. unfold py_int. assert (E : lstrip (rstrip s) = t).
  { destruct (rstrip_number _ _ N) as [A B]. destruct HS as [-> | ->]; [rewrite A|rewrite B]; eapply lstrip_number; eauto. }
  rewrite E. assert (E2 : match t with String c r => if Ascii.eqb c "-"%char then ((-1)%Z, r)
      else if Ascii.eqb c "+"%char then (1%Z, r) else (1%Z, t) | "" => (1%Z, t) end = (1%Z, t)).
  { destruct N as [c d H|c d t v H N]; destruct (digit_facts _ _ H) as (_ & _ & _ & E1 & E2); rewrite E1, E2; auto. }
  rewrite E2. rewrite (int_number _ _ N). cbn [rbind fst snd]. rewrite Nat.add_0_l. destruct limit as [n|]; [destruct (Nat.ltb n (String.length t)); auto|]; do 1 f_equal; ring.
Qed.
Lemma digits_to_end_iff s c d : digit_value c d -> digits_to_end s = true -> exists t v, number (String c t) v /\ (s = t \/ s = (t ++ String newline "")%string).
Proof.
  revert c d. induction s as [|x s IH]; intros c d H E; cbn [digits_to_end] in E.
  - exists "", (Z.of_nat d). split; [constructor; auto|auto].
  - destruct (is_digit x) eqn:EX.
    + destruct (is_digit_value _ EX) as [e HE]. destruct (IH _ _ HE E) as (t & v & N & HS). exists (String x t), (Z.of_nat d * 10 ^ Z.of_nat (String.length (String x t)) + v)%Z.
      split; [constructor; auto|]. destruct HS as [-> | ->]; auto.
    + apply andb_true_iff in E. destruct E as [E1 E2]. apply Ascii.eqb_eq in E1. apply String.eqb_eq in E2. subst.
      exists "", (Z.of_nat d). split; [constructor; auto|auto].
Qed.
Lemma number_match_iff s : number_match s = true <-> exists v, number_line s v.
Proof.
  split.
  - destruct s as [|c r]; [discriminate|]. cbn [number_match]. intros E. apply andb_true_iff in E. destruct E as [E1 E2].
    destruct (is_digit_value _ E1) as [d H]. destruct (digits_to_end_iff _ _ _ H E2) as (t & v & N & HS). exists v, (String c t). split; auto.
    destruct HS as [-> | ->]; auto.
  - intros (v & t & N & HS). assert (G : forall t v, number t v -> digits_to_end t = true /\ digits_to_end (t ++ String newline "") = true).
    { induction 1 as [c d H|c d t0 v0 H N0 [IH1 IH2]]; destruct (digit_facts _ _ H) as (_ & E & _); cbn [digits_to_end String.append]; rewrite E; auto. }
    destruct N as [c d H|c d t v H N]; destruct (digit_facts _ _ H) as (_ & E & _).
    + destruct HS as [-> | ->]; cbn [number_match String.append]; rewrite E; auto.
    + destruct (G _ _ N) as [G1 G2]. destruct HS as [-> | ->]; cbn [number_match String.append]; rewrite E; auto.
Qed.
Lemma number_no_newline t v : number t v -> forall u w, number u w -> t <> (u ++ String newline "")%string.
Proof.
  intros N u w U E. assert (G : forall u, rstrip (u ++ String newline "") = rstrip u).
  { induction u0 as [|c u0 IH]; [reflexivity|]. cbn [String.append rstrip]. rewrite IH. auto. }
  destruct (rstrip_number _ _ N) as [A _]. rewrite E, G in A. destruct (rstrip_number _ _ U) as [B _]. rewrite B in A.
  apply (f_equal String.length) in A. rewrite length_append_s in A. simpl in A. lia.
Qed.

(** Reading numbers keeps exactly the lines that are numbers, in order, and
    never raises. *)
Theorem C57_numbers : forall lines, exists ns, read_as_number None lines = Ok ns /\ numbers lines ns.
Proof.
  unfold read_as_number. induction lines as [|s r (ns & E & N)]; [exists []; split; [reflexivity|constructor]|]. cbn [filter].
  destruct (number_match s) eqn:EM.
  - destruct (proj1 (number_match_iff s) EM) as [v L]. exists (v :: ns). split; [|constructor; auto]. cbn [rmap].
    pose proof L as (t & NT & HS). rewrite (py_int_number None _ _ _ NT HS). cbn [rbind]. rewrite E. reflexivity.
  - exists ns. split; auto. constructor; auto. intros v L. assert (X : number_match s = true) by (apply number_match_iff; eauto). congruence.
Qed.
(** There is only one such list of numbers. *)
Theorem C57_unique : forall lines a b, numbers lines a -> numbers lines b -> a = b.
Proof.
  intros lines a b H. revert b. induction H as [|s v r l L _ IH|s r l L _ IH]; intros b HB; inversion HB; subst; auto.
  - f_equal; auto. destruct L as (t & N & HS), H1 as (t' & N' & HS'). destruct HS as [-> | ->], HS' as [E|E].
    + subst. eapply number_fun; eauto.
    + destruct (number_no_newline _ _ N _ _ N' E).
    + symmetry in E. destruct (number_no_newline _ _ N' _ _ N E).
    + apply (append_inj_r _ _ (String newline "")) in E. subst. eapply number_fun; eauto.
  - destruct (H1 _ L).
  - destruct (L _ H1).
Qed.
(** An interpreter with a limit on the number of digits raises exactly when a
    number is longer. *)
Theorem C57_limit : forall n lines,
  (read_as_number (Some n) lines = read_as_number None lines <->
   forall s t v, In s lines -> number t v -> s = t \/ s = (t ++ String newline "")%string -> String.length t <= n) /\
  ((exists s t v, In s lines /\ number t v /\ (s = t \/ s = (t ++ String newline "")%string) /\ n < String.length t) ->
   read_as_number (Some n) lines = Err ValueError).
Proof.
  intros n lines.
  assert (G : (read_as_number (Some n) lines = read_as_number None lines /\
               forall s t v, In s lines -> number t v -> s = t \/ s = (t ++ String newline "")%string -> String.length t <= n) \/
              (read_as_number (Some n) lines = Err ValueError /\
               exists s t v, In s lines /\ number t v /\ (s = t \/ s = (t ++ String newline "")%string) /\ n < String.length t)).
  { induction lines as [|s r IH]; [left; split; [reflexivity|simpl; tauto]|]. unfold read_as_number in *. cbn [filter].
    destruct (number_match s) eqn:EM.
    - destruct (proj1 (number_match_iff s) EM) as (v & t & NT & HS). cbn [rmap]. rewrite !(fun o => py_int_number o _ _ _ NT HS).
      destruct (Nat.ltb n (String.length t)) eqn:EL; cbn [rbind].
      + right. split; auto. apply Nat.ltb_lt in EL. exists s, t, v. simpl. auto.
      + apply Nat.ltb_ge in EL. destruct IH as [[E H]|[E (s' & t' & v' & A & B)]]; [left; rewrite E|right; rewrite E].
        * split; auto. intros s' t' v' [<-|HI] NT' HS'; [|eauto].
          assert (t = t') as <-; auto. destruct HS as [-> | ->], HS' as [E1|E1]; auto.
          -- destruct (number_no_newline _ _ NT _ _ NT' E1).
          -- symmetry in E1. destruct (number_no_newline _ _ NT' _ _ NT E1).
          -- apply append_inj_r in E1. auto.
        * split; auto. exists s', t', v'. simpl. auto.
    - destruct IH as [[E H]|[E (s' & t' & v' & A & B)]]; [left|right; split; auto; exists s', t', v'; simpl; auto].
      split; auto. intros s' t' v' [<-|HI] NT' HS'; [|eauto]. assert (X : number_match s = true) by (apply number_match_iff; exists v', t'; auto). congruence. }
  destruct (C57_numbers lines) as (ns & EN & _). split; [split|].
  - intros E. destruct G as [[_ H]|[E' _]]; auto. congruence.
  - intros H. destruct G as [[E _]|[_ (s & t & v & A & B & C & D)]]; auto. pose proof (H _ _ _ A B C). lia.
  - intros (s & t & v & A & B & C & D). destruct G as [[_ H]|[E _]]; auto. pose proof (H _ _ _ A B C). lia.
Qed.
(** What str() writes, one number per line, is read back. *)
Lemma number_uint u : u <> Decimal.Nil -> number (DecimalString.NilEmpty.string_of_uint u) (Z.of_nat (Nat.of_uint u)).
Proof.
  assert (A : forall u acc, Nat.of_uint_acc u acc = acc * 10 ^ String.length (DecimalString.NilEmpty.string_of_uint u) + Nat.of_uint u).
  { unfold Nat.of_uint. assert (A0 : forall u acc, Nat.of_uint_acc u acc = acc * 10 ^ String.length (DecimalString.NilEmpty.string_of_uint u) + Nat.of_uint_acc u 0).
    { induction u0; intros acc; cbn [Nat.of_uint_acc DecimalString.NilEmpty.string_of_uint String.length]; [simpl; lia|..];
      rewrite !Nat.tail_mul_spec; rewrite IHu0; (match goal with |- _ = _ + Nat.of_uint_acc _ ?k => rewrite (IHu0 k) end);
      rewrite Nat.pow_succ_r'; simpl; ring. }
    intros. apply A0. }
  assert (B : forall u d, digit_value (fst d) (snd d) -> Nat.of_uint_acc u (snd d) = Nat.of_uint_acc u (snd d) ->
     (u <> Decimal.Nil -> number (DecimalString.NilEmpty.string_of_uint u) (Z.of_nat (Nat.of_uint u))) ->
     number (String (fst d) (DecimalString.NilEmpty.string_of_uint u)) (Z.of_nat (Nat.of_uint_acc u (snd d)))).
  { intros u0 [c d] H _ IH. cbn [fst snd] in *. rewrite A. destruct u0; try (rewrite Nat2Z.inj_add, Nat2Z.inj_mul, Nat2Z.inj_pow; apply num_more; auto; apply IH; discriminate).
    cbn. rewrite Nat.mul_1_r, Nat.add_0_r. apply num_last. auto. }
  induction u; intros NE; [congruence|..]; cbn [DecimalString.NilEmpty.string_of_uint]; unfold Nat.of_uint; cbn [Nat.of_uint_acc]; rewrite Nat.tail_mul_spec.
  - apply (B u ("0"%char, 0)); auto; reflexivity.
  - apply (B u ("1"%char, 1)); auto; reflexivity.
  - apply (B u ("2"%char, 2)); auto; reflexivity.
  - apply (B u ("3"%char, 3)); auto; reflexivity.
  - apply (B u ("4"%char, 4)); auto; reflexivity.
  - apply (B u ("5"%char, 5)); auto; reflexivity.
  - apply (B u ("6"%char, 6)); auto; reflexivity.
  - apply (B u ("7"%char, 7)); auto; reflexivity.
  - apply (B u ("8"%char, 8)); auto; reflexivity.
  - apply (B u ("9"%char, 9)); auto; reflexivity.
Qed.
Theorem C57_roundtrip : forall ns, read_as_number None (map str_of_nat ns) = Ok (map Z.of_nat ns).
Proof.
  intros ns. destruct (C57_numbers (map str_of_nat ns)) as (l & E & N). rewrite E. f_equal. eapply C57_unique; eauto.
  clear. induction ns as [|n ns IH]; cbn [map]; constructor; auto. exists (str_of_nat n). split; auto. unfold str_of_nat.
  pose proof (DecimalNat.Unsigned.of_to n) as E. rewrite <- E at 2. apply number_uint. intros EN. rewrite EN in E. cbn in E. subst n. discriminate EN.
Qed.

(** ** C61: flattening *)
Section Nested.
Variables (A : Type) (P : nested A -> Prop).
Hypothesis HL : forall a, P (Leaf a).
Hypothesis HN : forall l, Forall P l -> P (Nest l).
Fixpoint nested_forall (x : nested A) : P x :=
  match x with
  | Leaf a => HL a
  | Nest l => HN l ((fix go l := match l return Forall P l with [] => Forall_nil P | y :: r => Forall_cons y (nested_forall y) (go r) end) l)
  end.
End Nested.
Definition leaves_in_order {A} (x : nested A) (l : list A) : Prop :=
  exists ps, StronglySorted earlier ps /\ (forall p, In p ps <-> exists a, at_path x p = Some (Leaf a)) /\
             map (at_path x) ps = map (fun a => Some (Leaf a)) l.
Lemma sorted_app {B} (R : B -> B -> Prop) l l' : StronglySorted R l -> StronglySorted R l' ->
  (forall a b, In a l -> In b l' -> R a b) -> StronglySorted R (l ++ l').
Proof.
  induction 1 as [|a l S IH F]; intros S' H; cbn [app]; auto. constructor; [apply IH; auto; intros; apply H; simpl; auto|].
  apply Forall_app. split; auto. apply Forall_forall. intros b Hb. apply H; simpl; auto.
Qed.
Lemma flatten1_leaves {A} (x : nested A) : leaves_in_order x (flatten1 x).
Proof.
  apply nested_forall with (x := x).
  - intros a. exists [[]]. split; [repeat constructor|]. split; [|reflexivity]. intros [|i r]; simpl; split; intros H; eauto.
    + destruct H as [H|[]]. discriminate.
    + destruct H as [b H]. discriminate.
  - intros l F.
    assert (G : forall pre, exists ps, StronglySorted earlier ps /\
      (forall p, In p ps <-> exists i r a, p = i :: r /\ length pre <= i /\ at_path (Nest (pre ++ l)) p = Some (Leaf a)) /\
      map (at_path (Nest (pre ++ l))) ps = map (fun a => Some (Leaf a)) (flat_map flatten1 l)).
    { induction F as [|y l (qs & S & I & M) F IH]; intros pre.
      - exists []. split; [constructor|]. split; [|reflexivity]. intros p. split; [intros []|]. intros (i & r & a & -> & LE & E). cbn [at_path] in E.
        rewrite app_nil_r in E. destruct (nth_error pre i) eqn:EN; [|discriminate]. assert (i < length pre) by (apply nth_error_Some; congruence). lia.
      - destruct (IH (pre ++ [y])) as (ps & S' & I' & M'). rewrite <- app_assoc in *. cbn [app] in *.
        assert (NY : nth_error (pre ++ y :: l) (length pre) = Some y) by (rewrite nth_error_app2, Nat.sub_diag by lia; reflexivity).
        exists (map (cons (length pre)) qs ++ ps). split; [|split].
        + apply sorted_app; auto.
          * clear - S. induction S as [|q qs S IH F]; cbn [map]; constructor; auto. apply Forall_forall. intros z HZ. apply in_map_iff in HZ.
            destruct HZ as (w & <- & HZ). rewrite Forall_forall in F. apply e_next. auto.
          * intros a b HA HB. apply in_map_iff in HA. destruct HA as (q & <- & _). apply I' in HB. destruct HB as (i & r & _ & -> & LE & _).
            rewrite app_length in LE. simpl in LE. apply e_here. lia.
        + intros p. rewrite in_app_iff, in_map_iff. split.
          * intros [(q & <- & HQ)|HP].
            -- apply I in HQ. destruct HQ as [a HA]. exists (length pre), q, a. split; auto. split; auto. cbn [at_path]. rewrite NY. auto.
            -- apply I' in HP. destruct HP as (i & r & a & -> & LE & E). rewrite app_length in LE. exists i, r, a. split; auto. split; auto. lia.
          * intros (i & r & a & -> & LE & E). destruct (Nat.eq_dec i (length pre)) as [->|NE].
            -- left. exists r. split; auto. apply I. cbn [at_path] in E. rewrite NY in E. eauto.
            -- right. apply I'. exists i, r, a. split; auto. split; auto. rewrite app_length. simpl. lia.
        + rewrite map_app, M'. cbn [flat_map]. rewrite map_app. f_equal. rewrite map_map, <- M. apply map_ext. intros q. cbn [at_path]. rewrite NY. auto. }
    destruct (G []) as (ps & S & I & M). exists ps. split; auto. split; [|exact M]. intros p. rewrite I. split.
    + intros (i & r & a & _ & _ & E). eauto.
    + intros [a E]. destruct p as [|i r]; [discriminate|]. exists i, r, a. split; auto. split; auto. simpl. lia.
Qed.
(** The leaves of a nested list, in reading order, each once. *)
Theorem C61_flatten : forall A (l : list (nested A)), exists ps,
  StronglySorted earlier ps /\ (forall p, In p ps <-> exists a, at_path (Nest l) p = Some (Leaf a)) /\
  map (at_path (Nest l)) ps = map (fun a => Some (Leaf a)) (flatten l).
Proof. intros A l. apply (flatten1_leaves (Nest l)). Qed.

(** ** C76: element-wise operations *)
Lemma qmax_spec a b : (a <= qmax a b)%Qc /\ (b <= qmax a b)%Qc /\ (qmax a b = a \/ qmax a b = b).
Proof.
  unfold qmax. destruct (Qclt_bool a b) eqn:E; [apply Qclt_bool_iff in E|apply Qclt_bool_false in E]; repeat split; auto; try apply Qcle_refl. apply Qclt_le_weak. auto.
Qed.
Lemma qmin_spec a b : (qmin a b <= a)%Qc /\ (qmin a b <= b)%Qc /\ (qmin a b = a \/ qmin a b = b).
Proof.
  unfold qmin. destruct (Qclt_bool b a) eqn:E; [apply Qclt_bool_iff in E|apply Qclt_bool_false in E]; repeat split; auto; try apply Qcle_refl. apply Qclt_le_weak. auto.
Qed.
Lemma map2_spec op x : forall y, length (map2 op x y) = min (length x) (length y) /\
  forall i a b, nth_error x i = Some a -> nth_error y i = Some b -> nth_error (map2 op x y) i = Some (op a b).
Proof.
  unfold map2. intros y. split; [rewrite map_length, combine_length; auto|]. intros i a b HA HB.
  apply (map_nth_error (fun p : Qc * Qc => op (fst p) (snd p)) i (combine x y) (d := (a, b))). rewrite nth_error_combine, HA, HB. auto.
Qed.
(** Entry by entry, as long as both have one, in a container of the same kind. *)
Theorem C76_add_sub : forall x y : list Qc,
  exists z w, elementwise_add (ListV x) (ListV y) = Ok (ListV z) /\ elementwise_add (TupleV x) (TupleV y) = Ok (TupleV z) /\
    elementwise_sub (ListV x) (ListV y) = Ok (ListV w) /\ elementwise_sub (TupleV x) (TupleV y) = Ok (TupleV w) /\
    length z = min (length x) (length y) /\ length w = min (length x) (length y) /\
    forall i a b, nth_error x i = Some a -> nth_error y i = Some b ->
      nth_error z i = Some (a + b)%Qc /\ nth_error w i = Some (a - b)%Qc.
Proof.
  intros x y. exists (map2 Qcplus x y), (map2 Qcminus x y). repeat split; try apply map2_spec; auto.
Qed.
Theorem C76_max_min : forall x y : list Qc, length x = length y ->
  exists z w, elementwise_max (ListV x) (ListV y) = Ok (ListV z) /\ elementwise_max (TupleV x) (TupleV y) = Ok (TupleV z) /\
    elementwise_min (ListV x) (ListV y) = Ok (ListV w) /\ elementwise_min (TupleV x) (TupleV y) = Ok (TupleV w) /\
    length z = length x /\ length w = length x /\
    forall i a b, nth_error x i = Some a -> nth_error y i = Some b ->
      exists m n, nth_error z i = Some m /\ nth_error w i = Some n /\
        (a <= m /\ b <= m /\ (m = a \/ m = b) /\ n <= a /\ n <= b /\ (n = a \/ n = b))%Qc.
Proof.
  intros x y HL. exists (map2 qmax x y), (map2 qmin x y). unfold elementwise_max, elementwise_min, on_sequences, broadcast. rewrite HL, Nat.eqb_refl. cbn [rbind].
  repeat (split; [first [reflexivity | rewrite (proj1 (map2_spec _ x y)), HL; apply Nat.min_id]|]).
  intros i a b HA HB. exists (qmax a b), (qmin a b). split; [apply map2_spec; auto|]. split; [apply map2_spec; auto|].
  destruct (qmax_spec a b) as (? & ? & ?), (qmin_spec a b) as (? & ? & ?). auto 10.
Qed.
(** Lengths that differ (and no single-element sequence) and containers of
    different kinds are refused. *)
Theorem C76_errors : forall x y : list Qc,
  (length x <> length y -> length x <> 1 -> length y <> 1 ->
   elementwise_max (ListV x) (ListV y) = Err ValueError /\ elementwise_max (TupleV x) (TupleV y) = Err ValueError /\
   elementwise_min (ListV x) (ListV y) = Err ValueError /\ elementwise_min (TupleV x) (TupleV y) = Err ValueError) /\
  Forall (fun f => f (ListV x) (TupleV y) = Err TypeError /\ f (TupleV x) (ListV y) = Err TypeError /\
                   (forall v, f OtherV v = Err TypeError) /\ (forall v, f v OtherV = Err TypeError))
    [elementwise_add; elementwise_sub; elementwise_max; elementwise_min].
Proof.
  intros x y. split.
  - intros NE NX NY. assert (G : forall op, broadcast op x y = Err ValueError).
    { intros op. unfold broadcast. apply Nat.eqb_neq in NE. rewrite NE. destruct x as [|a [|a' x]]; [| simpl in NX; congruence|]; destruct y as [|b [|b' y]]; auto; simpl in NY; congruence. }
    unfold elementwise_max, elementwise_min, on_sequences. rewrite !G. auto.
  - repeat constructor; intros; destruct v; reflexivity.
Qed.

(** ** C59: the Optigan service *)
Lemma rmap_all {A B} (f : A -> res B) (g : A -> B) l : (forall a, In a l -> f a = Ok (g a)) -> rmap f l = Ok (map g l).
Proof. induction l as [|a l IH]; intros H; cbn [rmap map]; auto. rewrite H by (simpl; auto). cbn [rbind]. rewrite IH; [reflexivity|]. intros; apply H; simpl; auto. Qed.
Lemma nth_error_ext {A} (l : list A) : forall l', (forall i, nth_error l i = nth_error l' i) -> l = l'.
Proof.
  induction l as [|a l IH]; intros [|b l'] H; auto; try (specialize (H 0); discriminate).
  pose proof (H 0) as H0. cbn in H0. inversion H0. subst. f_equal. apply IH. intros i. apply (H (S i)).
Qed.
Lemma row_of_combine ls x : NoDup ls -> length x = length ls -> row_of ls (combine ls x) = Ok (combine ls x).
Proof.
  intros ND HL. assert (G : forall d ks, (forall k, In k ks -> exists z, dget k d = Some z) ->
    row_of ks d = Ok (map (fun k => (k, match dget k d with Some z => z | None => 0%Z end)) ks)).
  { intros d. induction ks as [|k ks IH]; intros H; cbn [row_of map]; auto. destruct (H k) as [z ->]; [simpl; auto|]. rewrite IH; [reflexivity|]. intros; apply H; simpl; auto. }
  rewrite G.
  - f_equal. apply nth_error_ext. intros i. rewrite nth_error_map, nth_error_combine. destruct (nth_error ls i) as [k|] eqn:EK; cbn [option_map]; auto.
    destruct (nth_error x i) as [z|] eqn:EZ.
    + rewrite (in_dget k z); auto; [unfold dkeys; rewrite map_fst_combine; auto|]. apply nth_error_In with i. rewrite nth_error_combine, EK, EZ. auto.
    + apply nth_error_None in EZ. assert (i < length ls) by (apply nth_error_Some; congruence). lia.
  - intros k HK. apply dget_some_in. unfold dkeys. rewrite map_fst_combine; auto.
Qed.
(** The energy that comes with the first occurrence of [x]. *)
Fixpoint first_energy (xs : list (list Z)) (es : list Qc) (x : list Z) : Qc :=
  match xs, es with
  | y :: xs', e :: es' => if list_eq_dec Z.eq_dec y x then e else first_energy xs' es' x
  | _, _ => 0%Qc
  end.
Lemma first_energy_spec xs : forall es x, length es = length xs -> In x xs ->
  exists j, nth_error xs j = Some x /\ nth_error es j = Some (first_energy xs es x) /\ forall k, k < j -> nth_error xs k <> Some x.
Proof.
  induction xs as [|y xs IH]; intros [|e es] x HL HI; try discriminate; [destruct HI|]. cbn [first_energy].
  destruct (list_eq_dec Z.eq_dec y x) as [->|NE].
  - exists 0. repeat split; auto. intros k LK. lia.
  - destruct HI as [HI|HI]; [congruence|]. destruct (IH es x) as (j & A & B & C); auto. exists (S j). repeat split; auto.
    intros [|k] LK; cbn [nth_error]; [congruence|]. apply C. lia.
Qed.
Lemma first_energy_app done rd x e xs es : length rd = length done -> first_energy (done ++ x :: xs) (rd ++ e :: es) x = e \/ In x done.
Proof.
  revert rd. induction done as [|y done IH]; intros [|r rd] HL; try discriminate; cbn [app first_energy].
  - left. destruct (list_eq_dec Z.eq_dec x x); congruence.
  - destruct (list_eq_dec Z.eq_dec y x) as [->|NE]; [right; simpl; auto|]. destruct (IH rd) as [E|E]; auto. right. simpl. auto.
Qed.
Lemma aggregate_add_known s e e' l : (exists r, In r l /\ sample_eqb (fst (fst r)) s = true) -> aggregate_add s e l = aggregate_add s e' l.
Proof.
  induction l as [|[[s' e0] c] l IH]; intros (r & HI & E); [destruct HI|]. cbn [aggregate_add]. destruct (sample_eqb s' s) eqn:ES; auto.
  f_equal. apply IH. destruct HI as [<-|HI]; [cbn [fst] in E; congruence|]. eauto.
Qed.
Lemma from_samples_spec ls xs es : NoDup ls -> Forall (fun x => length x = length ls) xs -> length es = length xs ->
  exists rows, from_samples (map (combine ls) xs) es = Ok rows /\ agg ls (first_energy xs es) rows xs.
Proof.
  intros ND F HL. unfold from_samples. cbv zeta.
  assert (EK : match map (combine ls) xs with [] => [] | d :: _ => dkeys d end = ls \/ xs = []).
  { destruct xs as [|x xs]; auto. left. cbn [map]. inversion F; subst. unfold dkeys. apply map_fst_combine. auto. }
  assert (ER : rmap (row_of match map (combine ls) xs with [] => [] | d :: _ => dkeys d end) (map (combine ls) xs) = Ok (map (combine ls) xs)).
  { destruct EK as [-> | ->]; [|reflexivity]. rewrite (rmap_all _ (fun d => d)); [rewrite map_id; auto|].
    intros d HD. apply in_map_iff in HD. destruct HD as (x & <- & HX). apply row_of_combine; auto. rewrite Forall_forall in F. auto. }
  match goal with |- context [rmap ?f ?l] => replace (rmap f l) with (@Ok (list (dict string Z)) (map (combine ls) xs)) by (symmetry; exact ER) end.
  cbn [rbind]. rewrite map_length, HL, Nat.eqb_refl. eexists. split; [reflexivity|].
  assert (G : forall xs' es' acc done rd, length rd = length done -> length es' = length xs' -> xs = done ++ xs' -> es = rd ++ es' ->
    agg ls (first_energy xs es) acc done ->
    agg ls (first_energy xs es) (fold_left (fun acc r => aggregate_add (fst r) (snd r) acc) (combine (map (combine ls) xs') es') acc) (done ++ xs')).
  { induction xs' as [|x xs' IH]; intros [|e es'] acc done rd L1 L2 EX EE HA; try discriminate; cbn [map combine fold_left]; [rewrite app_nil_r; auto|].
    assert (LX : length x = length ls) by (rewrite Forall_forall in F; apply F; rewrite EX; apply in_or_app; simpl; auto).
    assert (EA : aggregate_add (combine ls x) e acc = aggregate_add (combine ls x) (first_energy xs es x) acc).
    { rewrite EX, EE. destruct (first_energy_app done rd x e xs' es' L1) as [-> |HI]; auto. apply aggregate_add_known.
      destruct HA as (ys & _ & HF & C). destruct (Forall2_in_r _ _ _ _ HF (C x HI)) as (r & HR & _ & B & _). exists r. split; auto. destruct r as [[s' e'] c']. cbn [fst snd] in *. subst s'. apply combine_eqb; auto. }
    cbn [fst snd]. rewrite EA. specialize (IH es' (aggregate_add (combine ls x) (first_energy xs es x) acc) (done ++ [x]) (rd ++ [e])).
    rewrite <- !app_assoc in IH. cbn [app] in IH. apply IH; auto; [rewrite !app_length, L1; auto|]. apply agg_add; auto. }
  apply (G xs es [] [] []); auto. exists []. split; [constructor|]. split; [constructor|intros ? []].
Qed.

Definition bit (z : Z) : Prop := z = 0%Z \/ z = 1%Z.
(** A model without interactions, an Ising model or something else than a
    physical model is refused and nothing is sent. *)
Theorem C59_rejects : forall n g steps timeout dup,
  optigan_solve n g steps timeout dup None = ([], Err TypeError) /\
  (forall p, p_linear p = [] -> p_quad p = [] -> optigan_solve n g steps timeout dup (Some p) = ([], Err ValueError)) /\
  (forall p, p_mtype p = Ising -> optigan_solve n g steps timeout dup (Some p) = ([], Err ValueError)).
Proof.
  intros. split; auto. unfold optigan_solve. split; intros p H.
  - intros H'. unfold is_empty. rewrite H, H'. auto.
  - destruct (is_empty p); auto. rewrite H. auto.
Qed.
(** Where the endpoint and the token come from: both arguments of the
    constructor if neither is missing or empty, else the configuration file. *)
(** A string that was passed and is not empty. *)
Definition given (o : option string) : Prop := exists s, o = Some s /\ s <> "".
Definition credentials (n : network) (g : optigan) (ek : string * string) : Prop :=
  (g_endpoint g = Some (fst ek) /\ g_token g = Some (snd ek) /\ fst ek <> "" /\ snd ek <> "") \/
  (~ (given (g_endpoint g) /\ given (g_token g)) /\ exists f, g_config g = Some f /\ f <> "" /\ n_file n f = Ok ek).
Lemma truthy_iff o : truthy o = true <-> given o.
Proof.
  unfold given.
  destruct o as [s|]; cbn [truthy]; split; intros H.
  - exists s. split; auto. intros ->. discriminate.
  - destruct H as (t & E & NE). inversion E; subst. apply String.eqb_neq in NE. rewrite NE. auto.
  - discriminate.
  - destruct H as (t & E & _). discriminate.
Qed.
Lemma optigan_sends n g steps timeout dup p t ek : is_empty p = false -> p_mtype p = Qubo -> to_polynomial p = Ok t -> credentials n g ek ->
  optigan_solve n g steps timeout dup (Some p) =
    ([mkRequest (fst ek) (snd ek) steps timeout t dup],
     rbind (n_post n (mkRequest (fst ek) (snd ek) steps timeout t dup)) (fun a =>
       if negb (Z.eqb (a_status a) 200) then Err ValueError else from_samples (map (make_sample p) (a_spins a)) (a_energies a))).
Proof.
  intros HE HT HP HC. unfold optigan_solve. rewrite HE, HT, HP. destruct HC as [(E1 & E2 & N1 & N2)|(NT & f & E & NE & EF)].
  - rewrite (proj2 (truthy_iff (g_endpoint g))) by (unfold given; eauto). rewrite (proj2 (truthy_iff (g_token g))) by (unfold given; eauto). cbn [andb]. rewrite E1, E2. cbn [fst snd]. reflexivity.
  - assert (EB : truthy (g_endpoint g) && truthy (g_token g) = false).
    { apply not_true_is_false. intros X. apply andb_true_iff in X. rewrite !truthy_iff in X. auto. }
    rewrite EB, (proj2 (truthy_iff (g_config g))) by (unfold given; eauto). rewrite E, EF. reflexivity.
Qed.
(** Otherwise exactly one request is sent, with the caller's parameters; its
    polynomial takes, on every 0/1 vector, the energy of the corresponding
    assignment minus the offset. *)
Theorem C59_request : forall n g steps timeout dup p ls ek,
  (p_linear p <> [] \/ p_quad p <> []) -> p_mtype p = Qubo -> well_indexed p ls -> credentials n g ek ->
  exists t, fst (optigan_solve n g steps timeout dup (Some p)) = [mkRequest (fst ek) (snd ek) steps timeout t dup] /\
    forall x, length x = length ls -> Forall bit x ->
      poly_value (vec x) t = (energy_physical (value_of (combine ls x)) p - p_offset p)%Qc.
Proof.
  intros n g steps timeout dup p ls ek HN HT (ND & HM & HI & HO) HC.
  assert (HE : is_empty p = false).
  { unfold is_empty. destruct (p_linear p), (p_quad p); auto. destruct HN; congruence. }
  destruct (proj2 (proj1 (C38_succeeds_iff p))) as [t ET].
  { intros l OC. apply HO in OC. destruct (In_nth_error _ _ OC) as [i Hi]. exists i. apply HM. auto. }
  exists t. split; [rewrite (optigan_sends _ _ _ _ _ _ _ _ HE HT ET HC); auto|]. intros x LX FX.
  assert (HV : forall l, value_of (combine ls x) l = 0%Qc \/ value_of (combine ls x) l = 1%Qc).
  { intros l. unfold value_of. destruct (dget l (combine ls x)) as [z|] eqn:EG; auto. apply dget_in in EG. apply in_combine_r in EG.
    rewrite Forall_forall in FX. destruct (FX z EG) as [-> | ->]; [left|right]; reflexivity. }
  apply C38_value; auto. intros l i HL. apply HM in HL. unfold vec. destruct (nth_error x i) as [z|] eqn:EZ.
  - symmetry. apply value_combine with i; auto.
  - apply nth_error_None in EZ. assert (i < length ls) by (apply nth_error_Some; congruence). lia.
Qed.
(** Without an endpoint and a token, nor a configuration file, the call fails
    and nothing is sent. *)
Theorem C59_no_credentials : forall n g steps timeout dup p,
  ~ (given (g_endpoint g) /\ given (g_token g)) -> ~ given (g_config g) ->
  exists e, optigan_solve n g steps timeout dup (Some p) = ([], Err e).
Proof.
  intros n g steps timeout dup p NT NC. unfold optigan_solve. destruct (is_empty p); eauto. destruct (p_mtype p); eauto. destruct (to_polynomial p); eauto.
  assert (EB : truthy (g_endpoint g) && truthy (g_token g) = false) by (apply not_true_is_false; intros X; apply andb_true_iff in X; rewrite !truthy_iff in X; auto).
  assert (EC : truthy (g_config g) = false) by (apply not_true_is_false; rewrite truthy_iff; auto). rewrite EB, EC. eauto.
Qed.
(** Where a request goes: to the endpoint given to the constructor, with its
    token, if both are given; else to the one in the configuration file named
    in the constructor call; only else to the one in the user's home directory,
    which must exist. *)
Theorem C59_configuration : forall n home_file home config endpoint token steps timeout dup p q rs,
  optigan_solve n (optigan_new home_file home config endpoint token) steps timeout dup (Some p) = ([q], rs) ->
  (given endpoint -> given token -> endpoint = Some (q_endpoint q) /\ token = Some (q_token q)) /\
  (~ (given endpoint /\ given token) -> forall f, config = Some f -> f <> "" -> n_file n f = Ok (q_endpoint q, q_token q)) /\
  (~ (given endpoint /\ given token) -> ~ given config -> home = true /\ n_file n home_file = Ok (q_endpoint q, q_token q)).
Proof.
  intros n home_file home config endpoint token steps timeout dup p q rs E. unfold optigan_solve in E.
  destruct (is_empty p); [inversion E|]. destruct (p_mtype p); [inversion E|]. destruct (to_polynomial p) as [t|]; [|inversion E].
  cbn [optigan_new g_endpoint g_token g_config] in E.
  assert (G : forall x, given x <-> truthy x = true) by (intros x; rewrite truthy_iff; reflexivity).
  rewrite !G. destruct (truthy endpoint && truthy token) eqn:EB.
  - apply andb_true_iff in EB as [E1 E2]. apply truthy_iff in E1 as (e & -> & N1). apply truthy_iff in E2 as (k & -> & N2). inversion E; subst. cbn. split; auto.
    cbn [truthy]. apply String.eqb_neq in N1, N2. rewrite N1, N2. cbn. split; intros H; exfalso; auto.
  - assert (NB : ~ (truthy endpoint = true /\ truthy token = true)) by (intros [X Y]; rewrite X, Y in EB; discriminate).
    split; [intros; exfalso; auto|]. split.
    + intros _ f -> NF. assert (TF : truthy (Some f) = true) by (apply truthy_iff; unfold given; eauto). rewrite TF, TF in E.
      destruct (n_file n f) as [[e k]|]; inversion E; subst. reflexivity.
    + intros _ NC. destruct (truthy config) eqn:EC; [exfalso; auto|]. destruct home; [|inversion E]. split; auto.
      destruct (truthy (Some home_file)); [|inversion E]. destruct (n_file n home_file) as [[e k]|]; inversion E; subst. reflexivity.
Qed.
(** A status other than 200 is an error. *)
Theorem C59_status : forall n g steps timeout dup p q rs a,
  optigan_solve n g steps timeout dup (Some p) = ([q], rs) -> n_post n q = Ok a -> a_status a <> 200%Z -> rs = Err ValueError.
Proof.
  intros n g steps timeout dup p q rs a E EP NS. unfold optigan_solve in E. destruct (is_empty p); [inversion E|]. destruct (p_mtype p); [inversion E|].
  destruct (to_polynomial p); [|inversion E].
  match type of E with (match ?m with _ => _ end) = _ => destruct m as [ek|]; [|inversion E] end.
  inversion E; subst. rewrite EP. cbn [rbind]. apply Z.eqb_neq in NS. rewrite NS. auto.
Qed.
(** The samples: the i-th value of a returned vector goes to the variable of
    index i, each distinct vector becomes one sample, with its number of
    occurrences and the energy that came with its first occurrence. *)
Theorem C59_samples : forall n g steps timeout dup p ls q a rs,
  well_indexed p ls -> optigan_solve n g steps timeout dup (Some p) = ([q], rs) ->
  n_post n q = Ok a -> a_status a = 200%Z ->
  Forall (fun x => length x = length ls) (a_spins a) -> length (a_energies a) = length (a_spins a) ->
  exists rows, rs = Ok rows /\ NoDup (map (fun r : srow => fst (fst r)) rows) /\
    (forall x, In x (a_spins a) -> exists e c, In (combine ls x, e, c) rows) /\
    forall s e c, In (s, e, c) rows ->
      dkeys s = ls /\ c = count_occ (list_eq_dec Z.eq_dec) (a_spins a) (dvals s) /\ 0 < c /\
      exists j, nth_error (a_spins a) j = Some (dvals s) /\ nth_error (a_energies a) j = Some e /\
                forall k, k < j -> nth_error (a_spins a) k <> Some (dvals s).
Proof.
  intros n g steps timeout dup p ls q a rs HW E EP ES FL LE. unfold optigan_solve in E. destruct (is_empty p); [inversion E|]. destruct (p_mtype p); [inversion E|].
  destruct (to_polynomial p); [|inversion E].
  match type of E with (match ?m with _ => _ end) = _ => destruct m as [ek|]; [|inversion E] end.
  injection E as EQ ER. rewrite EQ, EP in ER. cbn [rbind] in ER. rewrite ES, Z.eqb_refl in ER. cbn [negb] in ER.
  assert (EM : map (make_sample p) (a_spins a) = map (combine ls) (a_spins a)).
  { apply map_ext_in. intros x HX. rewrite Forall_forall in FL. apply make_sample_eq; [apply well_indexed_maps|]; auto. }
  pose proof HW as (ND & _). destruct (from_samples_spec ls (a_spins a) (a_energies a) ND FL LE) as (rows & EF & ys & NY & HF & HC).
  exists rows. split; [rewrite <- ER, <- EF; apply (f_equal (fun l => from_samples l (a_energies a))); exact EM|].
  assert (HK : forall y : list Z, length y = length ls -> dkeys (combine ls y) = ls /\ dvals (combine ls y) = y).
  { intros y LY. unfold dkeys, dvals. rewrite map_fst_combine, map_snd_combine; auto. }
  split; [|split].
  - clear HC EF. induction HF as [|[[s e] c] y rows ys (A & B & _) HF IH]; cbn [map]; constructor; inversion NY; subst; auto. cbn [fst snd] in *. subst s.
    intros HI. apply in_map_iff in HI. destruct HI as ([[s' e'] c'] & HS & HI). cbn [fst] in HS. subst s'.
    destruct (Forall2_in_l _ _ _ _ HF HI) as (y' & HY & LY & B & _). cbn [fst] in B. apply H1. 
    apply (f_equal dvals) in B. rewrite (proj2 (HK _ A)), (proj2 (HK _ LY)) in B. subst. auto.
  - intros x HX. destruct (Forall2_in_r _ _ _ _ HF (HC x HX)) as ([[s e] c] & HI & _ & B & _). cbn [fst] in B. subst s. eauto.
  - intros s e c HI. destruct (Forall2_in_l _ _ _ _ HF HI) as (y & HY & LY & B & B2 & B3 & B4). cbn [fst snd] in *. subst s e c.
    destruct (HK _ LY) as [K1 K2]. rewrite K2. split; auto. split; auto. split; auto. apply first_energy_spec; auto.
    apply (count_occ_In (list_eq_dec Z.eq_dec)). exact B4.
Qed.
(** When the energies of the service are the values of the polynomial it was
    sent, the reported energy is the energy of the sample minus the offset. *)
Theorem C59_energy : forall n g steps timeout dup p ls q a rows s e c,
  well_indexed p ls -> optigan_solve n g steps timeout dup (Some p) = ([q], Ok rows) ->
  n_post n q = Ok a -> Forall (fun x => length x = length ls /\ Forall bit x) (a_spins a) ->
  (forall j x e, nth_error (a_spins a) j = Some x -> nth_error (a_energies a) j = Some e -> e = poly_value (vec x) (q_polynomial q)) ->
  In (s, e, c) rows -> (e + p_offset p = energy_physical (value_of s) p)%Qc.
Proof.
  intros n g steps timeout dup p ls q a rows s e c HW E EP FL HE HI.
  assert (ES : a_status a = 200%Z).
  { destruct (Z.eq_dec (a_status a) 200) as [|NS]; auto. pose proof (C59_status _ _ _ _ _ _ _ _ _ E EP NS). discriminate. }
  assert (LE : length (a_energies a) = length (a_spins a)).
  { pose proof E as E'. unfold optigan_solve in E'. destruct (is_empty p); [inversion E'|]. destruct (p_mtype p); [inversion E'|]. destruct (to_polynomial p); [|inversion E'].
    match type of E' with (match ?m with _ => _ end) = _ => destruct m as [ek|]; [|inversion E'] end.
    injection E' as EQ ER. rewrite EQ, EP in ER. cbn [rbind] in ER. rewrite ES, Z.eqb_refl in ER. cbn [negb] in ER.
    unfold from_samples in ER. apply rbind_ok in ER. destruct ER as (rws & E1 & E2). destruct (Nat.eqb (length rws) (length (a_energies a))) eqn:EL; [|discriminate].
    apply Nat.eqb_eq in EL. rewrite <- EL. assert (LR : forall {A B} (f : A -> res B) l r, rmap f l = Ok r -> length r = length l).
    { clear. induction l as [|x l IH]; intros r H; cbn [rmap] in H; [inversion H; auto|]. apply rbind_ok in H. destruct H as (b & _ & H). apply rbind_ok in H. destruct H as (t & H & HR).
      inversion HR; subst. simpl. f_equal. auto. }
    apply LR in E1. rewrite E1, map_length. auto. }
  assert (FL' : Forall (fun x => length x = length ls) (a_spins a)) by (eapply Forall_impl; [|exact FL]; intros x [H _]; exact H).
  destruct (C59_samples _ _ _ _ _ _ _ _ _ _ HW E EP ES FL' LE) as (rows' & ER & _ & _ & H). inversion ER; subst rows'.
  destruct (H _ _ _ HI) as (K & _ & _ & j & J1 & J2 & _). rewrite (HE _ _ _ J1 J2).
  rewrite Forall_forall in FL. destruct (FL _ (nth_error_In _ _ J1)) as [LX BX].
  assert (EC : s = combine ls (dvals s)) by (rewrite <- K; unfold dkeys, dvals; clear; induction s as [|[k v] s IH]; cbn; congruence).
  assert (HN : p_linear p <> [] \/ p_quad p <> []).
  { destruct (p_linear p) eqn:EL; [|left; discriminate]. destruct (p_quad p) eqn:EQ; [|right; discriminate].
    rewrite (proj1 (proj2 (C59_rejects n g steps timeout dup)) p EL EQ) in E. inversion E. }
  assert (HT : p_mtype p = Qubo).
  { destruct (p_mtype p) eqn:ET; auto. rewrite (proj2 (proj2 (C59_rejects n g steps timeout dup)) p ET) in E. inversion E. }
  assert (HC : credentials n g (q_endpoint q, q_token q)).
  { pose proof E as E'. unfold optigan_solve in E'. destruct (is_empty p); [inversion E'|]. rewrite HT in E'. destruct (to_polynomial p); [|inversion E'].
    destruct (truthy (g_endpoint g)) eqn:T1; [destruct (truthy (g_token g)) eqn:T2|]; cbn [andb] in E'.
    - apply truthy_iff in T1, T2. destruct T1 as (e1 & E1 & N1), T2 as (e2 & E2 & N2). rewrite E1, E2 in E'. inversion E'; subst q. left. cbn. auto.
    - destruct (truthy (g_config g)) eqn:T3; [|inversion E']. apply truthy_iff in T3. destruct T3 as (f & E3 & N3). rewrite E3 in E'.
      destruct (n_file n f) as [ek|] eqn:EF; [|inversion E']. inversion E'; subst q. right. split; [rewrite <- !truthy_iff, T2; intros [_ X]; discriminate|]. exists f. cbn. rewrite <- surjective_pairing. auto.
    - destruct (truthy (g_config g)) eqn:T3; [|inversion E']. apply truthy_iff in T3. destruct T3 as (f & E3 & N3). rewrite E3 in E'.
      destruct (n_file n f) as [ek|] eqn:EF; [|inversion E']. inversion E'; subst q. right. split; [rewrite <- !truthy_iff, T1; intros [X _]; discriminate|]. exists f. cbn. rewrite <- surjective_pairing. auto. }
  destruct (C59_request n g steps timeout dup p ls _ HN HT HW HC) as (t & EQ & HP). rewrite E in EQ. cbn [fst] in EQ. injection EQ as EQ. rewrite EQ. cbn [q_polynomial].
  rewrite HP by auto. rewrite <- EC. ring.
Qed.
(** ** C86: Pub/Sub resources *)

(** Project names contain no slash. *)
Fixpoint no_slash (s : string) : Prop := match s with "" => True | String c r => c <> "/"%char /\ no_slash r end.
(** The name of a topic or subscription begins with a character other than a line break. *)
Definition proper_name (t : string) : Prop := exists c r, t = String c r /\ c <> ascii_of_N 10.
(** A resource: a project and the name of a topic ([kind] "topics") or a
    subscription ([kind] "subscriptions"). *)
Definition resource (kind path p t : string) : Prop :=
  path = ("projects/" ++ p ++ "/" ++ kind ++ "/" ++ t)%string /\ p <> "" /\ no_slash p /\ proper_name t.

Lemma append_assoc a : forall b c, ((a ++ b) ++ c = a ++ (b ++ c))%string.
Proof. induction a; intros; cbn; [auto|f_equal; auto]. Qed.
Lemma strip_some p : forall s r, strip_prefix p s = Some r <-> s = (p ++ r)%string.
Proof.
  induction p as [|c p IH]; intros [|d s] r; cbn; try (split; congruence).
  destruct (Ascii.eqb_spec c d) as [->|N].
  - rewrite IH. split; congruence.
  - split; [discriminate|]. intros E. injection E as E _. congruence.
Qed.
Lemma from_slash_split p : forall r, no_slash p -> from_slash (p ++ String "/" r) = String "/" r.
Proof. induction p as [|c p IH]; intros r H; cbn in *; auto. destruct H as [H H']. destruct (Ascii.eqb_spec c "/"%char); [contradiction|auto]. Qed.
Lemma from_slash_inv s : exists p, no_slash p /\ s = (p ++ from_slash s)%string.
Proof.
  induction s as [|c s (p & NP & E)]; cbn; [exists ""; cbn; auto|].
  destruct (Ascii.eqb_spec c "/"%char) as [->|N]; [exists ""; cbn; auto|].
  exists (String c p). cbn. split; [auto|congruence].
Qed.
Lemma path_ok_iff kind path : path_ok kind path = true <-> exists p t, resource kind path p t.
Proof.
  unfold path_ok. split.
  - destruct (strip_prefix "projects/" path) as [[|c r]|] eqn:E1; try discriminate. intros H. apply andb_prop in H. destruct H as [HC H].
    destruct (strip_prefix ("/" ++ kind ++ "/") (from_slash r)) as [[|d u]|] eqn:E2; try discriminate.
    apply strip_some in E1, E2. destruct (from_slash_inv r) as (p & NP & ER). rewrite E2 in ER.
    exists (String c p), (String d u). split; [|split; [discriminate|split]].
    + rewrite E1, ER. replace (("/" ++ kind ++ "/") ++ String d u)%string with ("/" ++ kind ++ "/" ++ String d u)%string; [reflexivity|].
      cbn [String.append]. rewrite append_assoc. reflexivity.
    + cbn. split; auto. intros ->. rewrite Ascii.eqb_refl in HC. discriminate.
    + exists d, u. split; auto. unfold newline in H. destruct (Ascii.eqb_spec d (ascii_of_N 10)); [discriminate|auto].
  - intros (p & t & -> & NE & NS & d & u & -> & NL).
    assert (E1 : strip_prefix "projects/" ("projects/" ++ p ++ "/" ++ kind ++ "/" ++ String d u) = Some (p ++ "/" ++ kind ++ "/" ++ String d u)%string) by (apply strip_some; reflexivity).
    rewrite E1. destruct p as [|c p]; [contradiction|]. cbn [String.append]. destruct NS as [NC NS].
    destruct (Ascii.eqb_spec c "/"%char); [contradiction|]. cbn [negb andb].
    rewrite from_slash_split by auto.
    assert (E2 : strip_prefix (String "/" (kind ++ "/")) (String "/" (kind ++ String "/" (String d u))) = Some (String d u)).
    { apply strip_some. cbn [String.append]. f_equal. rewrite append_assoc. reflexivity. }
    rewrite E2. unfold newline. destruct (Ascii.eqb_spec d (ascii_of_N 10)); [contradiction|reflexivity].
Qed.
Lemma until_slash p : forall q x y, no_slash p -> no_slash q -> (p ++ String "/" x = q ++ String "/" y)%string -> p = q /\ x = y.
Proof.
  induction p as [|c p IH]; intros [|d q] x y NP NQ E; cbn in *.
  - injection E as <-. auto.
  - injection E as E _. destruct NQ. congruence.
  - injection E as E _. destruct NP. congruence.
  - injection E as <- E. destruct NP as [_ NP], NQ as [_ NQ]. destruct (IH q x y NP NQ E) as [-> ->]. auto.
Qed.
(** A path names at most one resource. *)
Lemma resource_unique k path p t q u : resource k path p t -> resource k path q u -> p = q /\ t = u.
Proof.
  intros (-> & _ & NP & _) (E & _ & NQ & _). cbn [String.append] in E. injection E as E.
  destruct (until_slash _ _ _ _ NP NQ E) as [-> E']. split; auto.
  clear -E'. induction k; cbn in E'; injection E'; auto.
Qed.

(** With a topic the messages of the topic are read, whatever the subscription;
    with a subscription alone those of the subscription; with neither it is an
    error. A project or name that does not make a resource is refused. *)
Theorem C86_source : forall project,
  (forall t s, let path := ("projects/" ++ project ++ "/topics/" ++ t)%string in
     ((exists p n, resource "topics" path p n) /\ pubsub_source project (Some t) s = Ok (Topic path)) \/
     (~ (exists p n, resource "topics" path p n) /\ pubsub_source project (Some t) s = Err ValueError)) /\
  (forall s, let path := ("projects/" ++ project ++ "/subscriptions/" ++ s)%string in
     ((exists p n, resource "subscriptions" path p n) /\ pubsub_source project None (Some s) = Ok (Subscription path)) \/
     (~ (exists p n, resource "subscriptions" path p n) /\ pubsub_source project None (Some s) = Err ValueError)) /\
  (exists e, pubsub_source project None None = Err e).
Proof.
  intros project. split; [|split].
  - intros t s path. unfold pubsub_source. fold path. destruct (path_ok "topics" path) eqn:E.
    + left. split; auto. apply path_ok_iff. exact E.
    + right. split; auto. rewrite <- path_ok_iff. congruence.
  - intros s path. unfold pubsub_source. fold path. destruct (path_ok "subscriptions" path) eqn:E.
    + left. split; auto. apply path_ok_iff. exact E.
    + right. split; auto. rewrite <- path_ok_iff. congruence.
  - eexists. reflexivity.
Qed.
(** With a project name without slashes: neither the project nor the name may be
    empty, and then it is the resource of that project with that name. *)
Theorem C86_names : forall kind project t, no_slash project ->
  ((exists p n, resource kind ("projects/" ++ project ++ "/" ++ kind ++ "/" ++ t) p n) <-> project <> "" /\ proper_name t) /\
  (forall p n, resource kind ("projects/" ++ project ++ "/" ++ kind ++ "/" ++ t) p n -> p = project /\ n = t).
Proof.
  intros kind project t NS.
  assert (U : forall p n, resource kind ("projects/" ++ project ++ "/" ++ kind ++ "/" ++ t) p n -> p = project /\ n = t).
  { intros p n (E & _ & NP & _). cbn [String.append] in E. injection E as E. destruct (until_slash _ _ _ _ NS NP E) as [-> E']. split; auto.
    clear -E'. induction kind; cbn in E'; injection E'; auto. }
  split; auto. split.
  - intros (p & n & R). destruct (U _ _ R) as [-> ->]. destruct R as (_ & N & _ & P). auto.
  - intros [N P]. exists project, t. repeat split; auto.
Qed.
(** What is written to a topic is read back from it: reading accepts and refuses the same names. *)
Theorem C86_roundtrip : forall project topic s,
  pubsub_source project (Some topic) s = match pubsub_sink project topic with Ok path => Ok (Topic path) | Err e => Err e end.
Proof. intros. unfold pubsub_source, pubsub_sink. destruct (path_ok _ _); reflexivity. Qed.
(** Another project or topic is another resource. *)
Theorem C86_distinct : forall p q t u path, no_slash p -> no_slash q -> pubsub_sink p t = Ok path -> pubsub_sink q u = Ok path -> p = q /\ t = u.
Proof.
  intros p q t u path NP NQ E E'. unfold pubsub_sink in *. destruct (path_ok "topics" ("projects/" ++ p ++ "/topics/" ++ t)); [|discriminate].
  destruct (path_ok "topics" ("projects/" ++ q ++ "/topics/" ++ u)); [|discriminate]. injection E as E. injection E' as E'. rewrite <- E in E'. clear E. cbn [String.append] in E'. injection E' as E'.
  change ((q ++ String "/" ("topics/" ++ u))%string = (p ++ String "/" ("topics/" ++ t))%string) in E'.
  destruct (until_slash _ _ _ _ NQ NP E') as [-> E2]. cbn [String.append] in E2. injection E2 as ->. auto.
Qed.
Theorem C86_subscription : forall p q s u k l r, no_slash p -> no_slash q ->
  pubsub_source p None (Some s) = Ok r -> pubsub_source q k l = Ok r -> p = q /\ k = None /\ l = Some s /\ r <> Topic u.
Proof.
  intros p q s u k l r NP NQ E E'. unfold pubsub_source in *. destruct (path_ok "subscriptions" ("projects/" ++ p ++ "/subscriptions/" ++ s)); [|discriminate].
  injection E as <-. destruct k as [t|]; [destruct (path_ok _ _); discriminate|]. destruct l as [s'|]; [|discriminate].
  destruct (path_ok "subscriptions" ("projects/" ++ q ++ "/subscriptions/" ++ s')); [|discriminate]. injection E' as E'.
  change ((q ++ String "/" ("subscriptions/" ++ s'))%string = (p ++ String "/" ("subscriptions/" ++ s))%string) in E'.
  destruct (until_slash _ _ _ _ NQ NP E') as [-> E2]. cbn [String.append] in E2. injection E2 as ->. repeat split; auto. discriminate.
Qed.
Example C86_hyps : no_slash "proj-1" /\ proper_name "t/1" /\ pubsub_sink "proj-1" "t/1" = Ok "projects/proj-1/topics/t/1" /\
  pubsub_source "p" None (Some "s") = Ok (Subscription "projects/p/subscriptions/s") /\
  pubsub_source "" (Some "t") None = Err ValueError /\ pubsub_sink "test-project" "" = Err ValueError /\
  (* with a slash in the project the path may name another resource *)
  resource "topics" "projects/a/topics/b/topics/c" "a" "b/topics/c" /\ pubsub_sink "a/topics/b" "c" = Ok "projects/a/topics/b/topics/c".
Proof. repeat split; try discriminate. - exists "t"%char, "/1". split; [reflexivity|discriminate]. - exists "b"%char, "/topics/c". split; [reflexivity|discriminate]. Qed.

Print Assumptions C57_numbers.
Print Assumptions C57_unique.
Print Assumptions C57_limit.
Print Assumptions C57_roundtrip.
Print Assumptions C61_flatten.
Print Assumptions C76_add_sub.
Print Assumptions C76_max_min.
Print Assumptions C76_errors.
Print Assumptions C59_rejects.
Print Assumptions C59_request.
Print Assumptions C59_no_credentials.
Print Assumptions C59_configuration.
Print Assumptions C59_status.
Print Assumptions C59_samples.
Print Assumptions C59_energy.
Print Assumptions C86_source.
Print Assumptions C86_names.
Print Assumptions C86_roundtrip.
Print Assumptions C86_distinct.
Print Assumptions C86_subscription.
