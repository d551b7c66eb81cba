(** * PropsDeclare: C80 - declaring variables. *)
From Verif Require Import PyBase PyLemmas Constraint LogicalModel Spec LogicalProofs EnergyProofs ConvertProofs
  ConstraintProofs MergeProofs PhysicalProofs ToPhysicalProofs InteractionProofs Samples PropsPhysical PropsInteractions PropsState.
Local Open Scope string_scope.
Local Open Scope list_scope.

(** ** C80 *)

Lemma sh_ints_plain l d : sh_ints false l = Some d <-> l = map ShInt d.
Proof.
  revert d. induction l as [|x l IH]; intros d; cbn [sh_ints].
  - split; [intros E; injection E as <-; reflexivity|]. destruct d; [reflexivity|discriminate].
  - destruct x as [z|z|].
    + destruct (sh_ints false l) as [d'|] eqn:E.
      * split; [intros X; injection X as <-; cbn [map]; f_equal; now apply IH|]. destruct d as [|y d]; cbn [map]; [discriminate|].
        intros X. injection X as <- X. apply IH in X. injection X as ->. reflexivity.
      * split; [discriminate|]. destruct d as [|y d]; cbn [map]; [discriminate|]. intros X. injection X as _ X. apply IH in X. discriminate.
    + split; [discriminate|]. destruct d; discriminate.
    + split; [discriminate|]. destruct d; discriminate.
Qed.
Lemma create_iff n d vt : (exists a, array_create n d vt = Ok a) <-> has_char "*"%char n = false /\ d <> [] /\ Forall (fun z => (0 < z)%Z) d.
Proof.
  split.
  - intros [a E]. destruct (array_create_bits _ _ _ _ E) as (_ & H1 & H2). split; auto. unfold array_create in E. destruct (has_char "*"%char n); [discriminate|auto].
  - intros (H1 & H2 & H3). now apply array_create_ok.
Qed.

(** The array declared under a name: for each multi-index inside the shape, and no
    other, the variable name[i][j]... of the model's type; as many variables as the
    product of the dimensions, all with different labels. *)
Definition declares (n : string) (d : list Z) (vt : vtype) (a : array) : Prop :=
  a_shape a = d /\
  (forall idx, inside idx d -> array_get a idx = Ok (element n vt idx)) /\
  (forall idx, ~ inside idx d -> array_get a idx = Err IndexError) /\
  (forall v, In v (a_bits a) <-> exists idx, inside idx d /\ v = element n vt idx) /\
  Z.of_nat (length (a_bits a)) = fold_right Z.mul 1%Z d /\ NoDup (map v_label (a_bits a)).

Lemma indices_length sh : length (indices sh) = fold_right Nat.mul 1 sh.
Proof.
  induction sh as [|n sh IH]; cbn [indices fold_right]; auto. rewrite <- IH. generalize 0. induction n as [|n IHn]; intros k; auto.
  cbn [seq flat_map]. rewrite app_length, map_length, IHn. cbn [Nat.mul]. lia.
Qed.
Lemma flat_pos_none sh : forall idx, ~ Forall2 (fun i n => i < n) idx sh -> flat_pos sh idx = None.
Proof.
  induction sh as [|n sh IH]; intros [|i idx] H; cbn [flat_pos]; auto; [destruct H; constructor|].
  destruct (i <? n)%nat eqn:L; auto. apply Nat.ltb_lt in L. rewrite IH; auto.
Qed.
Lemma create_declares n d vt a : array_create n d vt = Ok a -> declares n d vt a.
Proof.
  intros E. destruct (array_create_bits _ _ _ _ E) as (HB & HN & HP). pose proof (array_create_shape _ _ _ _ E) as HS.
  split; [auto|]. split; [intros idx HI; eapply array_get_create; eauto|]. split; [|split; [|split]].
  - intros idx HI. unfold array_get. rewrite HS, flat_pos_none; auto. intros F. apply HI. now apply inside_nat.
  - intros v. rewrite HB, in_map_iff. split.
    + intros (idx & <- & HI). exists idx. split; auto. now apply inside_nat, in_indices_iff.
    + intros (idx & HI & ->). exists idx. split; auto. now apply in_indices_iff, inside_nat.
  - rewrite HB, map_length, indices_length. clear - HP. induction HP as [|z d Hz HP IH]; auto. cbn [map fold_right]. rewrite Nat2Z.inj_mul, IH, Z2Nat.id by lia. reflexivity.
  - rewrite HB, map_map. cbn [v_label]. apply FinFun.Injective_map_NoDup.
    + intros x y EQ. apply append_inj_l in EQ. now apply brackets_inj.
    + apply indices_nodup.
Qed.

Theorem C80_succeeds_iff : forall n sh m,
  (exists m', variables (VName n) sh m = (m', Ok tt)) <->
  exists d, sh = ShTuple (map ShInt d) /\ d <> [] /\ Forall (fun z => (0 < z)%Z) d /\ has_char "*" n = false.
Proof.
  intros n sh m. cbn [variables]. split.
  - intros [m' E]. destruct sh as [l|]; cbn [check_shape] in E; [|discriminate]. destruct l as [|x l]; [discriminate|].
    set (l' := x :: l) in *. destruct (sh_ints false l') as [d|] eqn:ES; [|discriminate]. apply sh_ints_plain in ES.
    destruct (array_create n d _) as [a|] eqn:EA; [|discriminate].
    destruct (proj1 (create_iff n d (vt_of (m_mtype m)))) as (H1 & H2 & H3); eauto. exists d. rewrite ES. auto.
  - intros (d & -> & HN & HP & HS). assert (EC : check_shape false (ShTuple (map ShInt d)) = Ok d).
    { cbn [check_shape]. rewrite (proj2 (sh_ints_plain _ _) eq_refl). destruct d; [congruence|reflexivity]. }
    rewrite EC. destruct (proj2 (create_iff n d (vt_of (m_mtype m)))) as [a ->]; eauto.
Qed.
Theorem C80_effect : forall n d m m', variables (VName n) (ShTuple (map ShInt d)) m = (m', Ok tt) ->
  exists a, m' = with_vars (m_vars m') m /\ dget n (m_vars m') = Some a /\ declares n d (kind_of (m_mtype m)) a /\
    forall k, k <> n -> dget k (m_vars m') = dget k (m_vars m).
Proof.
  intros n d m m' E. cbn [variables] in E.
  assert (EC : check_shape false (ShTuple (map ShInt d)) = match d with [] => Err TypeError | _ => Ok d end).
  { cbn [check_shape]. rewrite (proj2 (sh_ints_plain _ _) eq_refl). destruct d; reflexivity. }
  rewrite EC in E. destruct d as [|z d]; [discriminate|]. set (d' := z :: d) in *.
  destruct (array_create n d' (vt_of (m_mtype m))) as [a|] eqn:EA; [|discriminate]. injection E as <-.
  exists a. split; [reflexivity|]. cbn [m_vars with_vars]. split; [apply dget_dset_same|]. split; [now apply create_declares|].
  intros k Hk. now apply dget_dset_other.
Qed.
(** An array of variables of one type, all called n[...]. *)
Definition array_of (n : string) (vt : vtype) (a : array) : Prop :=
  a_bits a <> [] /\ has_char "[" n = false /\ Forall (fun v => v_type v = vt /\ exists r, v_label v = n +++ "[" +++ r) (a_bits a).
Theorem C80_array : forall n vt a sh m, array_of n vt a ->
  (vt = kind_of (m_mtype m) -> variables (VArray a) sh m = (with_vars (dset n a (m_vars m)) m, Ok tt)) /\
  (vt <> kind_of (m_mtype m) -> variables (VArray a) sh m = (m, Err TypeError)).
Proof.
  intros n vt a sh m (H1 & H2 & H3). change kind_of with vt_of. cbn [variables]. destruct (a_bits a) as [|v l]; [congruence|].
  inversion H3 as [|? ? (HT & r & HL) _]; subst. split; intros HV.
  - rewrite HV. assert (E : vtype_eqb (vt_of (m_mtype m)) (vt_of (m_mtype m)) = true) by (destruct (vt_of (m_mtype m)); reflexivity). rewrite E. cbn [negb].
    rewrite HL. change ("[" +++ r) with (String "["%char r). rewrite before_char_app; auto.
  - assert (E : vtype_eqb (v_type v) (vt_of (m_mtype m)) = false) by (destruct (v_type v), (vt_of (m_mtype m)); try reflexivity; congruence). rewrite E. reflexivity.
Qed.
(** A rejected declaration changes nothing, and ill-typed arguments are TypeErrors. *)
Theorem C80_rejected : forall n sh m,
  (forall m' e, variables n sh m = (m', Err e) -> m' = m) /\ (forall m' e, append n sh m = (m', Err e) -> m' = m) /\
  variables VNameBad sh m = (m, Err TypeError) /\ append VNameBad sh m = (m, Err TypeError) /\
  (forall s, (sh = ShBad \/ exists l, sh = ShTuple l /\ (l = [] \/ In ShBadElem l)) ->
     variables (VName s) sh m = (m, Err TypeError) /\ append (VName s) sh m = (m, Err TypeError)).
Proof.
  intros n sh m.
  assert (HV : forall n m' e, variables n sh m = (m', Err e) -> m' = m).
  { clear n. intros n m' e. destruct n as [s|a|]; cbn [variables].
    - destruct (check_shape false sh) as [d|]; [|now intros E; injection E as <- _]. destruct (array_create _ _ _); intros E; [discriminate|now injection E as <- _].
    - destruct (a_bits a) as [|v l]; [now intros E; injection E as <- _|]. destruct (negb _); [now intros E; injection E as <- _|].
      destruct (before_char _ _); intros E; [discriminate|now injection E as <- _].
    - now intros E; injection E as <- _. }
  split; [intros m' e; apply HV|]. split; [|split; [reflexivity|split; [reflexivity|]]].
  - intros m' e. unfold append. destruct n as [s|a|]; try (now intros E; injection E as <- _).
    destruct (check_shape true sh); [|now intros E; injection E as <- _]. destruct (dget s (m_vars m)) as [b|]; [|apply HV].
    destruct (array_create _ _ _); intros E; [discriminate|now injection E as <- _].
  - intros s HS. assert (HC : forall b, check_shape b sh = Err TypeError).
    { intros b. destruct HS as [->|(l & -> & HL)]; [reflexivity|]. destruct HL as [->|HL]; [reflexivity|].
      assert (HN : sh_ints b l = None).
      { clear HV. induction l as [|x l IH]; [destruct HL|]. destruct HL as [->|HL]; [reflexivity|]. specialize (IH HL). destruct x; cbn [sh_ints]; rewrite ?IH; auto. destruct b; auto. }
      cbn [check_shape]. rewrite HN. destruct l; reflexivity. }
    cbn [variables append]. now rewrite !HC.
Qed.
(** Only the first variable of an array is looked at: a variable of the other type
    can be declared behind it. *)
Theorem C80_mixed_array_refuted : exists a m',
  variables (VArray a) (ShTuple []) (new_model Ising) = (m', Ok tt) /\
  exists v, In v (a_bits a) /\ v_type v <> kind_of (m_mtype m') /\ dget "x" (m_vars m') = Some a.
Proof.
  exists (mkArray [2%Z] [mkVar "x[0]" Spin; mkVar "x[1]" Binary]). eexists. split; [reflexivity|].
  exists (mkVar "x[1]" Binary). split; [right; now left|]. split; [discriminate|reflexivity].
Qed.
(** A tuple of python or numpy integers, and its values. *)
Definition integers (sh : sharg) (d : list Z) : Prop :=
  exists l, sh = ShTuple l /\ Forall2 (fun x z => x = ShInt z \/ x = ShNpInt z) l d.
Lemma sh_ints_any l : forall d, sh_ints true l = Some d <-> Forall2 (fun x z => x = ShInt z \/ x = ShNpInt z) l d.
Proof.
  induction l as [|x l IH]; intros d; cbn [sh_ints].
  - split; [intros E; injection E as <-; constructor|]. intros H. inversion H. reflexivity.
  - split.
    + destruct x as [z|z|]; [| |discriminate]; (destruct (sh_ints true l) as [d'|] eqn:E; [|discriminate]; intros X; injection X as <-; constructor; [auto|now apply IH]).
    + intros H. inversion H as [|? y ? d' HX HF]; subst. apply IH in HF. rewrite HF. destruct HX as [-> | ->]; reflexivity.
Qed.
Lemma append_exact : forall n sh m,
  ((exists m', append (VName n) sh m = (m', Ok tt)) <->
   exists d, integers sh d /\ d <> [] /\ has_char "*" n = false /\
     match dget n (m_vars m) with
     | None => sh = ShTuple (map ShInt d) /\ Forall (fun z => (0 < z)%Z) d
     | Some a => a_shape a <> [] /\ Forall (fun z => (0 < z)%Z) (elementwise_add (a_shape a) d)
     end) /\
  (forall m' d, append (VName n) sh m = (m', Ok tt) -> integers sh d ->
     exists a', m' = with_vars (dset n a' (m_vars m)) m /\
       declares n (match dget n (m_vars m) with None => d | Some a => elementwise_add (a_shape a) d end) (vt_of (m_mtype m)) a').
Proof.
  assert (HC : forall sh d, integers sh d -> d <> [] -> check_shape true sh = Ok d).
  { intros sh d (l & -> & HF) HN. cbn [check_shape]. apply sh_ints_any in HF. rewrite HF. destruct l; [|reflexivity]. cbn [sh_ints] in HF. injection HF as <-. congruence. }
  assert (HC' : forall sh d, check_shape true sh = Ok d -> integers sh d /\ d <> []).
  { intros [l|] d E; [|discriminate]. destruct l as [|x l]; [discriminate|]. cbn [check_shape] in E. destruct (sh_ints true (x :: l)) as [d'|] eqn:ES; [|discriminate]. injection E as ->. apply sh_ints_any in ES.
    split; [exists (x :: l); auto|]. inversion ES. discriminate. }
  assert (HU : forall sh d d', integers sh d -> integers sh d' -> d = d').
  { intros sh d d' (l & -> & H1) (l' & E & H2). injection E as <-. apply sh_ints_any in H1, H2. congruence. }
  intros n sh m. split; [split|].
  - intros [m' E]. unfold append in E. destruct (check_shape true sh) as [d|] eqn:ES; [|discriminate]. destruct (HC' _ _ ES) as [HI HN]. exists d. split; auto. split; auto.
    destruct (dget n (m_vars m)) as [a|] eqn:EG.
    + destruct (array_create n _ _) as [a'|] eqn:EA; [|discriminate]. destruct (proj1 (create_iff n (elementwise_add (a_shape a) d) (vt_of (m_mtype m)))) as (H1 & H2 & H3); eauto.
      split; auto. split; auto. intros X. rewrite X in H2. apply H2. reflexivity.
    + destruct (proj1 (C80_succeeds_iff n sh m)) as (d' & -> & N' & P' & S'); eauto. split; auto.
      assert (d = d') as ->; [|auto]. apply (HU (ShTuple (map ShInt d'))); auto. exists (map ShInt d'). split; auto. clear. induction d'; constructor; auto.
  - intros (d & HI & HN & HS & H). unfold append. rewrite (HC _ _ HI HN). destruct (dget n (m_vars m)) as [a|] eqn:EG.
    + destruct H as [H1 H2]. destruct (proj2 (create_iff n (elementwise_add (a_shape a) d) (vt_of (m_mtype m)))) as [a' ->]; [|eauto]. split; auto. split; auto.
      destruct (a_shape a), d; cbn; congruence.
    + destruct H as [-> HP]. apply C80_succeeds_iff. eauto 6.
  - intros m' d E HI. unfold append in E. destruct (check_shape true sh) as [d'|] eqn:ES; [|discriminate]. destruct (HC' _ _ ES) as [HI' HN]. assert (d' = d) as -> by (apply (HU sh); auto).
    destruct (dget n (m_vars m)) as [a|] eqn:EG.
    + destruct (array_create n _ _) as [a'|] eqn:EA; [|discriminate]. injection E as <-. exists a'. split; auto. apply create_declares, EA.
    + assert (sh = ShTuple (map ShInt d)) as ->.
      { destruct (proj1 (C80_succeeds_iff n sh m)) as (d' & -> & _); eauto. f_equal. f_equal. apply (HU (ShTuple (map ShInt d'))); auto. exists (map ShInt d'). split; auto. clear. induction d'; constructor; auto. }
      cbn [variables check_shape] in E. rewrite (proj2 (sh_ints_plain _ d) eq_refl) in E. destruct d as [|z d]; [congruence|]. cbn [map] in E.
      destruct (array_create n (z :: d) _) as [a'|] eqn:EA; [|discriminate]. injection E as <-. exists a'. split; auto. apply create_declares, EA.
Qed.
(** The sums of the dimensions of two shapes. *)
Definition summed (a b : list Z) : list Z := map (fun p => (fst p + snd p)%Z) (combine a b).
Lemma summed_add a b : summed a b = elementwise_add a b.
Proof. unfold summed, elementwise_add. revert b. induction a as [|x a IH]; intros [|y b]; cbn; auto. f_equal. apply IH. Qed.
(** append succeeds exactly for a non-empty tuple of integers (for a name that is already declared, python or numpy ones)
    such that the resulting dimensions are positive; the array then is the one declared with these dimensions. *)
Theorem C33_exact : forall n sh m,
  ((exists m', append (VName n) sh m = (m', Ok tt)) <->
   exists d, integers sh d /\ d <> [] /\ has_char "*" n = false /\
     match dget n (m_vars m) with
     | None => sh = ShTuple (map ShInt d) /\ Forall (fun z => (0 < z)%Z) d
     | Some a => a_shape a <> [] /\ Forall (fun z => (0 < z)%Z) (summed (a_shape a) d)
     end) /\
  (forall m' d, append (VName n) sh m = (m', Ok tt) -> integers sh d ->
     exists a', m' = with_vars (dset n a' (m_vars m)) m /\
       declares n (match dget n (m_vars m) with None => d | Some a => summed (a_shape a) d end) (kind_of (m_mtype m)) a').
Proof.
  intros n sh m. destruct (append_exact n sh m) as [H1 H2]. change kind_of with vt_of. split.
  - rewrite H1. split; intros (d & A & B & C & D); exists d; destruct (dget n (m_vars m)); rewrite ?summed_add in *; auto.
  - intros m' d E HI. specialize (H2 m' d E HI). destruct (dget n (m_vars m)); rewrite ?summed_add; exact H2.
Qed.
Example C33_exact_hyps : exists m m', dget "x" (m_vars m) <> None /\ append (VName "x") (ShTuple [ShNpInt 1; ShInt 0]) m = (m', Ok tt) /\ integers (ShTuple [ShNpInt 1; ShInt 0]) [1%Z; 0%Z].
Proof.
  exists (fst (variables (VName "x") (ShTuple [ShInt 2; ShInt 2]) (new_model Ising))). eexists. split; [discriminate|]. split; [reflexivity|]. eexists. split; [reflexivity|]. constructor; [right; reflexivity|]. constructor; [left; reflexivity|constructor].
Qed.
Example C80_hyps : (exists m', variables (VName "y") (ShTuple (map ShInt [2%Z; 3%Z])) (new_model Qubo) = (m', Ok tt)) /\
  array_of "x" Spin (mkArray [2%Z] [mkVar "x[0]" Spin; mkVar "x[1]" Spin]) /\ Spin <> kind_of (m_mtype (new_model Qubo)) /\ Spin = kind_of (m_mtype (new_model Ising)).
Proof.
  split; [eexists; reflexivity|]. split; [|split; [discriminate|reflexivity]].
  split; [discriminate|]. split; [reflexivity|]. repeat constructor; [now exists "0]" | now exists "1]"].
Qed.
Print Assumptions C80_succeeds_iff.
Print Assumptions C80_effect.
Print Assumptions C80_array.
Print Assumptions C80_rejected.
Print Assumptions C80_mixed_array_refuted.
Print Assumptions C33_exact.
