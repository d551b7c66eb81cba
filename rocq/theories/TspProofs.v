(** * TspProofs: a compiler that meets the assumption of TspSpec, and the value
    of the Hamiltonian of the sample. *)
From Coq Require Import Permutation Sorted.
From Verif Require Import PyBase PyLemmas Numbers Constraint LogicalModel Spec LogicalProofs EnergyProofs ConvertProofs ConstraintProofs MergeProofs
  PhysicalProofs PropsPhysical PropsInteractions PropsState PropsPyqubo Samples Solver SolverSpec SolverProofs PropsSolver
  Npp Services ServicesSpec PropsServices PropsSolvers Stream StreamSpec NppStream PropsNpp Tsp TspSpec.
Local Open Scope string_scope.
Local Open Scope list_scope.

(** ** A reference compiler

    It multiplies out and collects the terms over the same pair of labels. *)
Definition bit_label (b : string * list nat) : string := fst b +++ brackets (snd b).
Definition mono := (list (string * list nat) * coef)%type.
Fixpoint expand (e : expr) : list mono :=
  match e with
  | ENum q => [([], CNum q)]
  | EPlace p => [([], CPh p)]
  | EBit n idx => [([(n, idx)], CNum 1%Qc)]
  | EAdd a b => expand a ++ expand b
  | EMul a b => flat_map (fun p => map (fun q => (fst p ++ fst q, cmul (snd p) (snd q))) (expand b)) (expand a)
  | EConstr _ e => expand e
  end.
Definition pair_key (a b : string) : string * string := if String.ltb b a then (b, a) else (a, b).
Fixpoint add_term (k : string * string) (c : coef) (l : list ((string * string) * coef)) : list ((string * string) * coef) :=
  match l with
  | [] => [(k, c)]
  | (k', c') :: r =>
      if String.eqb (fst k) (fst k') && String.eqb (snd k) (snd k') then (k', cadd c' c) :: r
      else (k', c') :: add_term k c r
  end.
Definition put_mono (pq : pqmodel) (m : mono) : pqmodel :=
  match fst m with
  | [] => mkPq (pq_terms pq) (pq_struct pq) (cadd (pq_offset pq) (snd m))
  | [a] => mkPq (add_term (bit_label a, bit_label a) (snd m) (pq_terms pq)) (dset (bit_label a) a (pq_struct pq)) (pq_offset pq)
  | [a; b] => mkPq (add_term (pair_key (bit_label a) (bit_label b)) (snd m) (pq_terms pq))
                   (dset (bit_label b) b (dset (bit_label a) a (pq_struct pq))) (pq_offset pq)
  | _ => pq
  end.
Definition compile_ref : compiler := fun e => fold_left put_mono (expand e) (mkPq [] [] (CNum 0%Qc)).

Definition mono_value (fd : feed) (x : assignment) (m : mono) : Qc :=
  (value fd (snd m) * fold_right (fun b acc => x (bit_label b) * acc)%Qc 1%Qc (fst m))%Qc.
Lemma prod_app x (a b : list (string * list nat)) :
  fold_right (fun b acc => x (bit_label b) * acc)%Qc 1%Qc (a ++ b) =
  (fold_right (fun b acc => x (bit_label b) * acc) 1 a * fold_right (fun b acc => x (bit_label b) * acc) 1 b)%Qc.
Proof. induction a as [|y a IH]; cbn [app fold_right]; [ring|rewrite IH; ring]. Qed.
Lemma qsum_cons c l : qsum (c :: l) = (c + qsum l)%Qc.
Proof. reflexivity. Qed.
Lemma qsum_nil : qsum [] = 0%Qc.
Proof. reflexivity. Qed.
Lemma qsum_flat_map {A} (f : A -> list Qc) l : qsum (flat_map f l) = qsum (map (fun a => qsum (f a)) l).
Proof. induction l as [|a l IH]; cbn [flat_map map]; auto. rewrite qsum_app, qsum_cons, IH. reflexivity. Qed.
Lemma map_flat_map {A B C} (g : B -> C) (f : A -> list B) l : map g (flat_map f l) = flat_map (fun a => map g (f a)) l.
Proof. induction l as [|a l IH]; cbn [flat_map map]; auto. rewrite map_app, IH. reflexivity. Qed.
Lemma expand_eval fd x e : qsum (map (mono_value fd x) (expand e)) = eval fd x e.
Proof.
  induction e as [q|p|n idx|a IHa b IHb|a IHa b IHb|l e IH]; cbn [expand eval]; auto.
  - cbn [map]. rewrite qsum_cons, qsum_nil. unfold mono_value. cbn [fst snd fold_right]. rewrite value_num. ring.
  - cbn [map]. rewrite qsum_cons, qsum_nil. unfold mono_value. cbn [fst snd fold_right]. ring.
  - cbn [map]. rewrite qsum_cons, qsum_nil. unfold mono_value. cbn [fst snd fold_right]. rewrite value_num. unfold bit_label. cbn [fst snd]. ring.
  - rewrite map_app, qsum_app, IHa, IHb. reflexivity.
  - rewrite map_flat_map, qsum_flat_map.
    rewrite (qsum_map_ext _ (fun p => eval fd x b * mono_value fd x p)%Qc).
    + rewrite qsum_map_mul, IHa. ring.
    + intros p _. rewrite map_map. rewrite <- IHb, Qcmult_comm, <- qsum_map_mul. apply qsum_map_ext. intros q _.
      unfold mono_value. cbn [fst snd]. rewrite value_cmul, prod_app. ring.
Qed.
Lemma expand_degree e m : In m (expand e) -> length (fst m) <= degree e.
Proof.
  revert m. induction e as [q|p|n idx|a IHa b IHb|a IHa b IHb|l e IH]; intros m; cbn [expand degree]; try (intros [<-|[]]; cbn; lia); auto.
  - rewrite in_app_iff. intros [H|H]; [apply IHa in H | apply IHb in H]; lia.
  - intros H. apply in_flat_map in H as (p & Hp & H). apply in_map_iff in H as (q & <- & Hq). cbn [fst]. rewrite app_length.
    apply IHa in Hp. apply IHb in Hq. lia.
Qed.
Lemma expand_bits e m b : In m (expand e) -> In b (fst m) -> In b (bits_of e).
Proof.
  revert m. induction e as [q|p|n idx|a IHa b' IHb|a IHa b' IHb|l e IH]; intros m; cbn [expand bits_of]; try (intros [<-|[]]; cbn; tauto); eauto.
  - rewrite !in_app_iff. intros [H|H] HB; eauto.
  - intros H. apply in_flat_map in H as (p & Hp & H). apply in_map_iff in H as (q & <- & Hq). cbn [fst]. rewrite !in_app_iff. intros [H|H]; eauto.
Qed.
Lemma given_add fd a b : (forall p, In p (places a ++ places b) -> dget p fd <> None) -> all_given fd a /\ all_given fd b.
Proof. intros H. split; intros p Hp; apply H, in_app_iff; auto. Qed.
Lemma expand_resolves fd e m : all_given fd e -> In m (expand e) -> resolves fd (snd m).
Proof.
  revert m. induction e as [q|p|n idx|a IHa b' IHb|a IHa b' IHb|l e IH]; intros m G; cbn [expand]; try (intros [<-|[]]; cbn [snd]); auto.
  - unfold resolves. cbn. discriminate.
  - apply (G p). now left.
  - unfold resolves. cbn. discriminate.
  - apply given_add in G as [Ga Gb]. rewrite in_app_iff. intros [H|H]; auto.
  - apply given_add in G as [Ga Gb]. intros H. apply in_flat_map in H as (p & Hp & H). apply in_map_iff in H as (q & <- & Hq). cbn [snd].
    apply resolves_cmul. auto.
Qed.

(** Collecting terms. *)
Lemma add_term_energy fd x k c l : resolves fd c -> (forall k' c', In (k', c') l -> resolves fd c') ->
  qubo_terms fd x (add_term k c l) = (qubo_terms fd x l + value fd c * (x (fst k) * x (snd k)))%Qc.
Proof.
  intros Hc. unfold qubo_terms. induction l as [|[k' c'] l IH]; intros HR; cbn [add_term].
  - cbn. ring.
  - destruct (String.eqb (fst k) (fst k') && String.eqb (snd k) (snd k')) eqn:E.
    + apply andb_true_iff in E as [E1 E2]. apply String.eqb_eq in E1, E2. cbn [map fst snd]. rewrite !qsum_cons.
      rewrite value_cadd; [|eapply HR; now left|auto]. rewrite E1, E2. ring.
    + cbn [map fst snd]. rewrite !qsum_cons, IH; [ring|]. intros; eapply HR; right; eauto.
Qed.
Lemma add_term_resolves fd k c l : resolves fd c -> (forall k' c', In (k', c') l -> resolves fd c') ->
  forall k' c', In (k', c') (add_term k c l) -> resolves fd c'.
Proof.
  intros Hc. induction l as [|[k1 c1] l IH]; intros HR k' c'; cbn [add_term].
  - intros [E|[]]. now injection E as <- <-.
  - destruct (String.eqb (fst k) (fst k1) && String.eqb (snd k) (snd k1)).
    + intros [E|H]; [|eapply HR; right; eauto]. injection E as <- <-. apply resolves_cadd. split; auto. eapply HR. now left.
    + intros [E|H]; [injection E as <- <-; eapply HR; now left|]. eapply IH; eauto. intros; eapply HR; right; eauto.
Qed.
Lemma add_term_keys k c l t : In t (map fst (add_term k c l)) <-> In t (map fst l) \/ t = k.
Proof.
  induction l as [|[k1 c1] l IH]; cbn [add_term map fst].
  - cbn. intuition.
  - destruct (String.eqb (fst k) (fst k1) && String.eqb (snd k) (snd k1)) eqn:E.
    + apply andb_true_iff in E as [E1 E2]. apply String.eqb_eq in E1, E2. assert (k = k1) by (destruct k, k1; cbn in *; congruence).
      subst. cbn. intuition.
    + cbn [map fst In]. rewrite IH. intuition.
Qed.
Lemma add_term_nodup k c l : NoDup (map fst l) -> NoDup (map fst (add_term k c l)).
Proof.
  induction l as [|[k1 c1] l IH]; cbn [add_term map fst]; intros H.
  - repeat constructor; auto.
  - inversion H as [|? ? N1 N2]; subst. destruct (String.eqb (fst k) (fst k1) && String.eqb (snd k) (snd k1)) eqn:E; cbn [map fst].
    + constructor; auto.
    + constructor; auto. rewrite add_term_keys. intros [C|C]; auto. subst k1. rewrite !String.eqb_refl in E. discriminate.
Qed.
Lemma label_irrefl a : String.ltb a a = false.
Proof. apply ltb_irrefl. Qed.
Lemma pair_key_ordered a b : String.ltb (snd (pair_key a b)) (fst (pair_key a b)) = false.
Proof.
  unfold pair_key. destruct (String.ltb b a) eqn:E; cbn [fst snd]; auto.
  destruct (string_dec a b) as [->|N]; [apply label_irrefl|]. rewrite (ltb_total a b N), E. reflexivity.
Qed.
Lemma pair_key_labels a b l : (l = fst (pair_key a b) \/ l = snd (pair_key a b)) <-> (l = a \/ l = b).
Proof. unfold pair_key. destruct (String.ltb b a); cbn; tauto. Qed.
Lemma pair_key_value x a b : (x (fst (pair_key a b)) * x (snd (pair_key a b)) = x a * x b)%Qc.
Proof. unfold pair_key. destruct (String.ltb b a); cbn; ring. Qed.
Section run.
  Variable B : list (string * list nat).
  Record ok_pq (pq : pqmodel) : Prop := {
    ok_struct : structured pq;
    ok_labels : forall k l, In k (map fst (pq_terms pq)) -> l = fst k \/ l = snd k ->
      exists b, In b B /\ l = bit_label b /\ dget l (pq_struct pq) = Some b;
    ok_nodup : NoDup (map fst (pq_terms pq));
    ok_order : forall k, In k (map fst (pq_terms pq)) -> String.ltb (snd k) (fst k) = false }.
  Lemma struct_dset pq b ts o : structured pq -> structured (mkPq ts (dset (bit_label b) b (pq_struct pq)) o).
  Proof.
    intros H l n idx. cbn [pq_struct]. destruct (String.eqb_spec l (bit_label b)) as [->|N].
    - rewrite dget_dset_same. intros E. injection E as ->. reflexivity.
    - rewrite dget_dset_other by auto. apply H.
  Qed.
  Lemma dget_dset_bit l b st : In b B -> (exists b0, In b0 B /\ l = bit_label b0 /\ dget l st = Some b0) ->
    exists b0, In b0 B /\ l = bit_label b0 /\ dget l (dset (bit_label b) b st) = Some b0.
  Proof.
    intros HB (b0 & H1 & H2 & H3). destruct (String.eqb_spec l (bit_label b)) as [E|N].
    - exists b. rewrite E, dget_dset_same. auto.
    - exists b0. rewrite dget_dset_other by auto. auto.
  Qed.
  Lemma put_ok pq m : ok_pq pq -> (forall b, In b (fst m) -> In b B) -> ok_pq (put_mono pq m).
  Proof.
    intros [S L N O] HB. unfold put_mono. destruct m as [[|a [|b [|? ?]]] c]; cbn [fst snd] in *; [constructor; auto| | |constructor; auto].
    - constructor; cbn [pq_terms pq_struct].
      + now apply struct_dset.
      + intros k l Hk Hl. apply add_term_keys in Hk as [Hk| ->].
        * apply dget_dset_bit; [apply HB; now left|]. eapply L; eauto.
        * exists a. split; [apply HB; now left|]. cbn [fst snd] in Hl. assert (l = bit_label a) as -> by tauto. split; auto. apply dget_dset_same.
      + now apply add_term_nodup.
      + intros k Hk. apply add_term_keys in Hk as [Hk| ->]; auto. cbn. apply label_irrefl.
    - constructor; cbn [pq_terms pq_struct].
      + apply (struct_dset (mkPq (pq_terms pq) (dset (bit_label a) a (pq_struct pq)) (pq_offset pq))). now apply struct_dset.
      + intros k l Hk Hl. apply add_term_keys in Hk as [Hk| ->].
        * apply dget_dset_bit; [apply HB; right; now left|]. apply dget_dset_bit; [apply HB; now left|]. eapply L; eauto.
        * apply (proj1 (pair_key_labels _ _ _)) in Hl as [-> | ->].
          -- apply dget_dset_bit; [apply HB; right; now left|]. exists a. split; [apply HB; now left|]. split; auto. apply dget_dset_same.
          -- exists b. split; [apply HB; right; now left|]. split; auto. apply dget_dset_same.
      + now apply add_term_nodup.
      + intros k Hk. apply add_term_keys in Hk as [Hk| ->]; auto. apply pair_key_ordered.
  Qed.
End run.
Definition res_pq (fd : feed) (pq : pqmodel) : Prop :=
  resolves fd (pq_offset pq) /\ forall k c, In (k, c) (pq_terms pq) -> resolves fd c.
Lemma put_res fd pq m : res_pq fd pq -> resolves fd (snd m) -> res_pq fd (put_mono pq m).
Proof.
  intros [R1 R2] Hm. unfold put_mono. destruct m as [[|a [|b [|? ?]]] c]; cbn [fst snd] in *; split; cbn [pq_terms pq_offset]; auto.
  - apply resolves_cadd. auto.
  - now apply add_term_resolves.
  - now apply add_term_resolves.
Qed.
Lemma put_energy fd x pq m : binary x -> res_pq fd pq -> resolves fd (snd m) -> length (fst m) <= 2 ->
  qubo_energy fd x (put_mono pq m) = (qubo_energy fd x pq + mono_value fd x m)%Qc.
Proof.
  intros HX [R1 R2] Hm HL. unfold put_mono, qubo_energy, mono_value. destruct m as [[|a [|b [|? ?]]] c]; cbn [fst snd length fold_right pq_terms pq_offset] in *; [| | |lia].
  - rewrite value_cadd by auto. ring.
  - rewrite add_term_energy by auto. cbn [fst snd]. destruct (HX (bit_label a)) as [-> | ->]; ring.
  - rewrite add_term_energy by auto. rewrite pair_key_value. ring.
Qed.
Theorem compile_ref_ok : pyqubo_compiler compile_ref.
Proof.
  intros e HD _.
  assert (G1 : forall l pq, ok_pq (bits_of e) pq -> (forall m, In m l -> In m (expand e)) -> ok_pq (bits_of e) (fold_left put_mono l pq)).
  { induction l as [|m l IH]; intros pq HO HI; cbn [fold_left]; auto. apply IH; [|intros; apply HI; now right].
    apply put_ok; auto. intros b Hb. eapply expand_bits; eauto. apply HI. now left. }
  assert (G2 : forall fd l pq, all_given fd e -> res_pq fd pq -> (forall m, In m l -> In m (expand e)) -> res_pq fd (fold_left put_mono l pq) /\
     forall x, binary x -> qubo_energy fd x (fold_left put_mono l pq) = (qubo_energy fd x pq + qsum (map (mono_value fd x) l))%Qc).
  { intros fd. induction l as [|m l IH]; intros pq HG HR HI; cbn [fold_left map].
    - split; auto. intros. cbn. ring.
    - assert (Hm : resolves fd (snd m)) by (eapply expand_resolves; eauto; apply HI; now left).
      destruct (IH (put_mono pq m)) as [A1 A2]; auto; [now apply put_res|intros; apply HI; now right|].
      split; auto. intros x HX. rewrite A2, qsum_cons, put_energy; auto; [ring|].
      etransitivity; [apply (expand_degree e); apply HI; now left|auto]. }
  assert (O0 : ok_pq (bits_of e) (mkPq [] [] (CNum 0%Qc))).
  { constructor; cbn; [intros ? ? ?; discriminate|tauto|constructor|tauto]. }
  assert (R0 : forall fd, res_pq fd (mkPq [] [] (CNum 0%Qc))) by (intros fd; split; [unfold resolves; cbn; discriminate|intros ? ? []]).
  destruct (G1 (expand e) _ O0 (fun _ h => h)) as [S L N O]. fold (compile_ref e) in S, L, N, O. constructor; auto.
  - intros a b c l HI HL. destruct (L (a, b) l) as ([n idx] & H1 & H2 & H3); auto; [now apply (in_map fst) in HI|]. exists n, idx. auto.
  - revert N O. generalize (pq_terms (compile_ref e)). clear. induction l as [|[k c] l IH]; intros N O; constructor.
    + apply Forall_forall. intros [k' c'] HI. cbn [fst]. inversion N as [|? ? N1 N2]; subst. apply (in_map fst) in HI. cbn [fst] in HI.
      intros [-> | E]; [contradiction|]. destruct k' as [p q]. cbn [fst snd] in E. subst k.
      pose proof (O (q, p) (or_introl eq_refl)) as O1. pose proof (O (p, q) (or_intror HI)) as O2. cbn [fst snd] in O1, O2.
      destruct (string_dec p q) as [->|D]; [contradiction|]. rewrite (ltb_total p q D), O2 in O1. discriminate.
    + apply IH; [now inversion N|]. intros; apply O; now right.
  - intros fd G. apply (G2 fd (expand e) _ G (R0 fd)). auto.
  - intros fd x G HX. unfold compile_ref. destruct (G2 fd (expand e) _ G (R0 fd) (fun _ h => h)) as [_ A]. rewrite (A x HX), expand_eval.
    unfold qubo_energy, qubo_terms. cbn [pq_terms pq_offset map]. rewrite qsum_nil, value_num. ring.
Qed.

(** ** The Hamiltonian of the sample *)
Lemma eval_esum {X} fd x (f : X -> expr) l : forall acc, eval fd x (esum f acc l) = (eval fd x acc + qsum (map (fun i => eval fd x (f i)) l))%Qc.
Proof.
  unfold esum. induction l as [|i l IH]; intros acc; cbn [fold_left map]; [rewrite qsum_nil; ring|]. rewrite IH, qsum_cons. cbn [eval]. ring.
Qed.
(** Expressions of degree two over an n x n array named city, with the placeholders of the sample. *)
Definition tame (n d : nat) (e : expr) : Prop :=
  degree e <= d /\ (forall b, In b (bits_of e) -> exists i j, b = ("city", [i; j]) /\ i < n /\ j < n).
Lemma tame_add n d a b : tame n d a -> tame n d b -> tame n d (EAdd a b).
Proof. intros [A1 A2] [B1 B2]. split; cbn; [lia|]. intros c Hc. apply in_app_iff in Hc as [H|H]; auto. Qed.
Lemma tame_mul n d1 d2 a b : tame n d1 a -> tame n d2 b -> tame n (d1 + d2) (EMul a b).
Proof. intros [A1 A2] [B1 B2]. split; cbn; [lia|]. intros c Hc. apply in_app_iff in Hc as [H|H]; auto. Qed.
Lemma tame_num n d q : tame n d (ENum q).
Proof. split; cbn; [lia|tauto]. Qed.
Lemma tame_place n d p : tame n d (EPlace p).
Proof. split; cbn; [lia|tauto]. Qed.
Lemma tame_bit n i j : i < n -> j < n -> tame n 1 (bit i j).
Proof. intros. split; cbn; [lia|]. intros b [<-|[]]. eauto. Qed.
Lemma tame_esum {X} n d (f : X -> expr) l : forall acc, tame n d acc -> (forall i, In i l -> tame n d (f i)) -> tame n d (esum f acc l).
Proof.
  unfold esum. induction l as [|i l IH]; intros acc HA HF; cbn [fold_left]; auto. apply IH; [|intros; apply HF; now right].
  apply tame_add; auto. apply HF. now left.
Qed.
Lemma places_esum {X} (f : X -> expr) l : forall acc, places acc = [] -> (forall i, In i l -> places (f i) = []) -> places (esum f acc l) = [].
Proof.
  unfold esum. induction l as [|i l IH]; intros acc HA HF; cbn [fold_left]; auto. apply IH; [|intros; apply HF; now right].
  cbn [places]. rewrite HA, HF; auto. now left.
Qed.
Lemma tame_one_hot n f : (forall i, i < n -> tame n 1 (f i)) -> tame n 2 (one_hot n f).
Proof.
  intros H. unfold one_hot. apply (tame_mul n 1 1); (apply tame_add; [|apply tame_num]; apply tame_esum; [apply tame_num|]);
    intros i Hi; apply in_seq in Hi; apply H; lia.
Qed.
Lemma places_one_hot n f : (forall i, i < n -> places (f i) = []) -> places (one_hot n f) = [].
Proof.
  intros H. unfold one_hot. cbn [places]. rewrite !places_esum; auto; intros i Hi; apply in_seq in Hi; apply H; lia.
Qed.
Lemma eval_one_hot fd x n f : eval fd x (one_hot n f) = sq (sum_ n (fun i => eval fd x (f i)) - 1)%Qc.
Proof. unfold one_hot, sq, sum_. cbn [eval]. rewrite eval_esum. cbn [eval]. ring. Qed.
Lemma eval_bit fd x i j : eval fd x (bit i j) = at_ x i j.
Proof. reflexivity. Qed.
Lemma sum_ext n f g : (forall i, i < n -> f i = g i) -> sum_ n f = sum_ n g.
Proof. intros H. apply qsum_map_ext. intros i Hi. apply in_seq in Hi. apply H. lia. Qed.

Lemma tame_time n : tame n 2 (time_const n).
Proof.
  apply tame_esum; [apply tame_num|]. intros i Hi. apply in_seq in Hi. destruct (tame_one_hot n (fun j => bit i j)) as [A B].
  - intros j Hj. apply tame_bit; lia.
  - split; auto.
Qed.
Lemma tame_city n : tame n 2 (city_const n).
Proof.
  apply tame_esum; [apply tame_num|]. intros j Hj. apply in_seq in Hj. destruct (tame_one_hot n (fun i => bit i j)) as [A B].
  - intros i Hi. apply tame_bit; lia.
  - split; auto.
Qed.
Lemma places_time n : places (time_const n) = [].
Proof. apply places_esum; auto. intros i _. cbn [places]. now apply places_one_hot. Qed.
Lemma places_city n : places (city_const n) = [].
Proof. apply places_esum; auto. intros i _. cbn [places]. now apply places_one_hot. Qed.
Lemma eval_time fd x n : eval fd x (time_const n) = sum_ n (fun k => sq (sum_ n (fun j => at_ x k j) - 1))%Qc.
Proof.
  unfold time_const. rewrite eval_esum. cbn [eval]. rewrite Qcplus_0_l. apply sum_ext. intros i _. apply eval_one_hot.
Qed.
Lemma eval_city fd x n : eval fd x (city_const n) = sum_ n (fun j => sq (sum_ n (fun k => at_ x k j) - 1))%Qc.
Proof.
  unfold city_const. rewrite eval_esum. cbn [eval]. rewrite Qcplus_0_l. apply sum_ext. intros i _. apply eval_one_hot.
Qed.

(** The loops over distances. *)
Lemma rfold_sum (f : expr -> nat -> res expr) (g : feed -> assignment -> nat -> Qc) (P : expr -> Prop) n : forall acc,
  (forall acc i, i < n -> P acc -> exists e, f acc i = Ok e /\ P e /\ forall fd x, eval fd x e = (eval fd x acc + g fd x i)%Qc) -> P acc ->
  exists e, rfold f acc (seq 0 n) = Ok e /\ P e /\ forall fd x, eval fd x e = (eval fd x acc + sum_ n (g fd x))%Qc.
Proof.
  intros acc HF HP.
  destruct (rfold_seq (fun i e => P e /\ forall fd x, eval fd x e = (eval fd x acc + qsum (map (g fd x) (seq 0 i)))%Qc) f acc 0 n) as (e & E1 & E2 & E3).
  - split; auto. intros. cbn [seq map]. rewrite qsum_nil. ring.
  - intros i t Hi [H1 H2]. destruct (HF t i) as (e & A1 & A2 & A3); auto; [lia|]. exists e. split; auto. split; auto.
    intros fd x. rewrite A3, H2. rewrite seq_S, map_app, qsum_app. cbn [map Nat.add]. rewrite qsum_cons, qsum_nil. ring.
  - exists e. split; auto.
Qed.
Lemma distance_ok geo cs n (D : nat -> nat -> Qc) :
  (forall i j, i < n -> j < n -> leg geo (nth i cs []) (nth j cs []) = Ok (D i j / qz 100)%Qc) ->
  exists e, traveling_distance geo cs n = Ok e /\ tame n 2 e /\ places e = [] /\
    forall fd x, eval fd x e = sum_ n (fun k => sum_ n (fun i => sum_ n (fun j => D i j / qz 100 * (at_ x k i * at_ x ((k + 1) mod n) j))))%Qc.
Proof.
  intros HL. unfold traveling_distance.
  destruct (rfold_sum (fun acc i => rfold (fun acc j => rfold (fun acc k =>
    rbind (leg geo (nth i cs []) (nth j cs [])) (fun d => Ok (EAdd acc (EMul (EMul (ENum d) (bit k i)) (bit ((k + 1) mod n) j))))) acc (seq 0 n)) acc (seq 0 n))
    (fun fd x i => sum_ n (fun j => sum_ n (fun k => D i j / qz 100 * (at_ x k i * at_ x ((k + 1) mod n) j))))%Qc
    (fun e => tame n 2 e /\ places e = []) n (ENum 0%Qc)) as (e & E1 & (E2 & E2') & E3).
  - intros acc i Hi HP. apply (rfold_sum _ (fun fd x j => sum_ n (fun k => D i j / qz 100 * (at_ x k i * at_ x ((k + 1) mod n) j)))%Qc); auto.
    clear acc HP. intros acc j Hj HP. apply (rfold_sum _ (fun fd x k => D i j / qz 100 * (at_ x k i * at_ x ((k + 1) mod n) j))%Qc); auto.
    clear acc HP. intros acc k Hk [HP1 HP2]. rewrite HL by auto. cbn [rbind]. eexists. split; [reflexivity|]. split; [split|].
    + apply tame_add; auto. apply (tame_mul n 1 1); [|apply tame_bit; auto; apply Nat.mod_upper_bound; lia].
      apply (tame_mul n 0 1); [apply tame_num|now apply tame_bit].
    + cbn [places]. rewrite HP2. reflexivity.
    + intros fd x. cbn [eval]. rewrite !eval_bit. ring.
  - split; [apply tame_num|reflexivity].
  - exists e. split; auto. split; auto. split; auto. intros fd x. rewrite E3. cbn [eval]. rewrite Qcplus_0_l. unfold sum_.
    rewrite (qsum_map_ext _ (fun i => qsum (map (fun k => qsum (map (fun j => D i j / qz 100 * (at_ x k i * at_ x ((k + 1) mod n) j)) (seq 0 n))) (seq 0 n)))%Qc).
    + apply qsum_swap.
    + intros i _. apply qsum_swap.
Qed.
Lemma hamiltonian_ok geo cs n (D : nat -> nat -> Qc) :
  (forall i j, i < n -> j < n -> leg geo (nth i cs []) (nth j cs []) = Ok (D i j / qz 100)%Qc) ->
  exists d, traveling_distance geo cs n = Ok d /\ tame n 2 (hamiltonian n d) /\
    (forall p, In p (places (hamiltonian n d)) -> p = "time" \/ p = "city") /\
    forall fd x, eval fd x (hamiltonian n d) = tsp_energy D n (value fd (CPh "time")) (value fd (CPh "city")) x.
Proof.
  intros HL. destruct (distance_ok geo cs n D HL) as (d & E1 & E2 & E3 & E4). exists d. split; auto. split; [|split].
  - apply tame_add; [apply tame_add; auto|].
    + apply (tame_mul n 0 2); [apply tame_place|apply tame_time].
    + apply (tame_mul n 0 2); [apply tame_place|apply tame_city].
  - cbn [hamiltonian places]. rewrite E3, places_time, places_city. cbn. intuition.
  - intros fd x. unfold hamiltonian, tsp_energy. cbn [eval]. rewrite E4, eval_time, eval_city. ring.
Qed.

(** ** Loading the compiled Hamiltonian *)
Lemma wf_none : attrs_wf AtNone.
Proof. intros d H. discriminate. Qed.
Lemma loaded ev pq l : forall m m' l', aligned m -> names_unique m -> pq_loop ev m pq l = (m', l', Ok tt) ->
  aligned m' /\ names_unique m' /\ exists new, m_rows m' = m_rows m ++ new /\
    forall r, In r new -> r_removed r = false /\ r_scale r = CNum 1%Qc /\ (forall a b, r_key r = K2 a b -> a <> b) /\
      exists k c, In (k, c) l /\ r_coef r = cneg c.
Proof.
  induction l as [|[k c] l IH]; intros m m' l' HA HU E.
  - cbn in E. injection E as <- <-. split; auto. split; auto. exists []. rewrite app_nil_r. split; auto. intros r [].
  - cbn [pq_loop] in E. destruct (pq_step ev m pq (k, c)) as [[m1 c1] [[]|e]] eqn:E1; [|discriminate].
    destruct (pq_loop ev m1 pq l) as [[m2 l2] r2] eqn:E2. injection E as <- <- ->.
    unfold pq_step in E1. destruct k as [k0 k1]. destruct (pq_lookup m pq k0) as [t0|]; [|discriminate].
    destruct (pq_lookup m pq k1) as [t1|]; [|discriminate].
    match type of E1 with (let (_, _) := ?a in _) = _ => destruct a as [m3 r3] eqn:EA end.
    assert (m1 = m3 /\ r3 = Ok tt) as [-> ->] by (inversion E1; auto). clear E1.
    destruct (C03_effect _ _ _ _ _ _ _ _ _ HA wf_none EA) as (c0 & s0 & i & dn & nm & EC & ES & HD & _ & HN & ER & _ & AL & _).
    injection EC as <-. injection ES as <-.
    assert (HU3 : names_unique m3).
    { unfold names_unique, names in *. rewrite ER, map_app. cbn [map r_name]. apply NoDup_app_iff. split; auto. split; [repeat constructor; auto|].
      intros x Hx [<-|[]]. contradiction. }
    destruct (IH _ _ _ AL HU3 E2) as (A1 & A2 & new & A3 & A4). split; auto. split; auto.
    eexists (_ :: new). split; [rewrite A3, ER, <- app_assoc; reflexivity|]. intros r [<-|Hr].
    + cbn [r_removed r_scale r_key r_coef]. split; auto. split; auto. split; [|exists (k0, k1), c; split; [now left|auto]].
      intros a b EK. inversion HD; subst i; cbn [inter_key] in EK; [discriminate| |]; injection EK as <- <-; intros EQ;
        rewrite EQ, label_irrefl in *; discriminate.
    + destruct (A4 r Hr) as (B1 & B2 & B5 & k' & c' & B3 & B4). split; auto. split; auto. split; auto. exists k', c'. split; [right; auto|auto].
Qed.
Lemma star_label b : fst b = "city" -> has_char "*"%char (bit_label b) = false.
Proof.
  intros H. unfold bit_label. rewrite H, has_char_app. cbn [orb]. generalize (snd b). intros l.
  assert (G : has_char "*"%char (brackets l) = false); [|rewrite G; reflexivity].
  induction l as [|i l IH]; auto. cbn [brackets]. rewrite !has_char_app, IH. rewrite str_of_nat_no_char; [reflexivity|].
  intros d H'. intros <-. cbn in H'. intuition discriminate.
Qed.
Definition city_array (n : nat) (t : mtype) : array :=
  mkArray [Z.of_nat n; Z.of_nat n] (map (fun idx => mkVar ("city" +++ brackets idx) (vt_of t)) (indices (map Z.to_nat [Z.of_nat n; Z.of_nat n]))).
Lemma create_city n t : 0 < n -> array_create "city" [Z.of_nat n; Z.of_nat n] (vt_of t) = Ok (city_array n t).
Proof. intros H. unfold array_create. cbn [has_char]. cbn. destruct (Z.ltb_spec 0 (Z.of_nat n)); [reflexivity|lia]. Qed.
Lemma append_city n t : 0 < n -> append (VName "city") (ShTuple [ShInt (Z.of_nat n); ShInt (Z.of_nat n)]) (new_model t) =
  (with_vars [("city", city_array n t)] (new_model t), Ok tt).
Proof.
  intros H. unfold append. cbn [check_shape sh_ints]. cbn [m_vars new_model dget]. unfold variables. cbn [check_shape sh_ints].
  cbn [m_mtype]. rewrite create_city by auto. reflexivity.
Qed.
(** The model a mapping returns. *)
Record tsp_model (t : mtype) (D : nat -> nat -> Qc) (n : nat) (m : lmodel) : Prop := {
  tm_type : m_mtype m = t;
  tm_aligned : aligned m;
  tm_names : names_unique m;
  tm_constrs : m_constrs m = [];
  tm_resolved : forall fd, dget "time" fd <> None -> dget "city" fd <> None -> resolved fd m;
  tm_pairs : forall r a b, In r (m_rows m) -> r_key r = K2 a b -> a <> b;
  tm_removed : forall r, In r (m_rows m) -> r_removed r = false;
  tm_energy : forall fd x T C, dget "time" fd = Some T -> dget "city" fd = Some C -> binary x ->
    energy fd x m = tsp_energy D n T C x }.
Lemma rmap_coords els : (forall e, In e els -> exists v, coordinates e = Ok v) ->
  exists cs, rmap coordinates els = Ok cs /\ length cs = length els /\
    forall i e, nth_error els i = Some e -> coordinates e = Ok (nth i cs []).
Proof.
  induction els as [|e els IH]; intros H.
  - exists []. split; auto. split; auto. intros [|i] e E; discriminate.
  - destruct (H e (or_introl eq_refl)) as (v & Ev). destruct IH as (cs & E1 & E2 & E3); [intros; apply H; right; auto|].
    exists (v :: cs). cbn [rmap rbind]. rewrite Ev. cbn [rbind]. rewrite E1. split; [reflexivity|]. split; [cbn; auto|].
    intros [|i] e' E; cbn in *; [congruence|eauto].
Qed.
Lemma located_coords e la lo : located e la lo -> exists more, coordinates e = Ok (lo :: la :: more).
Proof. intros (n & more & more' & E). exists more. unfold coordinates. rewrite E. reflexivity. Qed.
Lemma km_leg geo a b d va vb : km_between geo a b d -> coordinates a = Ok va -> coordinates b = Ok vb -> leg geo va vb = Ok (d / qz 100)%Qc.
Proof.
  intros (la & oa & lb & ob & H1 & H2 & H3) Ha Hb. apply located_coords in H1 as (x & E1). apply located_coords in H2 as (y & E2).
  rewrite E1 in Ha. rewrite E2 in Hb. injection Ha as <-. injection Hb as <-. unfold leg. cbn. rewrite H3. reflexivity.
Qed.
Lemma mapping_ok compile geo ev prev els D :
  pyqubo_compiler compile -> els <> [] ->
  (forall i j a b, nth_error els i = Some a -> nth_error els j = Some b -> km_between geo a b (D i j)) ->
  exists m, tsp_mapping compile geo ev prev els = Ok m /\ tsp_model (m_mtype prev) D (length els) m.
Proof.
  intros HC HE HL. set (n := length els). assert (Hn : 0 < n) by (destruct els; [congruence|cbn; lia]).
  destruct (rmap_coords els) as (cs & E1 & E2 & E3).
  { intros e He. apply In_nth_error in He as (i & Hi). destruct (HL i i e e Hi Hi) as (la & oa & _ & _ & H1 & _).
    apply located_coords in H1 as (x & E). eauto. }
  destruct (hamiltonian_ok geo cs n D) as (d & F1 & F2 & F3 & F4).
  { intros i j Hi Hj. destruct (nth_error els i) as [a|] eqn:Ea; [|apply nth_error_None in Ea; unfold n in *; lia].
    destruct (nth_error els j) as [b|] eqn:Eb; [|apply nth_error_None in Eb; unfold n in *; lia].
    eapply km_leg; eauto. }
  destruct F2 as (F2 & F5).
  assert (HCF : compiled_from (hamiltonian n d) (compile (hamiltonian n d))).
  { apply HC; auto. intros m idx Hm. destruct (F5 _ Hm) as (i & j & Eb & _). injection Eb as -> ->. reflexivity. }
  set (pq := compile (hamiltonian n d)) in *. destruct HCF as [CS CL CP CR CE].
  set (m1 := with_vars [("city", city_array n (m_mtype prev))] (new_model (m_mtype prev))).
  assert (HO : own_names m1).
  { intros k a. unfold m1. cbn [m_vars with_vars dget]. intros H.
    destruct (eqb k "city") eqn:Ek; [|discriminate]. apply eqb_eq in Ek. subst k. injection H as <-. eexists _, _. apply create_city. auto. }
  assert (HA : aligned m1) by (repeat split; intros; auto; constructor).
  destruct (C31_succeeds ev m1 pq CS HO HA eq_refl) as (m' & pq' & E); [|exact CP|].
  { intros a b c Hin l Hl. destruct (CL _ _ _ _ Hin Hl) as (k & idx & K1 & K2 & K3). destruct (F5 _ K1) as (i & j & Eb & Hi & Hj). injection Eb as -> ->.
    subst l. split; [apply (star_label ("city", [i; j])); reflexivity|].
    exists "city", [i; j], [Z.of_nat n; Z.of_nat n], (city_array n (m_mtype prev)). split; auto. split; [reflexivity|]. split; [reflexivity|].
    repeat constructor; lia. }
  pose proof (C31_frame _ _ _ _ _ CS HO E) as (G1 & G2 & G3 & G4 & G5 & G6 & _).
  pose proof E as EL. unfold from_pyqubo in EL. destruct (pq_loop ev m1 pq (pq_terms pq)) as [[m2 l2] [[]|e]] eqn:EP; [|inversion EL].
  destruct (loaded ev pq (pq_terms pq) m1 m2 l2 HA) as (L1 & L2 & new & L3 & L4); [constructor|exact EP|].
  assert (HM : m' = with_offset (pq_offset pq) m2) by (inversion EL; reflexivity). cbn in L3.
  exists m'. split.
  { unfold tsp_mapping. destruct els as [|e0 els0]; [congruence|]. fold n. unfold empty_of. rewrite append_city by auto. fold m1.
    cbv iota zeta. rewrite E1. cbn [rbind]. rewrite F1. cbn [rbind]. fold pq. rewrite E. reflexivity. }
  assert (HG : forall fd, dget "time" fd <> None -> dget "city" fd <> None -> all_given fd (hamiltonian n d)).
  { intros fd H1 H2 p Hp. destruct (F3 p Hp) as [-> | ->]; auto. }
  assert (HR : m_rows m' = new) by (rewrite HM; exact L3).
  split.
  - rewrite G1. reflexivity.
  - rewrite HM. exact L1.
  - rewrite HM. exact L2.
  - rewrite G5. reflexivity.
  - intros fd H1 H2. destruct (CR fd (HG fd H1 H2)) as [R1 R2]. split; [|rewrite G6; auto].
    intros r Hr _. rewrite HR in Hr. destruct (L4 r Hr) as (_ & -> & _ & k & c & K1 & ->). split; [|apply resolves_num].
    unfold cneg. apply resolves_cmul. split; [apply resolves_num|eauto].
  - intros r a b Hr. rewrite HR in Hr. apply (L4 r Hr).
  - intros r Hr. rewrite HR in Hr. apply (L4 r Hr).
  - intros fd x T C HT HCc HB. rewrite (C31_fresh _ _ _ _ _ fd x CS HO eq_refl E HB).
    rewrite CE by (auto; apply HG; congruence). rewrite F4. unfold value. cbn [ceval]. rewrite HT, HCc. reflexivity.
Qed.
