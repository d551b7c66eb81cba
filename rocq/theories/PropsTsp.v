(** * PropsTsp: C82 and C83, the travelling-salesman sample. *)
From Coq Require Import Permutation Sorted Lqa.
From Verif Require Import PyBase PyLemmas Numbers Constraint LogicalModel Spec LogicalProofs EnergyProofs PhysicalProofs ToPhysicalProofs
  PropsPhysical PropsPyqubo Samples Solver SolverSpec SolverProofs PropsSolver Services ServicesSpec PropsSolvers
  Stream StreamSpec PropsStream NppStream Npp PropsNpp NppStreamSpec PropsNppStream PropsNppSolve Tsp TspSpec TspProofs TspTours.
Local Open Scope string_scope.
Local Open Scope list_scope.

(** ** Cities and positions *)
Lemma dist_nth d els dflt i j : i < length els -> j < length els -> dist_at d els i j = d (nth i els dflt) (nth j els dflt).
Proof. intros Hi Hj. unfold dist_at. rewrite (nth_error_nth' els dflt Hi), (nth_error_nth' els dflt Hj). reflexivity. Qed.
Lemma order_nth els p tour dflt : in_that_order els p tour -> tour = map (fun i => nth i els dflt) p.
Proof. induction 1 as [|i e p tour H F IH]; auto. cbn [map]. rewrite <- IH, (nth_error_nth _ _ dflt H). reflexivity. Qed.
Lemma order_intro els p dflt : (forall i, In i p -> i < length els) -> in_that_order els p (map (fun i => nth i els dflt) p).
Proof.
  induction p as [|i p IH]; intros H; constructor.
  - apply nth_error_nth'. apply H. now left.
  - apply IH. intros; apply H; now right.
Qed.
Lemma order_length d els p tour : in_that_order els p tour -> tour_length (dist_at d els) p = tour_length d tour.
Proof.
  intros H. assert (G : forall p tour, in_that_order els p tour -> forall i e i0 e0, nth_error els i = Some e -> nth_error els i0 = Some e0 ->
    legs (dist_at d els) i p i0 = legs d e tour e0).
  { clear. induction 1 as [|j f p tour Hj F IH]; intros i e i0 e0 Hi H0; cbn [legs].
    - unfold dist_at. rewrite Hi, H0. reflexivity.
    - rewrite (IH j f i0 e0) by auto. unfold dist_at at 1. rewrite Hi, Hj. reflexivity. }
  inversion H as [|i e p' t' Hi F]; subst; auto. cbn [tour_length]. apply G; auto.
Qed.
Lemma perm_bound p n i : Permutation p (seq 0 n) -> In i p -> i < n.
Proof. intros HP HI. apply (Permutation_in _ HP), in_seq in HI. lia. Qed.
Lemma map_nth_seq {A} (l : list A) dflt : map (fun i => nth i l dflt) (seq 0 (length l)) = l.
Proof.
  induction l as [|a l IH]; auto. cbn [length seq map nth]. f_equal. rewrite <- seq_shift, map_map. exact IH.
Qed.
Lemma order_perm els p tour : in_that_order els p tour -> Permutation p (seq 0 (length els)) -> Permutation tour els.
Proof.
  intros HO HP. destruct els as [|e0 els0] eqn:EE; [apply Permutation_sym, Permutation_nil in HP; subst; inversion HO; auto|]. rewrite <- EE in *. clear EE els0.
  rewrite (order_nth _ _ _ e0 HO). eapply perm_trans; [apply Permutation_map; exact HP|]. now rewrite map_nth_seq.
Qed.
Lemma perm_order els tour : Permutation tour els -> exists p, Permutation p (seq 0 (length els)) /\ in_that_order els p tour.
Proof.
  intros HP. destruct els as [|e0 els0] eqn:EE; [apply Permutation_sym, Permutation_nil in HP; subst; exists []; split; constructor|]. rewrite <- EE in *. clear EE els0.
  rewrite <- (map_nth_seq els e0) in HP. apply Permutation_map_inv in HP as (p & -> & HP). exists p. split; [now symmetry|].
  apply order_intro. intros i Hi. apply (perm_bound p (length els)); [now symmetry|auto].
Qed.
Lemma dist_nonneg geo d els i j : distances geo d els -> (0 <= dist_at d els i j)%Qc.
Proof.
  intros H. unfold dist_at. destruct (nth_error els i) eqn:E1; [|apply Qcle_refl]. destruct (nth_error els j) eqn:E2; [|apply Qcle_refl].
  apply nth_error_In in E1, E2. apply (H _ _ E1 E2).
Qed.

(** ** C82: the Hamiltonian *)
Section hamiltonian.
  Context (compile : compiler) (geo : geodesic) (HC : pyqubo_compiler compile).
  Lemma mapping_model ev prev els d : els <> [] -> distances geo d els ->
    exists m, tsp_mapping compile geo ev prev els = Ok m /\ tsp_model (m_mtype prev) (dist_at d els) (length els) m.
  Proof.
    intros HE HD. apply mapping_ok; auto. intros i j a b Hi Hj. unfold dist_at. rewrite Hi, Hj.
    apply nth_error_In in Hi, Hj. apply (HD _ _ Hi Hj).
  Qed.
  (** The mapping succeeds; the energy of its model is the legs travelled in units
      of 100 km, "time" for each deviation of a time slot and "city" for each
      deviation of a city, for all 0/1 values and placeholders. *)
  Theorem C82_energy ev prev els d : els <> [] -> distances geo d els ->
    exists m, tsp_mapping compile geo ev prev els = Ok m /\ m_mtype m = m_mtype prev /\ m_constrs m = [] /\
      forall fd x T C, dget "time" fd = Some T -> dget "city" fd = Some C -> binary x ->
        energy fd x m = tsp_energy (dist_at d els) (length els) T C x.
  Proof.
    intros HE HD. destruct (mapping_model ev prev els d HE HD) as (m & E & HM). exists m. split; auto.
    split; [apply HM|]. split; [apply HM|]. apply HM.
  Qed.
  (** Each tour has assignments, and these cost its length and nothing else. *)
  Theorem C82_tour ev prev els d m fd T C tour : els <> [] -> distances geo d els ->
    tsp_mapping compile geo ev prev els = Ok m -> dget "time" fd = Some T -> dget "city" fd = Some C ->
    Permutation tour els ->
    exists p x, in_that_order els p tour /\ binary x /\ visits x p /\
      forall x', binary x' -> visits x' p -> energy fd x' m = (tour_length d tour / qz 100)%Qc.
  Proof.
    intros HE HD E HT HCc HP. destruct (mapping_model ev prev els d HE HD) as (m' & E' & HM). rewrite E in E'. injection E' as <-.
    destruct (perm_order els tour HP) as (p & P1 & P2). exists p, (tour_assignment p). split; auto. split; [apply tour_binary|]. split; [apply tour_visits|].
    intros x' HB HV. rewrite (tm_energy _ _ _ _ HM _ _ _ _ HT HCc HB). rewrite (tour_energy _ _ _ _ _ p P1 HV). f_equal. now apply order_length.
  Qed.
  (** Every other assignment costs at least twice the smaller penalty. *)
  Theorem C82_not_a_tour ev prev els d m fd T C x b : els <> [] -> distances geo d els ->
    tsp_mapping compile geo ev prev els = Ok m -> dget "time" fd = Some T -> dget "city" fd = Some C -> binary x ->
    (0 <= b)%Qc -> (b <= T)%Qc -> (b <= C)%Qc ->
    (exists p tour, in_that_order els p tour /\ Permutation tour els /\ visits x p /\ length p = length els) \/ (b + b <= energy fd x m)%Qc.
  Proof.
    intros HE HD E HT HCc HB B0 B1 B2. destruct (mapping_model ev prev els d HE HD) as (m' & E' & HM). rewrite E in E'. injection E' as <-.
    rewrite (tm_energy _ _ _ _ HM _ _ _ _ HT HCc HB).
    destruct (no_tour_energy (dist_at d els) (length els) T C x) as [(p & P1 & P2)|H]; auto.
    - intros i j _ _. eapply dist_nonneg; eauto.
    - eapply Qcle_trans; eauto.
    - eapply Qcle_trans; eauto.
    - left. destruct els as [|e0 els0] eqn:EE; [congruence|]. rewrite <- EE in *. clear EE els0 HE.
      exists p, (map (fun i => nth i els e0) p). assert (HO : in_that_order els p (map (fun i => nth i els e0) p)).
      { apply order_intro. intros i. apply perm_bound; auto. }
      split; auto. split; [eapply order_perm; eauto|]. split; auto. rewrite (Permutation_length P1). apply seq_length.
  Qed.
  (** Without cities the model is empty. *)
  Theorem C82_empty ev prev : tsp_mapping compile geo ev prev [] = Ok (new_model (m_mtype prev)).
  Proof. reflexivity. Qed.
End hamiltonian.

(** ** Solving *)
Lemma no_pair_loop fd rows l : (forall r a b, In r rows -> r_key r = K2 a b -> a <> b) -> quad_total fd rows l l = 0%Qc.
Proof.
  intros H. unfold quad_total. apply qsum_zero. intros r Hr. destruct (r_removed r); auto. destruct (r_key r) as [|c d] eqn:EK; auto.
  destruct (String.eqb_spec l c) as [E|]; auto. destruct (String.eqb_spec l d) as [E'|]; auto. subst. exfalso. eapply H; eauto.
Qed.
Lemma solving_ok ev evs D n m : tsp_model Qubo D n m ->
  exists m' p, to_physical ev evs tsp_feed m = (m', Ok p) /\ m_mtype m' = Qubo /\ p_mtype p = Qubo /\
    (forall l, ~ In (l, l) (dkeys (p_quad p))) /\
    forall x, binary x -> energy_physical x p = tsp_energy D n (qz 35 / qz 2) (qz 15) x.
Proof.
  intros [M1 M2 M3 M4 M5 M6 M7 M8].
  assert (HC : cmodels evs 0 (m_mtype m) (dvals (m_constrs m)) = Ok []) by (rewrite M4; reflexivity).
  assert (HX : forall r cm, In r (m_rows m) -> r_removed r = true -> In cm [] -> ~ In (r_name r) (names cm)) by (intros ? ? _ _ []).
  assert (HR : resolved tsp_feed m) by (apply M5; discriminate).
  destruct (C09_to_physical_succeeds ev evs tsp_feed m [] M2 M3 HR HC HX) as (m' & p & E). exists m', p. split; auto.
  destruct (C11_frame _ _ _ _ _ _ _ M2 M3 HC HX E) as (F1 & _). assert (HL : m_len m = length (m_rows m)) by apply M2.
  split; [congruence|]. split; [|split].
  - destruct (to_physical_ok _ _ _ _ _ _ HL E) as (cms & _ & _ & ->). rewrite <- M1. unfold phys, build_physical. destruct (index_labels _ _ _ _ _ _); reflexivity.
  - intros l HI'. destruct (C10_coefficients _ _ _ _ _ _ HL E) as (cms & HC' & _ & _ & _ & _ & Q0 & _). rewrite HC in HC'. injection HC' as <-.
    cbn [flat_map] in Q0. rewrite app_nil_r in Q0. specialize (Q0 l l (no_pair_loop tsp_feed _ l M6)). now apply dget_none in Q0.
  - intros x HB. rewrite (C09_no_constraints _ _ _ _ _ _ HL M4 E). apply M8; auto.
Qed.
(** Every variable of the window occurs in the physical model. *)
Lemma only_at k j k' j' : at_ (only ["city" +++ brackets [k; j]]) k' j' = if Nat.eqb k' k then if Nat.eqb j' j then 1%Qc else 0%Qc else 0%Qc.
Proof.
  unfold at_, only. destruct (in_dec _ _ _) as [[H|[]]|H].
  - apply city_inj in H as [<- <-]. rewrite !Nat.eqb_refl. reflexivity.
  - destruct (Nat.eqb_spec k' k) as [->|]; auto. destruct (Nat.eqb_spec j' j) as [->|]; auto. destruct H. now left.
Qed.
Lemma only_binary ls : binary (only ls).
Proof. intros l. unfold only. destruct (in_dec _ _ _); auto. Qed.
Lemma sum_but_one n k : k < n -> (sum_ n (fun i => if Nat.eqb i k then 0%Qc else 1%Qc) + 1 = sum_ n (fun _ => 1%Qc))%Qc.
Proof.
  intros H. assert (E : sum_ n (fun i => if Nat.eqb i k then 1%Qc else 0%Qc) = 1%Qc).
  { rewrite (sum_one n _ k); auto; [now rewrite Nat.eqb_refl|]. intros i _ Hi. destruct (Nat.eqb_spec i k); congruence. }
  rewrite <- E at 1. rewrite <- sum_add. apply sum_ext. intros i _. destruct (Nat.eqb i k); ring.
Qed.
Lemma zero_energy D n T C : tsp_energy D n T C (only []) = ((T + C) * sum_ n (fun _ => 1%Qc))%Qc.
Proof.
  unfold tsp_energy. rewrite (sum_zero n).
  - assert (E1 : sum_ n (fun k => sq (sum_ n (fun j => at_ (only []) k j) - 1))%Qc = sum_ n (fun _ => 1%Qc)).
    { apply sum_ext. intros k _. rewrite sum_zero; [reflexivity|auto]. }
    assert (E2 : sum_ n (fun j => sq (sum_ n (fun k => at_ (only []) k j) - 1))%Qc = sum_ n (fun _ => 1%Qc)).
    { apply sum_ext. intros k _. rewrite sum_zero; [reflexivity|auto]. }
    rewrite E1, E2. ring.
  - intros k _. apply sum_zero. intros i _. apply sum_zero. intros j _. unfold at_, only. cbn. ring.
Qed.
Lemma single_energy D n T C k j : k < n -> j < n -> D j j = 0%Qc ->
  (tsp_energy D n T C (only ["city" +++ brackets [k; j]]) + (T + C) = tsp_energy D n T C (only []))%Qc.
Proof.
  intros Hk Hj HD. rewrite zero_energy. unfold tsp_energy. rewrite (sum_zero n).
  - assert (E1 : sum_ n (fun k' => sq (sum_ n (fun j' => at_ (only ["city" +++ brackets [k; j]]) k' j') - 1))%Qc = sum_ n (fun i => if Nat.eqb i k then 0%Qc else 1%Qc)).
    { apply sum_ext. intros k' _. destruct (Nat.eqb_spec k' k) as [->|Hne].
      - rewrite (sum_one n _ j); [rewrite only_at, !Nat.eqb_refl; reflexivity|auto|]. intros i _ Hi. rewrite only_at, Nat.eqb_refl. destruct (Nat.eqb_spec i j); congruence.
      - rewrite sum_zero; [reflexivity|]. intros i _. rewrite only_at. destruct (Nat.eqb_spec k' k); congruence. }
    assert (E2 : sum_ n (fun j' => sq (sum_ n (fun k' => at_ (only ["city" +++ brackets [k; j]]) k' j') - 1))%Qc = sum_ n (fun i => if Nat.eqb i j then 0%Qc else 1%Qc)).
    { apply sum_ext. intros j' _. destruct (Nat.eqb_spec j' j) as [->|Hne].
      - rewrite (sum_one n _ k); [rewrite only_at, !Nat.eqb_refl; reflexivity|auto|]. intros i _ Hi. rewrite only_at. destruct (Nat.eqb_spec i k); congruence.
      - rewrite sum_zero; [reflexivity|]. intros i _. rewrite only_at. destruct (Nat.eqb_spec i k); auto. destruct (Nat.eqb_spec j' j); congruence. }
    rewrite E1, E2. rewrite <- (sum_but_one n k) at 1 by auto. pose proof (sum_but_one n k Hk) as H1. pose proof (sum_but_one n j Hj) as H2.
    transitivity (T * (sum_ n (fun i => if Nat.eqb i k then 0%Qc else 1%Qc) + 1) + C * (sum_ n (fun i => if Nat.eqb i j then 0%Qc else 1%Qc) + 1))%Qc; [ring|].
    rewrite H1, H2. ring.
  - intros k' _. apply sum_zero. intros i _. apply sum_zero. intros j' _. rewrite !only_at.
    destruct (Nat.eqb k' k); [|ring]. destruct (Nat.eqb_spec i j) as [->|]; [|ring]. destruct (Nat.eqb _ k); [|ring].
    destruct (Nat.eqb_spec j' j) as [->|]; [|ring]. rewrite HD. unfold Qcdiv. ring.
Qed.
Lemma occurs_dec p l : occurs p l \/ ~ occurs p l.
Proof.
  unfold occurs. destruct (in_dec string_dec l (dkeys (p_linear p))) as [|N]; auto.
  destruct (in_dec string_dec l (flat_map (fun k => [fst k; snd k]) (dkeys (p_quad p)))) as [I|N2].
  - left. right. apply in_flat_map in I as ([c d] & H1 & H2). exists c, d. split; auto. cbn in H2. destruct H2 as [H2|[H2|[]]]; auto.
  - right. intros [C|(c & d & C1 & C2)]; auto. apply N2. apply in_flat_map. exists (c, d). split; auto. cbn. destruct C2; auto.
Qed.
Lemma cities_occur p D n : (forall x, binary x -> energy_physical x p = tsp_energy D n (qz 35 / qz 2) (qz 15) x) -> (forall j, j < n -> D j j = 0%Qc) ->
  forall k j, k < n -> j < n -> occurs p ("city" +++ brackets [k; j]).
Proof.
  intros HE HD k j Hk Hj. destruct (occurs_dec p ("city" +++ brackets [k; j])) as [|NO]; auto. exfalso.
  assert (E : energy_physical (only ["city" +++ brackets [k; j]]) p = energy_physical (only []) p).
  { apply energy_physical_ext. intros l Hl. unfold only. destruct (in_dec string_dec l ["city" +++ brackets [k; j]]) as [[<-|[]]|H]; [contradiction|].
    destruct (in_dec string_dec l []) as [[]|]; reflexivity. }
  rewrite !HE in E by apply only_binary. rewrite <- (single_energy D n _ _ k j) in E by auto.
  set (e := tsp_energy D n (qz 35 / qz 2) (qz 15) (only ["city" +++ brackets [k; j]])) in *. clearbody e.
  assert (X : (qz 35 / qz 2 + qz 15 = 0)%Qc); [|discriminate X].
  transitivity ((e + (qz 35 / qz 2 + qz 15)) - e)%Qc; [ring|]. rewrite <- E. ring.
Qed.

(** ** Decoding *)
Definition lab2 (i j : nat) : string := "city" +++ brackets [i; j].
Lemma name_ok (e : city_el) name v more : el_val e = (name, v) :: more -> city_name e = Ok name.
Proof. destruct e as [t i val]. cbn. intros ->. reflexivity. Qed.
Lemma visited_ok sol i els : forall off, (forall j, j < length els -> exists z, dget (lab2 i (off + j)) sol = Some z) ->
  (forall e, In e els -> exists name v more, el_val e = (name, v) :: more) ->
  exists ans, visited sol i off els = Ok ans /\
    forall j e name v more, nth_error els j = Some e -> el_val e = (name, v) :: more -> dget (lab2 i (off + j)) sol = Some 1%Z ->
      (forall j', j' < j -> dget (lab2 i (off + j')) sol <> Some 1%Z) -> ans = [name].
Proof.
  induction els as [|e els IH]; intros off HZ HE.
  - exists []. split; auto. intros [|j]; discriminate.
  - cbn [visited]. change ("city" +++ brackets [i; off]) with (lab2 i off).
    destruct (HZ 0) as (z & Ez); [cbn; lia|]. rewrite Nat.add_0_r in Ez. rewrite Ez. destruct (Z.eqb_spec z 1) as [->|Nz].
    + destruct (HE e (or_introl eq_refl)) as (name & v & more & En). rewrite (name_ok _ _ _ _ En). cbn [rbind]. exists [name]. split; auto.
      intros [|j] e' name' v' more' Hj Hn H1 H2.
      * injection Hj as <-. rewrite En in Hn. injection Hn as <- _ _. reflexivity.
      * exfalso. apply (H2 0); [lia|]. rewrite Nat.add_0_r. auto.
    + destruct (IH (S off)) as (ans & E & H).
      { intros j Hj. destruct (HZ (S j)) as (z' & Ez'); [cbn; lia|]. exists z'. rewrite <- plus_n_Sm in Ez'. exact Ez'. }
      { intros; apply HE; now right. }
      exists ans. split; auto. intros [|j] e' name' v' more' Hj Hn H1 H2.
      * rewrite Nat.add_0_r in H1. congruence.
      * cbn [nth_error] in Hj. apply (H j e' name' v' more'); auto.
        -- rewrite <- plus_n_Sm in H1. exact H1.
        -- intros j' Hj'. specialize (H2 (S j') ltac:(lia)). rewrite <- plus_n_Sm in H2. exact H2.
Qed.
Lemma unmap_loop sol els (g : nat -> list string) l : forall acc, (forall i, In i l -> visited sol i 0 els = Ok (g i)) ->
  rfold (fun order i => rbind (visited sol i 0 els) (fun k => Ok (order ++ k))) acc l = Ok (acc ++ flat_map g l).
Proof.
  induction l as [|i l IH]; intros acc H; cbn [rfold flat_map]; [now rewrite app_nil_r|].
  rewrite (H i) by now left. cbn [rbind]. rewrite IH by (intros; apply H; now right). now rewrite <- app_assoc.
Qed.
Lemma unmap_ok rows s els : first_sample rows = Ok s ->
  (forall k j, k < length els -> j < length els -> exists z, dget (lab2 k j) s = Some z /\ legal Qubo z) ->
  (forall e, In e els -> exists name v more, el_val e = (name, v) :: more) ->
  exists ans, tsp_unmapping rows els = Ok ans /\
    forall p tour, visits (value_of s) p -> length p = length els -> in_that_order els p tour -> named tour ans.
Proof.
  intros HF HZ HE. unfold tsp_unmapping. rewrite HF. cbn [rbind].
  set (g := fun i => match visited s i 0 els with Ok a => a | Err _ => [] end).
  assert (HV : forall i, i < length els -> visited s i 0 els = Ok (g i) /\
    forall j e name v more, nth_error els j = Some e -> el_val e = (name, v) :: more -> dget (lab2 i j) s = Some 1%Z ->
      (forall j', j' < j -> dget (lab2 i j') s <> Some 1%Z) -> g i = [name]).
  { intros i Hi. destruct (visited_ok s i els 0) as (a & E & H); auto.
    - intros j Hj. destruct (HZ i j Hi Hj) as (z & Ez & _). eauto.
    - unfold g. rewrite E. split; auto. }
  exists (flat_map g (seq 0 (length els))). split.
  { rewrite (unmap_loop s els g); auto. intros i Hi. apply in_seq in Hi as [_ Hi]. apply HV. exact Hi. }
  intros p tour HVi HL HO. rewrite <- HL.
  assert (G : forall p' tour' off, in_that_order els p' tour' ->
    (forall k i e name v more, nth_error p' k = Some i -> nth_error els i = Some e -> el_val e = (name, v) :: more -> g (off + k) = [name]) ->
    named tour' (flat_map g (seq off (length p')))).
  { clear - HE. intros p' tour' off HO. revert off. induction HO as [|i e p' tour' Hi F IH]; intros off H; [constructor|].
    destruct (HE e) as (name & v & more & En); [now apply nth_error_In in Hi|]. cbn [length seq flat_map].
    pose proof (H 0 i e name v more eq_refl Hi En) as H0. rewrite Nat.add_0_r in H0. rewrite H0. cbn [app]. constructor; [eauto|].
    apply IH. intros k i' e' name' v' more' Hk He Hn. specialize (H (S k) i' e' name' v' more' Hk He Hn). rewrite <- plus_n_Sm in H. exact H. }
  apply (G p tour 0 HO). intros k i e name v more Hk He Hn. assert (Hk' : k < length p) by (apply nth_error_Some; congruence).
  assert (Hi : i < length els) by (apply nth_error_Some; congruence). rewrite Nat.add_0_l.
  destruct (HV k ltac:(lia)) as [_ H]. apply (H i e name v more); auto.
  - destruct (HZ k i ltac:(lia) Hi) as (z & Ez & Lz). pose proof (HVi k i i Hk ltac:(lia)) as X. rewrite Nat.eqb_refl in X.
    unfold at_, value_of in X. fold (lab2 k i) in X. rewrite Ez in X. rewrite <- qz_1 in X. apply qz_inj in X. congruence.
  - intros j' Hj' C. pose proof (HVi k j' i Hk ltac:(lia)) as X. unfold at_, value_of in X. fold (lab2 k j') in X. rewrite C in X.
    destruct (Nat.eqb_spec j' i); [lia|]. discriminate X.
Qed.

(** ** C83: the answers *)
Lemma distances_perm geo d a b : Permutation a b -> distances geo d b -> distances geo d a.
Proof. intros P H x y Hx Hy. apply H; eapply Permutation_in; eauto. Qed.
Lemma distances_named geo d els : distances geo d els -> forall e, In e els -> exists name v more, el_val e = (name, v) :: more.
Proof. intros H e He. destruct (H e e He He) as ((la & oa & _ & _ & (n & m1 & m2 & E) & _) & _). eauto. Qed.
Lemma value_binary s : Forall (legal Qubo) (dvals s) -> binary (value_of s).
Proof.
  intros H l. unfold value_of. destruct (dget l s) as [z|] eqn:E; [|left; reflexivity]. apply dget_in, (in_map snd) in E. rewrite Forall_forall in H.
  destruct (H z E) as [-> | ->]; [left|right]; reflexivity.
Qed.
Lemma decode geo d els els' p rows : distances geo d els -> Permutation els' els -> p_mtype p = Qubo ->
  (forall x, binary x -> energy_physical x p = tsp_energy (dist_at d els') (length els') (qz 35 / qz 2) (qz 15) x) ->
  reports p rows -> rows <> [] ->
  exists ans s e, lowest s e rows /\ tsp_unmapping rows els' = Ok ans /\
    ((e < qz 30)%Qc -> exists tour, Permutation tour els /\ named tour ans /\ e = (tour_length d tour / qz 100)%Qc).
Proof.
  intros HD HP HT HE HR HNE. assert (HD' : distances geo d els') by (eapply distances_perm; eauto).
  destruct (first_lowest rows HNE) as (s & e & EF & HLo). pose proof HLo as ((c & HI) & HM). destruct (HR _ _ _ HI) as (EE & HND & HK & HLg). rewrite HT in HLg.
  assert (OC : forall k j, k < length els' -> j < length els' -> occurs p (lab2 k j)).
  { apply (cities_occur p (dist_at d els')); auto. intros j Hj. unfold dist_at. destruct (nth_error els' j) as [a|] eqn:Ea; auto.
    apply nth_error_In in Ea. apply (HD' a a Ea Ea). }
  destruct (unmap_ok rows s els' EF) as (ans & EA & HA).
  { intros k j Hk Hj. apply OC with (k := k) in Hj; auto. apply HK, dget_some_in in Hj as (z & Hz). exists z. split; auto.
    rewrite Forall_forall in HLg. apply HLg. apply dget_in in Hz. now apply (in_map snd) in Hz. }
  { eapply distances_named; eauto. }
  exists ans, s, e. split; auto. split; auto. intros HL.
  pose proof (value_binary s HLg) as HB. rewrite EE, (HE _ HB) in HL.
  destruct (no_tour_energy (dist_at d els') (length els') (qz 35 / qz 2) (qz 15) (value_of s)) as [(q & Q1 & Q2)|H]; auto.
  - intros i j _ _. eapply dist_nonneg; eauto.
  - discriminate.
  - discriminate.
  - assert (exists tour, in_that_order els' q tour) as (tour & HO).
    { destruct els' as [|e0 r] eqn:Eq; [|rewrite <- Eq in *; eexists; apply (order_intro els' q e0); intros i; now apply perm_bound].
      apply Permutation_sym, Permutation_nil in Q1. subst q. exists []. constructor. }
    exists tour. split; [eapply perm_trans; [eapply order_perm; eauto|auto]|]. split; [apply (HA q); auto; rewrite (Permutation_length Q1); apply seq_length|].
    rewrite EE, (HE _ HB), (tour_energy _ _ _ _ _ q Q1 Q2). f_equal. now apply order_length.
  - exfalso. apply (Qclt_not_le _ _ HL). specialize (H (qz 15)). rewrite <- qz_add in H. apply H; discriminate.
Qed.
(** Whatever the (honest) solver, a window with cities is answered; if the best
    sample is below 30 the answer is a tour, and its length is 100 times the energy. *)
Theorem C83_honest geo u d els out :
  honest_solver (ts_solver u) -> distances geo d els -> tsp_answers u d els out ->
  (exists e, out = [SolveFailed e]) \/
  exists p rows ans s e, ts_solver u p = Ok rows /\ lowest s e rows /\ out = [Solved ans] /\
    ((e < qz 30)%Qc -> exists tour, Permutation tour els /\ named tour ans /\ e = (tour_length d tour / qz 100)%Qc).
Proof.
  intros HS HD (p & els' & HP & HT & HE & HN & ->).
  destruct (ts_solver u p) as [rows|x] eqn:ES; [right | left; eauto]. destruct (HS _ _ ES) as [HR HNE].
  destruct (decode geo d els els' p rows) as (ans & s & e & H1 & H2 & H3); auto.
  exists p, rows, ans, s, e. rewrite H2. auto.
Qed.
Lemma div_lt a b : (a < b)%Qc -> (a / qz 100 < b / qz 100)%Qc.
Proof. intros H. unfold Qcdiv. apply Qcmult_lt_compat_r; auto. reflexivity. Qed.
Lemma div_le a b : (a / qz 100 <= b / qz 100)%Qc -> (a <= b)%Qc.
Proof. intros H. apply Qcnot_lt_le. intros L. apply div_lt in L. now apply Qclt_not_le in L. Qed.
(** With the exact local solver the answer is a shortest tour, provided that some
    tour is shorter than 3000 km. *)
Theorem C83_shortest_partial geo u d els out neal :
  (forall p, ts_solver u p = local_solve true neal (Some p)) -> els <> [] -> distances geo d els -> tsp_answers u d els out ->
  (exists tour, Permutation tour els /\ (tour_length d tour < qz 3000)%Qc) ->
  exists ans, out = [Solved ans] /\ shortest_tour d els ans.
Proof.
  intros HS HE HD (p & els' & HP & HT & HEn & HN & ->) (t0 & T1 & T2).
  assert (HD' : distances geo d els') by (eapply distances_perm; eauto).
  assert (HL' : 0 < length els') by (rewrite (Permutation_length HP); destruct els; [congruence|cbn; lia]).
  assert (OC : forall k j, k < length els' -> j < length els' -> occurs p (lab2 k j)).
  { apply (cities_occur p (dist_at d els') (length els')); auto. intros j Hj. unfold dist_at. destruct (nth_error els' j) as [a|] eqn:Ea; auto.
    apply nth_error_In in Ea. apply (HD' a a Ea Ea). }
  assert (exists rows, ts_solver u p = Ok rows) as (rows & ER).
  { rewrite HS. apply C75_succeeds; auto. destruct (OC 0 0 HL' HL') as [H|(a & b & H & _)]; [left|right]; intros C; rewrite C in H; destruct H. }
  rewrite ER. pose proof ER as ER'. rewrite HS in ER'. destruct (C75_exact _ _ _ ER') as (HR & _ & _ & HX).
  assert (HNE : rows <> []) by (destruct (C75_has_lowest _ _ _ ER') as (s & e & (c & HI) & _); intros ->; destruct HI).
  destruct (decode geo d els els' p rows) as (ans & s & e & HLo & EU & HB); auto. rewrite EU. exists ans. split; auto.
  assert (HM : forall t, Permutation t els -> (e <= tour_length d t / qz 100)%Qc).
  { intros t Ht. destruct (perm_order els' t) as (q & Q1 & Q2); [eapply perm_trans; [exact Ht|now symmetry]|].
    destruct (HX (tour_assignment q)) as (s' & e' & c' & HI & HV).
    { intros l _. rewrite HT. destruct (tour_binary q l) as [-> | ->]; [exists 0%Z | exists 1%Z]; cbn [legal]; auto. }
    destruct HLo as (_ & HLo). eapply Qcle_trans; [apply (HLo _ _ _ HI)|]. destruct (HR _ _ _ HI) as (EE & _).
    assert (EQ : e' = (tour_length d t / qz 100)%Qc); [|rewrite EQ; apply Qcle_refl].
    rewrite EE. rewrite (energy_physical_ext _ _ (tour_assignment q)) by (intros l Hl; apply HV; auto).
    rewrite HEn by apply tour_binary. rewrite (tour_energy _ _ _ _ _ q Q1 (tour_visits q)). f_equal. now apply order_length. }
  assert (HLt : (e < qz 30)%Qc).
  { eapply Qcle_lt_trans; [apply (HM t0 T1)|]. replace (qz 30) with (qz 3000 / qz 100)%Qc by (apply Qc_is_canon; reflexivity). now apply div_lt. }
  destruct (HB HLt) as (tour & P1 & P2 & P3). exists tour. split; auto. split; auto. intros t Ht. apply div_le. rewrite <- P3. auto.
Qed.

(** ** Streams *)
Lemma tsp_step compile geo a o w u (b : bags city_data (list srow)) d :
  pyqubo_compiler compile -> windowed a -> a <> Attenuation -> current w b -> m_mtype (stored_model Qubo b) = Qubo ->
  wn_els w <> [] -> distances geo d (wn_els w) ->
  exists b' out, process a o (tsp_callbacks compile geo u) Qubo w b = (b', Ok out) /\ tsp_answers u d (wn_els w) out /\
    b_ts b' = [wn_ts w] /\ m_mtype (stored_model Qubo b') = Qubo.
Proof.
  intros HC Ha Hatt Hc HT HE HD. unfold process. apply current_test in Hc. rewrite Hc.
  change (last_or [] (b_els b)) with (prev_els b). rewrite (windowed_elements a o (prev_els b) (wn_els w) Ha).
  assert (SP : Permutation (wn_els w) (sorted (wn_els w))) by apply sorted_perm. set (els := sorted (wn_els w)) in *.
  assert (HE' : els <> []) by (intros C; rewrite C in SP; apply HE, Permutation_nil; now symmetry).
  assert (HD' : distances geo d els) by (eapply distances_perm; [symmetry; exact SP|auto]).
  destruct (outgoing_ok (prev_els b) els HE') as (og & Eo). rewrite Eo.
  change (last_or (new_model Qubo) (b_model b)) with (stored_model Qubo b).
  cbn [tsp_callbacks cb_map cb_solve cb_unmap].
  destruct (mapping_model compile geo HC (ts_env0 u) (stored_model Qubo b) els d HE' HD') as (m & Em & HM). rewrite Em. rewrite HT in HM.
  assert (EA : (match a with Attenuation => attenuate (wn_env w) (wn_envs w) (ao_key o) (ao_min_scale o) m | _ => (m, Ok tt) end) = (m, Ok tt))
    by (destruct a; congruence).
  rewrite EA. unfold tsp_solving. destruct (solving_ok (ts_env u) (ts_envs u) _ _ _ HM) as (m' & p & E & T1 & T2 & NL & EN). rewrite E.
  destruct (ts_solver u p) as [ss|e] eqn:ES.
  - do 2 eexists. split; [reflexivity|]. split; [|split; [reflexivity|exact T1]]. exists p, els. split; [now symmetry|]. split; auto. split; auto. split; auto. rewrite ES. reflexivity.
  - do 2 eexists. split; [reflexivity|]. split; [|split; [reflexivity|exact T1]]. exists p, els. split; [now symmetry|]. split; auto. split; auto. split; auto. rewrite ES. reflexivity.
Qed.
(** Every window of a stream hands the solver exactly the problem of its own
    cities, whatever the windows before. *)
Theorem C82_stream compile geo a o d ws :
  pyqubo_compiler compile -> a = Window \/ a = Delta -> in_time (- (1))%Qc (map fst ws) ->
  (forall w u, In (w, u) ws -> wn_els w <> [] /\ distances geo d (wn_els w)) ->
  exists b outs, tsp_stream compile geo a o ws no_bags = (b, Ok outs) /\
    Forall2 (fun wu out => tsp_answers (snd wu) d (wn_els (fst wu)) out) ws outs.
Proof.
  intros HC Ha Hit HW.
  assert (G : forall ws (b : bags city_data (list srow)), m_mtype (stored_model Qubo b) = Qubo -> in_time (last (b_ts b) (- (1))%Qc) (map fst ws) ->
    (forall w u, In (w, u) ws -> wn_els w <> [] /\ distances geo d (wn_els w)) ->
    exists b' outs, tsp_stream compile geo a o ws b = (b', Ok outs) /\ Forall2 (fun wu out => tsp_answers (snd wu) d (wn_els (fst wu)) out) ws outs).
  { clear Hit HW ws. induction ws as [|[w u] ws IH]; intros b HT Hit HW.
    - exists b, []. split; [reflexivity|constructor].
    - cbn [map fst in_time] in Hit. destruct Hit as [H1 H2]. destruct (HW w u (or_introl eq_refl)) as [W1 W2].
      destruct (tsp_step compile geo a o w u b d) as (b1 & out & E1 & A1 & T1 & M1); auto.
      { unfold windowed. tauto. }
      { destruct Ha; congruence. }
      { intros t <-. auto. }
      destruct (IH b1) as (b2 & outs & E2 & A2); auto.
      { rewrite T1. exact H2. }
      { intros; eapply HW; right; eauto. }
      exists b2, (out :: outs). split; [|constructor; auto]. cbn [tsp_stream]. unfold bind at 1. rewrite E1. unfold bind at 1. rewrite E2. reflexivity. }
  apply G; auto.
Qed.
Theorem C83_stream_partial compile geo a o d ws neal :
  pyqubo_compiler compile -> a = Window \/ a = Delta -> in_time (- (1))%Qc (map fst ws) ->
  (forall w u, In (w, u) ws -> wn_els w <> [] /\ distances geo d (wn_els w) /\
     (exists tour, Permutation tour (wn_els w) /\ (tour_length d tour < qz 3000)%Qc) /\
     forall p, ts_solver u p = local_solve true neal (Some p)) ->
  exists b outs, tsp_stream compile geo a o ws no_bags = (b, Ok outs) /\
    Forall2 (fun wu out => exists ans, out = [Solved ans] /\ shortest_tour d (wn_els (fst wu)) ans) ws outs.
Proof.
  intros HC Ha Hit HW. destruct (C82_stream compile geo a o d ws HC Ha Hit) as (b & outs & E & HF).
  { intros w u H. destruct (HW w u H) as (H1 & H2 & _). auto. }
  exists b, outs. split; auto. clear - HF HW. induction HF as [|[w u] out ws outs H HF IH]; constructor.
  - destruct (HW w u (or_introl eq_refl)) as (H1 & H2 & H3 & H4). cbn [fst snd] in *. eapply C83_shortest_partial; eauto.
  - apply IH. intros; apply HW; now right.
Qed.

(** ** The hypotheses are met, and the bound is needed *)
Definition city_ (t : Z) (i : nat) (name : string) (lon lat : Z) : city_el := mkEl (qz t) i [(name, [qz lon; qz lat])].
(** Points on a line, [k] km for a degree of longitude. *)
Definition geo_line (k : Z) : geodesic := fun a b => Ok (qabs (snd a - snd b) * qz k)%Qc.
Definition lon_of (e : city_el) : Qc := match el_val e with (_, lo :: _) :: _ => lo | _ => 0%Qc end.
Definition d_line (k : Z) (a b : city_el) : Qc := (qabs (lon_of a - lon_of b) * qz k)%Qc.
Lemma line_distances k els : (0 <= k)%Z -> (forall e, In e els -> exists t i name lon lat, e = city_ t i name lon lat) -> distances (geo_line k) (d_line k) els.
Proof.
  intros Hk H a b Ha Hb. destruct (H a Ha) as (t & i & n & lo & la & ->). destruct (H b Hb) as (t' & i' & n' & lo' & la' & ->). split; [|split].
  - exists (qz la), (qz lo), (qz la'), (qz lo'). split; [exists n, [], []; reflexivity|]. split; [exists n', [], []; reflexivity|]. reflexivity.
  - unfold d_line. rewrite <- (Qcmult_0_l (qz k)). apply Qcmult_le_compat_r; [apply qabs_nonneg|]. rewrite <- qz_0. apply qz_le. auto.
  - unfold d_line, lon_of. cbn. replace (qz lo - qz lo)%Qc with 0%Qc by ring. unfold qabs. cbn. ring.
Qed.
Definition tsp_exact : tsp_surroundings := mkTsp env0 env0 (fun _ => env0) (fun p => local_solve true (fun _ => Err ValueError) (Some p)).
Definition c_a := city_ 0 0 "A" 0 0. Definition c_b := city_ 1 1 "B" 1 0. Definition c_c := city_ 2 2 "C" 3 1.
Definition tsp_ws : list (win city_data * tsp_surroundings) :=
  [(mkWin (qz 5) [c_b; c_a] true env0 (fun _ => env0), tsp_exact); (mkWin (qz 6) [c_a; c_b; c_c] true env0 (fun _ => env0), tsp_exact)].
Lemma ws_cities k w u : (0 <= k)%Z -> In (w, u) tsp_ws -> wn_els w <> [] /\ distances (geo_line k) (d_line k) (wn_els w).
Proof.
  intros Hk [E|[E|[]]]; injection E as <- <-; (split; [discriminate|]); apply line_distances; auto;
    intros e He; cbn in He; decompose [or] He; try contradiction; subst e; unfold c_a, c_b, c_c; repeat eexists.
Qed.
Example C82_C83_hyps : pyqubo_compiler compile_ref /\ in_time (- (1))%Qc (map fst tsp_ws) /\
  forall w u, In (w, u) tsp_ws -> wn_els w <> [] /\ distances (geo_line 100) (d_line 100) (wn_els w) /\
     (exists tour, Permutation tour (wn_els w) /\ (tour_length (d_line 100) tour < qz 3000)%Qc) /\
     forall p, ts_solver u p = local_solve true (fun _ => Err ValueError) (Some p).
Proof.
  split; [apply compile_ref_ok|]. split; [repeat split; discriminate|]. intros w u H. destruct (ws_cities 100 w u ltac:(lia) H) as [H1 H2].
  split; auto. split; auto. split; [exists (wn_els w); split; auto|]; destruct H as [E|[E|[]]]; injection E as <- <-; try reflexivity; vm_compute; reflexivity.
Qed.
(** Two cities 2000 km apart: the answer visits one of them twice. *)
Theorem C83_refuted : exists compile geo d w u b ans, pyqubo_compiler compile /\ wn_els w <> [] /\ distances geo d (wn_els w) /\
  (forall p, ts_solver u p = local_solve true (fun _ => Err ValueError) (Some p)) /\
  tsp_stream compile geo Window (mkAo None None None) [(w, u)] no_bags = (b, Ok [[Solved ans]]) /\ ~ shortest_tour d (wn_els w) ans /\
  ~ exists tour, Permutation tour (wn_els w) /\ named tour ans.
Proof.
  exists compile_ref, (geo_line 2000), (d_line 2000), (mkWin (qz 5) [c_b; c_a] true env0 (fun _ => env0)), tsp_exact.
  destruct (tsp_stream compile_ref (geo_line 2000) Window (mkAo None None None) [(mkWin (qz 5) [c_b; c_a] true env0 (fun _ => env0), tsp_exact)] no_bags) as [b r] eqn:E.
  assert (X := f_equal snd E). vm_compute in X.
  exists b, ["B"; "B"]. split; [apply compile_ref_ok|]. split; [discriminate|].
  split; [apply (ws_cities 2000 (mkWin (qz 5) [c_b; c_a] true env0 (fun _ => env0)) tsp_exact); [lia|now left]|]. split; [reflexivity|]. split; [rewrite <- X; reflexivity|].
  assert (N : ~ exists tour, Permutation tour [c_b; c_a] /\ named tour ["B"; "B"]).
  { intros (tour & P & F). assert (I : In c_a tour) by (apply (Permutation_in _ (Permutation_sym P)); right; now left).
    inversion F as [|x ? t1 ? (v1 & m1 & N1) F1]; subst. inversion F1 as [|y ? t2 ? (v2 & m2 & N2) F2]; subst. inversion F2; subst.
    destruct I as [-> | [-> | []]]; discriminate. }
  split; [|exact N]. intros (tour & P & F & _). apply N. eauto.
Qed.
Print Assumptions C82_energy.
Print Assumptions C82_tour.
Print Assumptions C82_not_a_tour.
Print Assumptions C82_empty.
Print Assumptions C83_honest.
Print Assumptions C83_shortest_partial.
Print Assumptions C82_stream.
Print Assumptions C83_stream_partial.
Print Assumptions C83_refuted.
