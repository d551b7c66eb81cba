(** * PropsExactNames: exactly when a merge keeps interaction names unique (C24) and exactly what a to_physical that raises PlaceholderError leaves behind (C12). *)
From Verif Require Import PyBase PyLemmas Numbers Constraint LogicalModel Spec LogicalProofs EnergyProofs ConvertProofs MergeProofs PhysicalProofs ToPhysicalProofs ConstraintProofs Samples Physical History PropsHistory
  ProperProofs ConstrFrame PropsInteractions PropsConvert PropsMerge PropsPhysical PropsAlike Solver SolverSpec PropsSolver Services PropsSolvers PropsPenalty PropsReach PropsTsp PropsDetermined PropsFixing PropsMergeSum PropsRetry.
Local Open Scope string_scope.
Local Open Scope list_scope.

(** ** Specification *)
(** The name that merge gives to an interaction whose name both models have. *)
Definition clash_name (n id : string) : string := (n +++ " (" +++ id +++ ")")%string.
Definition shared (a b : list string) (n : string) : Prop := In n a /\ In n b.

(** ** C24 *)
Lemma renamed_neq n id : renamed n id <> n.
Proof.
  unfold renamed. intros E. apply (f_equal String.length) in E. rewrite length_append_s in E. cbn in E. lia.
Qed.
Lemma nodup_map_inj {A B} (f : A -> B) l : NoDup (map f l) -> forall x y, In x l -> In y l -> f x = f y -> x = y.
Proof.
  induction l as [|a l IH]; intros N x y HX HY E; [contradiction|]. cbn in N. inversion N as [|? ? N1 N2]; subst.
  destruct HX as [<-|HX], HY as [<-|HY]; auto.
  - exfalso. apply N1. rewrite E. apply in_map. auto.
  - exfalso. apply N1. rewrite <- E. apply in_map. auto.
Qed.
Section Ren.
  Variables (ida idb : string) (na nb dup : list string).
  Hypothesis (HD : forall n, In n dup <-> In n na /\ In n nb) (NA : NoDup na) (NB : NoDup nb)
    (HA : has_char "("%char ida = false) (HB : has_char "("%char idb = false).
  Lemma ren_in id n : In n dup -> ren dup id n = renamed n id.
  Proof. intros H. unfold ren. destruct (mem n dup) eqn:E; auto. apply mem_nin in E. contradiction. Qed.
  Lemma ren_out id n : ~ In n dup -> ren dup id n = n.
  Proof. intros H. unfold ren. destruct (mem n dup) eqn:E; auto. apply mem_in in E. contradiction. Qed.
  Lemma ren_unique_iff : NoDup (map (ren dup ida) na ++ map (ren dup idb) nb) <->
    (forall n, ~ shared na nb n) \/
    (ida <> idb /\ forall n id, shared na nb n -> id = ida \/ id = idb ->
       In (renamed n id) (na ++ nb) -> shared na nb (renamed n id)).
  Proof.
    unfold shared. split.
    - intros H. apply NoDup_app_iff in H. destruct H as (H1 & H2 & H3).
      destruct dup as [|d0 dl] eqn:ED.
      { left. intros n H. apply HD in H. contradiction. }
      rewrite <- ED in *. right. assert (I0 : In d0 dup) by (rewrite ED; left; auto). clear ED.
      split.
      + intros E. apply HD in I0 as I1. destruct I1 as [I1 I2]. apply (H3 (renamed d0 ida)).
        * rewrite <- (ren_in ida d0 I0). apply in_map. auto.
        * rewrite E, <- (ren_in idb d0 I0). apply in_map. auto.
      + intros n id HS HI HR. destruct (in_dec string_dec (renamed n id) dup) as [Y|Y]; [apply HD; auto|exfalso].
        apply HD in HS as HS'. destruct HS as [S1 S2]. apply in_app_iff in HR.
        destruct HI as [-> | ->], HR as [R|R].
        * apply (renamed_neq n ida). apply (nodup_map_inj _ _ H1); auto. rewrite (ren_out ida _ Y), (ren_in ida _ HS'). auto.
        * apply (H3 (renamed n ida)); [rewrite <- (ren_in ida n HS')|rewrite <- (ren_out idb _ Y)]; apply in_map; auto.
        * apply (H3 (renamed n idb)); [rewrite <- (ren_out ida _ Y)|rewrite <- (ren_in idb n HS')]; apply in_map; auto.
        * apply (renamed_neq n idb). apply (nodup_map_inj _ _ H2); auto. rewrite (ren_out idb _ Y), (ren_in idb _ HS'). auto.
    - intros [HN|[NE HF]].
      + assert (ND : forall n, ~ In n dup) by (intros n Hn; apply (HN n), HD, Hn).
        assert (ID : forall id l, map (ren dup id) l = l).
        { intros id l. rewrite <- (map_id l) at 2. apply map_ext. intros a. apply ren_out, ND. }
        rewrite !ID. apply NoDup_app_iff. split; auto. split; auto. intros z Z1 Z2. apply (HN z). auto.
      + assert (INJ : forall id l, (id = ida \/ id = idb) -> incl l (na ++ nb) -> has_char "("%char id = false -> NoDup l -> NoDup (map (ren dup id) l)).
        { intros id l HI HC HP ND. apply NoDup_map_inj; auto. intros x y Hx Hy E.
          destruct (in_dec string_dec x dup) as [X|X], (in_dec string_dec y dup) as [Y|Y].
          - rewrite !ren_in in E by auto. apply renamed_inj in E; tauto.
          - exfalso. rewrite (ren_in _ x X), (ren_out _ y Y) in E. apply Y. rewrite <- E. apply HD. apply HF; auto; [apply HD; auto|rewrite E; auto].
          - exfalso. rewrite (ren_out _ x X), (ren_in _ y Y) in E. apply X. rewrite E. apply HD. apply HF; auto; [apply HD; auto|rewrite <- E; auto].
          - rewrite !ren_out in E by auto. auto. }
        apply NoDup_app_iff. split; [|split].
        * apply INJ; auto. intros x Hx; apply in_app_iff; auto.
        * apply INJ; auto. intros x Hx; apply in_app_iff; auto.
        * intros z Hz1 Hz2. apply in_map_iff in Hz1, Hz2. destruct Hz1 as (x & E1 & Hx), Hz2 as (y & E2 & Hy).
          rewrite <- E1 in E2. clear E1 z. symmetry in E2.
          destruct (in_dec string_dec x dup) as [X|X], (in_dec string_dec y dup) as [Y|Y].
          -- rewrite !ren_in in E2 by auto. apply renamed_inj in E2; auto. destruct E2; contradiction.
          -- rewrite (ren_in _ x X), (ren_out _ y Y) in E2. apply Y. rewrite <- E2. apply HD, HF; auto; [apply HD; auto|rewrite E2; apply in_app_iff; auto].
          -- rewrite (ren_out _ x X), (ren_in _ y Y) in E2. apply X. rewrite E2. apply HD, HF; auto; [apply HD; auto|rewrite <- E2; apply in_app_iff; auto].
          -- rewrite !ren_out in E2 by auto. subst y. apply X, HD. auto.
  Qed.
End Ren.

(** Full statement: names stay unique. They do if and only if the two models have no name in
    common, or they have different ids and no new name "n (id)" is one that
    exactly one of the two models already has. *)
Theorem C24_unique_iff : forall ev evo k m o m' o', aligned m -> names_unique m -> names_unique o' ->
  has_char "("%char (e_id_self ev) = false -> has_char "("%char (e_id_other ev k) = false ->
  merge ev evo k m o = (m', o', Ok tt) ->
  (names_unique m' <->
   (forall n, ~ shared (names m) (names o') n) \/
   (e_id_self ev <> e_id_other ev k /\
    forall n id, shared (names m) (names o') n -> id = e_id_self ev \/ id = e_id_other ev k ->
      In (clash_name n id) (names m ++ names o') -> shared (names m) (names o') (clash_name n id))).
Proof.
  intros ev evo k m o m' o' HA U1 U2 P1 P2 E. apply merge_inv in E. destruct E as [_ E].
  unfold names_unique. rewrite (merge_same_names _ _ _ _ _ _ E (proj1 HA)). apply (ren_unique_iff); auto.
  intros n. apply in_dup_names.
Qed.
(** The names the merged model has, in order: those of self and then those of other, where
    a name that both have got the id of its model. *)
Theorem C24_names : forall ev evo k m o m' o', aligned m -> merge ev evo k m o = (m', o', Ok tt) ->
  length (names m') = length (names m) + length (names o') /\
  forall i n, nth_error (names m ++ names o') i = Some n ->
    (~ shared (names m) (names o') n -> nth_error (names m') i = Some n) /\
    (shared (names m) (names o') n -> nth_error (names m') i =
       Some (clash_name n (if Nat.ltb i (length (names m)) then e_id_self ev else e_id_other ev k))).
Proof.
  intros ev evo k m o m' o' HA E. apply merge_inv in E. destruct E as [_ E].
  rewrite (merge_same_names _ _ _ _ _ _ E (proj1 HA)). split; [rewrite app_length, !map_length; auto|].
  set (na := names m). set (nb := names o'). intros i n HN.
  assert (D : forall x, In x (dup_names m o') <-> shared na nb x) by (intros x; apply in_dup_names).
  assert (G : nth_error (map (ren (dup_names m o') (e_id_self ev)) na ++ map (ren (dup_names m o') (e_id_other ev k)) nb) i =
    Some (ren (dup_names m o') (if Nat.ltb i (length na) then e_id_self ev else e_id_other ev k) n)).
  { destruct (Nat.ltb_spec i (length na)) as [L|L].
    - rewrite nth_error_app1 in HN by auto. rewrite nth_error_app1 by (rewrite map_length; auto). apply map_nth_error; auto.
    - rewrite nth_error_app2 in HN by auto. rewrite nth_error_app2 by (rewrite map_length; auto). rewrite map_length. apply map_nth_error; auto. }
  rewrite G. split; intros H; f_equal.
  - apply ren_out. intros X. apply H, D, X.
  - apply ren_in. apply D, H.
Qed.
(** Merging the same model into a model that has its interactions: the first two merges keep names
    unique and the third does not (C24_refuted); here each outcome is what C24_unique_iff says. *)
Example C24_iff_hyps : exists m1 m2 m3,
  aligned (one_row "a") /\ names_unique (one_row "a") /\ has_char "("%char (e_id_self env0) = false /\ has_char "("%char (e_id_other env0 0) = false /\
  merge env0 env0 0 (one_row "a") (one_row "a") = (m1, one_row "a", Ok tt) /\
  merge env0 env0 0 m1 (one_row "a") = (m2, one_row "a", Ok tt) /\ names_unique m2 /\
  merge env0 env0 0 m2 (one_row "a") = (m3, one_row "a", Ok tt).
Proof.
  eexists. eexists. eexists. split; [apply alignedb_ok; vm_compute; reflexivity|]. split; [apply nodupb_ok; reflexivity|].
  split; [reflexivity|]. split; [reflexivity|]. split; [vm_compute; reflexivity|]. split; [vm_compute; reflexivity|].
  split; [apply nodupb_ok; reflexivity|]. vm_compute; reflexivity.
Qed.

(** ** C12 *)
(** The same interaction up to its name. *)
Definition but_name (a b : row) : Prop :=
  r_key a = r_key b /\ r_inter a = r_inter b /\ r_coef a = r_coef b /\ r_scale a = r_scale b /\ r_ts a = r_ts b /\
  r_dirty a = r_dirty b /\ r_removed a = r_removed b.
(** Full statement: a to_physical that raises PlaceholderError leaves the model as it was. What it
    leaves is the model with interactions added at the end: the value of every assignment
    grows by the penalties of the constraints (for an Ising model up to a constant).
    Type, variables, deleted and fixed variables, constraints and the last physical model are as
    before; all interactions that were there still are, in order, except that one
    may have a new name. *)
Theorem C12_exact_effect : forall ev evs fd m m1, aligned m -> Forall constr_ok (dvals (m_constrs m)) ->
  to_physical ev evs fd m = (m1, Err PlaceholderError) ->
  ~ resolved fd m /\
  m_mtype m1 = m_mtype m /\ m_vars m1 = m_vars m /\ m_deleted m1 = m_deleted m /\ m_fixed m1 = m_fixed m /\
  m_constrs m1 = m_constrs m /\ m_prev m1 = m_prev m /\
  Forall2 but_name (firstn (length (m_rows m)) (m_rows m1)) (m_rows m) /\
  forall fd' a, lawful (m_mtype m) a -> resolves fd' (m_offset m) ->
    objective fd' m1 a = (objective fd' m a + penalties (as_binary (m_mtype m) a) (dvals (m_constrs m)) + shift m)%Qc.
Proof.
  intros ev evs fd m m1 A HC E. destruct (failed_step _ _ _ _ _ A E) as (R & A1 & cms & EC & HM).
  destruct (failed_energy _ _ _ _ _ A HC E) as (_ & _ & _ & EN).
  pose proof (mg_frame _ _ _ HM) as F. unfold frame in F.
  split; [exact R|]. do 6 (split; [congruence|]). split.
  - apply mg_rows in HM. revert HM. generalize (flat_map names cms) (m_rows m1) (flat_map m_rows cms). intros ns l1 tl.
    revert l1. induction (m_rows m) as [|b l IH]; intros l1 H; cbn [length firstn]; [constructor|].
    cbn in H. inversion H as [|x y l' l'' HX HT]; subst. constructor; [|apply IH; auto].
    destruct HX as [HX _]. apply eqx_fields in HX. unfold but_name. tauto.
  - intros fd' a L HR. apply (EN fd' a L). apply (mg_off _ _ _ HM fd'). exact HR.
Qed.
Example C12_exact_effect_hyps : exists m1, to_physical env0 evs0 [] qubo_model = (m1, Err PlaceholderError) /\ aligned qubo_model /\
  Forall constr_ok (dvals (m_constrs qubo_model)) /\ m_constrs qubo_model <> [] /\ resolves feed0 (m_offset qubo_model).
Proof.
  assert (R : snd (to_physical env0 evs0 [] qubo_model) = Err PlaceholderError) by (vm_compute; reflexivity).
  exists (fst (to_physical env0 evs0 [] qubo_model)). split.
  - rewrite <- R. destruct (to_physical env0 evs0 [] qubo_model); reflexivity.
  - split; [apply qubo_al|]. split; [constructor; [apply nodupb_ok; vm_compute; reflexivity|constructor; [split; apply nodupb_ok; vm_compute; reflexivity|constructor]]|]. split; [intros X; apply (f_equal (@length _)) in X; vm_compute in X; discriminate X|]. unfold resolves. intros X. assert (Y : (match ceval feed0 (m_offset qubo_model) with Some _ => true | None => false end) = true) by (vm_compute; reflexivity). rewrite X in Y. discriminate Y.
Qed.
Print Assumptions C24_unique_iff.
Print Assumptions C24_names.
Print Assumptions C12_exact_effect.
