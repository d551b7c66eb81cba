(** * PropsBqm: properties C37, C38, C60, C64. *)
From Verif Require Import PyBase PyLemmas Numbers Constraint LogicalModel Spec PhysicalProofs ToPhysicalProofs Samples
  PropsPhysical Physical BqmProofs History PropsHistory.
Open Scope list_scope.

(** ** C37: to_bqm *)
Lemma energy_physical_dsum s p : energy_physical s p =
  (- dsum s (p_linear p) - dsum (fun ab => s (fst ab) * s (snd ab)) (p_quad p) + p_offset p)%Qc.
Proof. reflexivity. Qed.

Theorem C37_to_bqm : forall p b, to_bqm (- (1))%Qc p = Ok b ->
  (forall s, energy_bqm s b = energy_physical s p) /\
  (b_spin b = true <-> p_mtype p = Ising) /\
  NoDup (bqm_variables b) /\ (forall l, In l (bqm_variables b) <-> occurs p l) /\
  NoDup (dkeys (b_quad b)) /\ (forall u v, In (u, v) (dkeys (b_quad b)) -> ~ In (v, u) (dkeys (b_quad b))) /\
  (forall u v, In (u, v) (dkeys (b_quad b)) \/ In (v, u) (dkeys (b_quad b)) <->
               In (u, v) (dkeys (p_quad p)) \/ In (v, u) (dkeys (p_quad p))).
Proof.
  intros p b E. destruct (to_bqm_spec _ _ _ E) as (H1 & (W1 & W2 & W3) & H3 & H4 & H5 & H6 & H7).
  split; [intros s; rewrite H1, energy_physical_dsum; ring|]. split; [rewrite H6; destruct (p_mtype p); split; congruence|].
  split; auto. split; auto. split; auto. split; auto. intros u v HI. destruct (W3 u v HI) as (_ & _ & _ & HN). auto.
Qed.
(** It succeeds exactly on models without an interaction of a variable with itself. *)
Theorem C37_succeeds_iff : forall sg p,
  ((exists b, to_bqm sg p = Ok b) <-> (forall l, ~ In (l, l) (dkeys (p_quad p)))) /\
  ((exists l, In (l, l) (dkeys (p_quad p))) -> to_bqm sg p = Err ValueError).
Proof.
  intros sg p.
  assert (HE : forall q b e, bqm_interactions q b = Err e -> e = ValueError).
  { induction q as [|[[u v] c] q IH]; intros b e E; cbn [bqm_interactions] in E; [discriminate|].
    destruct (bqm_add_interaction u v c b) eqn:E1; eauto. inversion E; subst. unfold bqm_add_interaction in E1. destruct (String.eqb u v); inversion E1; auto. }
  assert (HI : (exists b, to_bqm sg p = Ok b) <-> (forall l, ~ In (l, l) (dkeys (p_quad p)))).
  { split.
    - intros [b E] l HI. destruct (to_bqm_spec _ _ _ E) as (_ & _ & _ & _ & _ & _ & H). rewrite Forall_forall in H.
      apply in_map_iff in HI. destruct HI as ([k c] & HK & HI). apply H in HI. simpl in HK, HI. subst k. apply HI. reflexivity.
    - intros H. apply to_bqm_ok. apply Forall_forall. intros [[u v] c] HI HU. simpl in HU. subst v. apply (H u).
      apply (in_map fst) in HI. exact HI. }
  split; auto. intros [l HL]. destruct (to_bqm sg p) as [b|e] eqn:E.
  - exfalso. destruct HI as [HI _]. apply (HI (ex_intro _ b eq_refl) l HL).
  - f_equal. unfold to_bqm, bqm_new in E. eapply HE; eauto.
Qed.
(** Physical models that come out of any history of API calls have a BQM. *)
Lemma cmodels_rows evs t : forall cs k cms, cmodels evs k t cs = Ok cms -> Forall (fun cm => Forall key_ok (m_rows cm)) cms.
Proof.
  induction cs as [|c cs IH]; intros k cms E; cbn [cmodels] in E; [inversion E; constructor|].
  destruct (cmodel (evs k) t c) as [cm|] eqn:EC; [|discriminate]. destruct (cmodels evs (S k) t cs) as [l|] eqn:EL; [|discriminate].
  inversion E; subst. constructor; [|eauto]. clear E. unfold cmodel in EC.
  destruct (to_model (evs k) c) as [cm0 [u|e]] eqn:EM; [|discriminate].
  assert (HK : Forall key_ok (m_rows cm0)) by (pose proof (keeps_to_model _ (evs k) c closed_keys) as HT; rewrite EM in HT; exact HT).
  destruct (mtype_eqb t Qubo); [inversion EC; subst; auto|].
  destruct (to_ising (evs k) cm0) as [cm1 [u1|e]] eqn:EI; inversion EC; subst. unfold to_ising in EI.
  revert EI HK. apply (keeps_convert _ closed_keys).
Qed.
Theorem C37_from_logical : forall ev evs fd m m' p sg,
  reachable m -> m_len m = length (m_rows m) -> to_physical ev evs fd m = (m', Ok p) -> exists b, to_bqm sg p = Ok b.
Proof.
  intros ev evs fd m m' p sg HR HL E. apply C37_succeeds_iff. intros l HI.
  destruct (C10_coefficients _ _ _ _ _ _ HL E) as (cms & EC & _ & _ & _ & _ & HZ & _).
  destruct (Qc_eq_dec (quad_total fd (m_rows m ++ flat_map m_rows cms) l l) 0) as [EZ|EZ].
  - apply HZ in EZ. destruct (proj2 (dget_some_in _ _) HI) as [v HV]. congruence.
  - apply EZ. unfold quad_total. apply qsum_map_zero. intros r Hr. destruct (r_removed r); auto.
    assert (HK : key_ok r).
    { apply in_app_or in Hr. destruct Hr as [Hr|Hr].
      - pose proof (C01_keys m HR) as HK. rewrite Forall_forall in HK. auto.
      - apply in_flat_map in Hr. destruct Hr as (cm & HC & Hr). pose proof (cmodels_rows _ _ _ _ _ EC) as HF.
        rewrite Forall_forall in HF. specialize (HF cm HC). rewrite Forall_forall in HF. auto. }
    destruct HK as [_ HK]. destruct (r_key r) as [a|a b]; auto. destruct (String.eqb l a && String.eqb l b) eqn:EB; auto.
    apply andb_true_iff in EB. destruct EB as [E1 E2]. apply String.eqb_eq in E1, E2. subst. rewrite ltb_irrefl in HK. discriminate.
Qed.

(** ** C38: to_polynomial *)
(** Value of a polynomial on a vector indexed by the variables' indices. *)
Definition poly_value (x : nat -> Qc) (t : list term) : Qc :=
  qsum (map (fun e => snd e * (x (fst (fst e)) * x (snd (fst e))))%Qc t).
Lemma poly_value_app x a b : poly_value x (a ++ b) = (poly_value x a + poly_value x b)%Qc.
Proof. unfold poly_value. rewrite map_app. apply qsum_app. Qed.
Lemma poly_linear_spec p x s : forall d t, poly_linear p d = Ok t ->
  (forall l i, dget l (p_l2i p) = Some i -> x i = s l /\ (x i * x i = x i)%Qc) ->
  (poly_value x t = - dsum s d)%Qc /\ (forall l, In l (dkeys d) -> indexed p l).
Proof.
  unfold poly_value, dsum. induction d as [|[k v] d IH]; intros t E HX; cbn [poly_linear] in E.
  - inversion E. simpl. split; [ring|tauto].
  - unfold l2i at 1 in E. destruct (dget k (p_l2i p)) as [i|] eqn:EK; [|discriminate]. cbn [rbind] in E.
    destruct (poly_linear p d) as [t'|] eqn:ET; [|discriminate]. cbn [rbind] in E. inversion E; subst. destruct (IH _ eq_refl HX) as [H1 H2].
    split.
    + cbn [map qsum fst snd]. rewrite H1. destruct (HX k i EK) as [E1 E2]. rewrite E2, E1. ring.
    + intros l [<-|HI]; [exists i; auto|auto].
Qed.
Lemma poly_quad_spec p x s : forall d t, poly_quad p d = Ok t ->
  (forall l i, dget l (p_l2i p) = Some i -> x i = s l) ->
  (poly_value x t = - dsum (fun ab => s (fst ab) * s (snd ab)) d)%Qc /\ (forall a b, In (a, b) (dkeys d) -> indexed p a /\ indexed p b).
Proof.
  unfold poly_value, dsum. induction d as [|[[a b] v] d IH]; intros t E HX; cbn [poly_quad] in E.
  - inversion E. simpl. split; [ring|tauto].
  - unfold l2i at 1 2 in E. destruct (dget a (p_l2i p)) as [i|] eqn:EA; [|discriminate]. destruct (dget b (p_l2i p)) as [j|] eqn:EB; [|discriminate].
    cbn [rbind] in E. destruct (poly_quad p d) as [t'|] eqn:ET; [|discriminate]. cbn [rbind] in E. inversion E; subst. destruct (IH _ eq_refl HX) as [H1 H2].
    split.
    + cbn [map qsum fst snd]. rewrite H1, (HX _ _ EA), (HX _ _ EB). ring.
    + intros c e [HI|HI]; [inversion HI; subst; split; [exists i|exists j]; auto|auto].
Qed.
Theorem C38_value : forall p t x s, to_polynomial p = Ok t -> binary s ->
  (forall l i, dget l (p_l2i p) = Some i -> x i = s l) ->
  (poly_value x t = energy_physical s p - p_offset p)%Qc.
Proof.
  intros p t x s E HB HX. unfold to_polynomial in E. destruct (poly_linear p (p_linear p)) as [a|] eqn:EA; [|discriminate].
  destruct (poly_quad p (p_quad p)) as [b|] eqn:EB; [|discriminate]. inversion E; subst.
  apply (poly_linear_spec p x s) in EA; [|intros l i HL; split; auto; rewrite (HX _ _ HL); destruct (HB l) as [->| ->]; ring].
  apply (poly_quad_spec p x s) in EB; auto. destruct EA as [EA _], EB as [EB _].
  rewrite poly_value_app, EA, EB. rewrite energy_physical_dsum. ring.
Qed.
Theorem C38_succeeds_iff : forall p,
  ((exists t, to_polynomial p = Ok t) <-> (forall l, occurs p l -> indexed p l)) /\
  ((exists l, occurs p l /\ ~ indexed p l) -> to_polynomial p = Err KeyError).
Proof.
  intros p.
  assert (HL : forall d, (exists t, poly_linear p d = Ok t) /\ (forall l, In l (dkeys d) -> indexed p l) \/
                         poly_linear p d = Err KeyError /\ (exists l, In l (dkeys d) /\ ~ indexed p l)).
  { induction d as [|[k v] d IH]; cbn [poly_linear]; [left; split; [eauto|simpl; tauto]|]. unfold l2i. destruct (dget k (p_l2i p)) as [i|] eqn:EK; cbn [rbind].
    - destruct IH as [[[t ->] H]|[-> (l & H1 & H2)]]; cbn [rbind].
      + left. split; [eauto|]. intros l [<-|HI]; [exists i; auto|auto].
      + right. split; auto. exists l. simpl. auto.
    - right. split; auto. exists k. simpl. split; auto. intros [i Hi]. congruence. }
  assert (HQ : forall d, (exists t, poly_quad p d = Ok t) /\ (forall a b, In (a, b) (dkeys d) -> indexed p a /\ indexed p b) \/
                         poly_quad p d = Err KeyError /\ (exists a b l, In (a, b) (dkeys d) /\ (l = a \/ l = b) /\ ~ indexed p l)).
  { induction d as [|[[a b] v] d IH]; cbn [poly_quad]; [left; split; [eauto|simpl; tauto]|]. unfold l2i.
    destruct (dget a (p_l2i p)) as [i|] eqn:EA; cbn [rbind].
    - destruct (dget b (p_l2i p)) as [j|] eqn:EB; cbn [rbind].
      + destruct IH as [[[t ->] H]|[-> (x & y & l & H1 & H2)]]; cbn [rbind].
        * left. split; [eauto|]. intros x y [HI|HI]; [inversion HI; subst; split; [exists i|exists j]; auto|auto].
        * right. split; auto. exists x, y, l. simpl. auto.
      + right. split; auto. exists a, b, b. simpl. split; auto. split; auto. intros [k Hk]. congruence.
    - right. split; auto. exists a, b, a. simpl. split; auto. split; auto. intros [k Hk]. congruence. }
  unfold to_polynomial. destruct (HL (p_linear p)) as [[[t EL] L2]|[EL (l & L2 & L3)]]; rewrite EL; cbn [rbind].
  - destruct (HQ (p_quad p)) as [[[u EQ] Q2]|[EQ (x & y & l & Q2 & Q3 & Q4)]]; rewrite EQ; cbn [rbind].
    + assert (HA : forall l, occurs p l -> indexed p l).
      { intros l [HO|(x & y & HO & [->| ->])]; [auto| |]; apply Q2 in HO; tauto. }
      split; [split; eauto|]. intros (l & HO & HN). exfalso. auto.
    + assert (HO : occurs p l) by (right; exists x, y; auto). split; auto. split; [intros [? ?]; discriminate|intros H; exfalso; auto].
  - assert (HO : occurs p l) by (left; auto). split; auto. split; [intros [? ?]; discriminate|intros H; exfalso; auto].
Qed.

Definition sample_physical (m : lmodel) : physical :=
  match snd (to_physical env0 evs0 feed0 m) with Ok p => p | Err _ => mkPhysical Ising [] [] 0 [] [] [] end.
Example C37_C38_hyps :
  (exists b, to_bqm (- (1))%Qc (sample_physical qubo_model) = Ok b /\ length (b_linear b) = 4 /\ length (b_quad b) = 4) /\
  (exists t, to_polynomial (sample_physical qubo_model) = Ok t /\ length t = 8).
Proof.
  split.
  - destruct (to_bqm (- (1))%Qc (sample_physical qubo_model)) as [b|e] eqn:E; [|vm_compute in E; discriminate].
    exists b. split; auto. assert (HH := f_equal (fun z => match z with Ok b => (length (b_linear b), length (b_quad b)) | _ => (0, 0) end) E).
    vm_compute in HH. inversion HH; auto.
  - destruct (to_polynomial (sample_physical qubo_model)) as [b|e] eqn:E; [|vm_compute in E; discriminate].
    exists b. split; auto. assert (HH := f_equal (fun z => match z with Ok b => length b | _ => 0 end) E).
    vm_compute in HH. auto.
Qed.

(** ** C60: model type names *)
Theorem C60_inverse : forall s t,
  (modeltype_to_vartype s = Ok t <-> vartype_to_modeltype t = Ok s) /\
  (modeltype_to_vartype s = Ok t -> s = "ising"%string /\ t = "SPIN"%string \/ s = "qubo"%string /\ t = "BINARY"%string).
Proof.
  intros s t. unfold modeltype_to_vartype, vartype_to_modeltype.
  destruct (String.eqb_spec s "ising"), (String.eqb_spec s "qubo"), (String.eqb_spec t "SPIN"), (String.eqb_spec t "BINARY"); subst;
    try discriminate; (split; [split|]); intros E; inversion E; subst; auto; try congruence.
Qed.
Theorem C60_invalid : forall s, s <> "ising"%string -> s <> "qubo"%string -> s <> "SPIN"%string -> s <> "BINARY"%string ->
  modeltype_to_vartype s = Err ValueError /\ vartype_to_modeltype s = Err ValueError.
Proof.
  intros s H1 H2 H3 H4. apply String.eqb_neq in H1, H2, H3, H4. unfold modeltype_to_vartype, vartype_to_modeltype.
  rewrite H1, H2, H3, H4. auto.
Qed.
Theorem C60_rejects_iff : forall s, (modeltype_to_vartype s = Err ValueError <-> s <> "ising"%string /\ s <> "qubo"%string) /\
  (vartype_to_modeltype s = Err ValueError <-> s <> "SPIN"%string /\ s <> "BINARY"%string).
Proof.
  intros s. unfold modeltype_to_vartype, vartype_to_modeltype.
  destruct (String.eqb_spec s "ising"), (String.eqb_spec s "qubo"), (String.eqb_spec s "SPIN"), (String.eqb_spec s "BINARY"); subst;
    try discriminate; (split; split; [|intros [? ?]|  |intros [? ?]]); try congruence; try (intros; split; congruence).
Qed.
Example C60_hyps : modeltype_to_vartype "qubo" = Ok "BINARY"%string /\ vartype_to_modeltype "BINARY" = Ok "qubo"%string.
Proof. split; reflexivity. Qed.

(** ** C64: equality of physical models *)
(** Two dictionaries with the same content. *)
Definition same_dict {K V} `{Eqb K} (a b : dict K V) : Prop := forall k, dget k a = dget k b.
Lemma dict_eqb_spec {K V} `{Eqb K} `{Eqb V} (a b : dict K V) : NoDup (dkeys a) -> NoDup (dkeys b) ->
  (dict_eqb a b = true <-> same_dict a b).
Proof.
  intros NA NB. unfold dict_eqb, same_dict. rewrite andb_true_iff, Nat.eqb_eq, forallb_forall. split.
  - intros [HL HF].
    assert (HA : forall k v, dget k a = Some v -> dget k b = Some v).
    { intros k v HG. apply dget_in in HG. specialize (HF _ HG). simpl in HF. destruct (dget k b); [|discriminate]. apply eqb_eq in HF. congruence. }
    assert (HI : incl (dkeys a) (dkeys b)).
    { intros k HK. destruct (proj2 (dget_some_in _ _) HK) as [v HV]. apply HA in HV. apply dget_in in HV. apply (in_map fst) in HV. exact HV. }
    assert (HR : incl (dkeys b) (dkeys a)) by (apply NoDup_length_incl; auto; unfold dkeys; rewrite !map_length; lia).
    intros k. destruct (dget k a) as [v|] eqn:EA; [rewrite (HA _ _ EA); auto|].
    destruct (dget k b) as [w|] eqn:EB; auto. apply dget_in in EB. apply (in_map fst) in EB. apply HR in EB. destruct (proj2 (dget_some_in _ _) EB) as [v HV]. simpl in HV. congruence.
  - intros HS. split.
    + assert (HI : forall c d : dict K V, (forall k, dget k c = dget k d) -> incl (dkeys c) (dkeys d)).
      { intros c d HE k HK. destruct (proj2 (dget_some_in _ _) HK) as [v HV]. rewrite HE in HV. apply dget_in in HV. apply (in_map fst) in HV. exact HV. }
      assert (L1 := NoDup_incl_length NA (HI a b HS)). assert (L2 := NoDup_incl_length NB (HI b a (fun k => eq_sym (HS k)))).
      unfold dkeys in *. rewrite !map_length in *. lia.
    + intros [k v] HI. simpl. rewrite <- HS. apply in_dget in HI; auto. rewrite HI. apply eqb_refl.
Qed.
Definition proper_dicts (p : physical) : Prop :=
  NoDup (dkeys (p_linear p)) /\ NoDup (dkeys (p_quad p)) /\ NoDup (dkeys (p_l2i p)) /\ NoDup (dkeys (p_i2l p)).
Theorem C64_equal_iff : forall p q, proper_dicts p -> proper_dicts q ->
  (physical_eqb p q = true <->
   p_mtype p = p_mtype q /\ same_dict (p_linear p) (p_linear q) /\ same_dict (p_quad p) (p_quad q) /\
   p_offset p = p_offset q /\ same_dict (p_l2i p) (p_l2i q) /\ same_dict (p_i2l p) (p_i2l q)).
Proof.
  intros p q (P1 & P2 & P3 & P4) (Q1 & Q2 & Q3 & Q4). unfold physical_eqb.
  rewrite !andb_true_iff, !dict_eqb_spec, Qc_eqb_eq by auto.
  assert (HM : mtype_eqb (p_mtype p) (p_mtype q) = true <-> p_mtype p = p_mtype q) by (destruct (p_mtype p), (p_mtype q); simpl; split; congruence).
  rewrite HM. tauto.
Qed.
Lemma dsum_same {K} `{Eqb K} (f : K -> Qc) : forall a b : dict K Qc, NoDup (dkeys a) -> NoDup (dkeys b) -> same_dict a b -> dsum f a = dsum f b.
Proof.
  intros a b NA NB HS. unfold dsum. apply qsum_perm. apply Permutation_map. apply NoDup_Permutation.
  - apply NoDup_map_inv with (f := fst); auto.
  - apply NoDup_map_inv with (f := fst); auto.
  - intros [k v]. split; intros HI.
    + apply in_dget in HI; auto. rewrite HS in HI. apply dget_in; auto.
    + apply in_dget in HI; auto. rewrite <- HS in HI. apply dget_in; auto.
Qed.
(** Equal physical models have the same energy everywhere. *)
Theorem C64_equal_energy : forall p q s, proper_dicts p -> proper_dicts q -> physical_eqb p q = true ->
  energy_physical s p = energy_physical s q.
Proof.
  intros p q s HP HQ E. pose proof HP as (P1 & P2 & _). pose proof HQ as (Q1 & Q2 & _).
  apply C64_equal_iff in E; auto. destruct E as (_ & E1 & E2 & E3 & _). rewrite !energy_physical_dsum.
  rewrite (dsum_same s _ _ P1 Q1 E1), (dsum_same _ _ _ P2 Q2 E2), E3. reflexivity.
Qed.
(** Physical models made by to_physical have proper dictionaries. *)
Theorem C64_from_logical : forall ev evs fd m m' p,
  m_len m = length (m_rows m) -> NoDup (all_labels (m_vars m)) ->
  to_physical ev evs fd m = (m', Ok p) -> proper_dicts p.
Proof.
  intros ev evs fd m m' p HL HN E. destruct (C10_coefficients _ _ _ _ _ _ HL E) as (cms & _ & N1 & N2 & _).
  destruct (C13_index_bijection _ _ _ _ _ _ HL HN E) as (ls & N3 & _ & K1 & K2 & _).
  split; auto. split; auto. rewrite K1, K2. split; auto. apply seq_NoDup.
Qed.
Example C64_hyps :
  let p := mkPhysical Ising [("a"%string, qz 1); ("b"%string, qz 2)] [("a"%string, "b"%string, qz 3)] 0 [] [("a"%string, 0); ("b"%string, 1)] [(0, "a"%string); (1, "b"%string)] in
  let q := mkPhysical Ising [("b"%string, qz 2); ("a"%string, qz 1)] [("a"%string, "b"%string, qz 3)] 0 [] [("b"%string, 1); ("a"%string, 0)] [(0, "a"%string); (1, "b"%string)] in
  p <> q /\ proper_dicts p /\ proper_dicts q /\ physical_eqb p q = true /\ physical_eqb p (phys_add_linear "a" (qz 7) q) = false.
Proof.
  cbv zeta. split; [discriminate|]. split; [split; [|split; [|split]]; apply nodupb_ok; reflexivity|].
  split; [split; [|split; [|split]]; apply nodupb_ok; reflexivity|]. split; vm_compute; reflexivity.
Qed.
Print Assumptions C37_to_bqm.
Print Assumptions C37_succeeds_iff.
Print Assumptions C37_from_logical.
Print Assumptions C38_value.
Print Assumptions C38_succeeds_iff.
Print Assumptions C60_inverse.
Print Assumptions C60_invalid.
Print Assumptions C60_rejects_iff.
Print Assumptions C64_equal_iff.
Print Assumptions C64_equal_energy.
Print Assumptions C64_from_logical.
