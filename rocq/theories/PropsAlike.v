(** * PropsAlike: properties C91 and C92, equal models behave alike. *)
From Verif Require Import PyBase PyLemmas Numbers Constraint LogicalModel Physical Spec LogicalProofs EnergyProofs ConvertProofs ConstraintProofs MergeProofs PhysicalProofs
  ToPhysicalProofs Samples History PropsHistory PropsConvert PropsMerge PropsPhysical PropsBqm EqualitySpec ModelEq ProperProofs ConstrKeeps PropsEquality AlikeProofs.
Open Scope list_scope.

(** Every model built by any history of calls, the constraints given to it being
    constraint objects. *)
Definition built (m : lmodel) : Prop := reachable_with real_sets m.
Lemma built_sets m : built m -> sets_in m.
Proof. apply reachable_all. destruct C90_sets as (_ & _ & _ & _ & H & _). exact H. Qed.
Lemma built_reg m : built m -> reg m.
Proof. intros H. apply reachable_regular. eapply reachable_with_reachable; eauto. Qed.
Theorem C90_built : forall m o, built m -> built o -> (model_eqb m (Some o) = true <-> same_content m o).
Proof.
  intros m o HM HO. apply C90_models; auto using built_sets; apply built_reg; auto.
Qed.
Lemma built_sim m o : built m -> built o -> (model_eqb m (Some o) = true <-> sim m o).
Proof.
  intros HM HO. rewrite C90_built by auto. split; [|intros (_ & _ & H); exact H]. intros H. split; [apply built_reg; auto|]. split; [apply built_reg; auto|auto].
Qed.

(** ** C91 *)
Definition returns (r : lmodel * res unit) : Prop := snd r = Ok tt.
Lemma op_alike ev evs o m m' : (forall fd, o <> OPhysical fd) -> sim m m' -> returns (do_op ev evs o m) ->
  returns (do_op ev evs o m') /\ sim (fst (do_op ev evs o m)) (fst (do_op ev evs o m')).
Proof.
  unfold returns. intros NP HS HR.
  assert (HA : forall f : LM unit, alike f f -> snd (f m) = Ok tt -> snd (f m') = Ok tt /\ sim (fst (f m)) (fst (f m'))).
  { intros f HF E. destruct (f m) as [n r] eqn:EF. simpl in E. subst r. destruct (HF _ _ _ _ HS EF) as (n' & -> & H). auto. }
  destruct o; cbn [do_op] in *; try (apply HA; [|exact HR]).
  - apply al_variables.
  - apply al_append.
  - apply al_add.
  - apply al_update.
  - apply al_remove.
  - apply al_delete.
  - apply al_fix.
  - apply al_add_constraint.
  - apply al_remove_constraint.
  - apply al_modify. intros. apply sim_offset. auto.
  - destruct (from_pyqubo ev m pq) as [[n pq'] r] eqn:E. simpl in HR. subst r. destruct (al_pyqubo _ _ _ _ _ _ _ HS E) as (n' & -> & H). auto.
  - unfold to_ising. apply al_convert.
  - unfold to_qubo. apply al_convert.
  - exfalso. apply (NP fd). auto.
Qed.
Theorem C91_operations : forall ev evs o m m', built m -> built m' -> given real_sets o -> (forall fd, o <> OPhysical fd) ->
  model_eqb m (Some m') = true ->
  (returns (do_op ev evs o m) <-> returns (do_op ev evs o m')) /\
  (returns (do_op ev evs o m) -> model_eqb (fst (do_op ev evs o m)) (Some (fst (do_op ev evs o m'))) = true).
Proof.
  intros ev evs o m m' HM HM' HG NP E. apply built_sim in E; auto. split.
  - split; intros HR; [apply (op_alike ev evs o m m'); auto|apply (op_alike ev evs o m' m); auto using sim_sym].
  - intros HR. apply built_sim; [constructor; auto|constructor; auto|]. apply op_alike; auto.
Qed.
(** Any sequence of calls, all of which return. *)
Fixpoint run (l : list (env * (nat -> env) * op)) (m : lmodel) : option lmodel :=
  match l with
  | [] => Some m
  | (ev, evs, o) :: r => match do_op ev evs o m with (m', Ok _) => run r m' | _ => None end
  end.
Theorem C91_sequences : forall l m m', built m -> built m' ->
  (forall ev evs o, In (ev, evs, o) l -> given real_sets o /\ forall fd, o <> OPhysical fd) ->
  model_eqb m (Some m') = true ->
  match run l m, run l m' with
  | Some n, Some n' => model_eqb n (Some n') = true
  | None, None => True
  | _, _ => False
  end.
Proof.
  induction l as [|[[ev evs] o] l IH]; intros m m' HM HM' HL E; [exact E|]. cbn [run].
  destruct (HL ev evs o) as [HG NP]; [simpl; auto|].
  destruct (C91_operations ev evs o m m' HM HM' HG NP E) as [H1 H2]. unfold returns in *.
  assert (B := rw_op real_sets ev evs o m HM HG). assert (B' := rw_op real_sets ev evs o m' HM' HG).
  destruct (do_op ev evs o m) as [n [[]|e]] eqn:E1, (do_op ev evs o m') as [n' [[]|e']] eqn:E2; cbn [fst snd] in *; auto.
  - apply IH; auto. intros ev0 evs0 o0 HI. apply (HL ev0 evs0 o0); simpl; auto.
  - destruct H1 as [H1 _]. specialize (H1 eq_refl). discriminate.
  - destruct H1 as [_ H1]. specialize (H1 eq_refl). discriminate.
Qed.
Theorem C91_merge : forall ev evo k m m' o o', built m -> built m' -> built o -> built o' ->
  model_eqb m (Some m') = true -> model_eqb o (Some o') = true ->
  (snd (merge ev evo k m o) = Ok tt <-> snd (merge ev evo k m' o') = Ok tt) /\
  (snd (merge ev evo k m o) = Ok tt ->
   model_eqb (fst (fst (merge ev evo k m o))) (Some (fst (fst (merge ev evo k m' o')))) = true /\
   model_eqb (snd (fst (merge ev evo k m o))) (Some (snd (fst (merge ev evo k m' o')))) = true).
Proof.
  intros ev evo k m m' o o' HM HM' HO HO' E1 E2. apply built_sim in E1; auto. apply built_sim in E2; auto.
  assert (HH : forall m m' o o', sim m m' -> sim o o' -> snd (merge ev evo k m o) = Ok tt -> snd (merge ev evo k m' o') = Ok tt /\
    sim (fst (fst (merge ev evo k m o))) (fst (fst (merge ev evo k m' o'))) /\ sim (snd (fst (merge ev evo k m o))) (snd (fst (merge ev evo k m' o')))).
  { clear. intros m m' o o' HS HO E. destruct (merge ev evo k m o) as [[n p] r] eqn:EM. simpl in E. subst r.
    destruct (al_merge _ _ _ _ _ _ _ _ _ _ HS HO EM) as (n' & p' & -> & H1 & H2). auto. }
  split; [split; intros E; [apply (HH m m' o o')|apply (HH m' m o' o)]; auto using sim_sym|].
  intros E. destruct (HH m m' o o' E1 E2 E) as (_ & H1 & H2).
  split; apply built_sim; auto; try (apply rw_merge; auto); apply rw_merged; auto.
Qed.

(** ** Physical models *)
Lemma closed_ok : forall a c c' r, c_remove_variable a c = (c', r) -> constr_ok c -> constr_ok c'.
Proof.
  assert (HN : forall f vs, NoDup (map v_label vs) -> NoDup (map v_label (filter f vs))).
  { intros f vs. induction vs as [|v vs IH]; simpl; auto. intros N. inversion N; subst. destruct (f v); simpl; auto. constructor; auto.
    intros HI. apply H1. apply in_map_iff in HI. destruct HI as (w & <- & HI). apply filter_In in HI. apply in_map. apply HI. }
  intros a c c' r E HC. destruct c; cbn [c_remove_variable] in E; try (inversion E; subst; exact HC);
    (destruct (check_variables_and_to_set a); [destruct (forallb _ _)|]); inversion E; subst; try exact HC.
  - apply NoDup_filter. exact HC.
  - destruct HC as [H1 H2]. split; [apply NoDup_filter; auto|apply HN; auto].
Qed.
Lemma ok_real c : constr_ok c -> real_sets c.
Proof. destruct c; simpl; tauto. Qed.
Definition soundly_built (m : lmodel) : Prop := reachable_with constr_ok m.
Lemma sound_built m : soundly_built m -> built m.
Proof.
  unfold soundly_built, built. induction 1; try (constructor; auto; fail).
  apply rw_op; auto. destruct o; simpl in *; auto. destruct c; auto. apply ok_real; auto.
Qed.
Lemma sound_ok m : soundly_built m -> Forall constr_ok (dvals (m_constrs m)).
Proof.
  intros H. assert (HR : reg m) by (apply built_reg, sound_built; auto). apply Forall_forall. intros c HI.
  apply in_map_iff in HI. destruct HI as ([l c'] & E & HI). simpl in E. subst c'. apply in_dget in HI; [|apply HR].
  eapply (reachable_all constr_ok closed_ok); eauto.
Qed.
Lemma dvals_sum (R : constr -> constr -> Prop) f (d d' : dict string constr) : NoDup (dkeys d) -> NoDup (dkeys d') ->
  match_dict R d d' -> (forall c c', In c (dvals d) -> In c' (dvals d') -> R c c' -> f c = f c') ->
  qsum (map f (dvals d)) = qsum (map f (dvals d')).
Proof.
  intros N N' HM HF.
  assert (HV : forall e : dict string constr, NoDup (dkeys e) -> map f (dvals e) = map (fun k => match dget k e with Some c => f c | None => 0%Qc end) (dkeys e)).
  { intros e NE. unfold dvals, dkeys. rewrite !map_map. apply map_ext_in. intros [k c] HI. cbn [fst snd]. apply in_dget in HI; auto. rewrite HI. auto. }
  rewrite !HV by auto.
  rewrite (qsum_perm _ (map (fun k => match dget k d with Some c => f c | None => 0%Qc end) (dkeys d'))).
  - f_equal. apply map_ext. intros k. specialize (HM k). destruct (dget k d) as [c|] eqn:E1, (dget k d') as [c'|] eqn:E2; auto; try contradiction.
    apply dget_in in E1, E2. apply HF; auto; [apply (in_map snd) in E1; auto|apply (in_map snd) in E2; auto].
  - apply Permutation_map. apply NoDup_Permutation; auto. apply (match_in R); auto.
Qed.
Lemma shift_same c c' : real_sets c -> real_sets c' -> same_constr c c' -> ising_shift c = ising_shift c'.
Proof.
  assert (HL : forall a b : list var, NoDup a -> NoDup b -> same_set a b -> count a = count b).
  { intros a b N N' HS. unfold count. f_equal. f_equal. apply Permutation_length. apply NoDup_Permutation; auto. }
  destruct c, c'; cbn [same_constr real_sets ising_shift]; try contradiction.
  - intros N N' (E & -> & _ & ->). rewrite (HL _ _ N N' E). reflexivity.
  - intros N N' (E & _ & ->). rewrite (HL _ _ N N' E). reflexivity.
  - intros [N1 N2] [N1' N2'] (E1 & E2 & _ & ->). rewrite (HL _ _ N1 N1' E1), (HL _ _ N2 N2' E2). reflexivity.
Qed.
(** Assignments of legal values. *)
Definition legal (t : mtype) (s : assignment) : Prop := match t with Qubo => binary s | Ising => spin s end.
Lemma energies_agree ev evs ev' evs' fd m m' n n' p p' : soundly_built m -> soundly_built m' -> same_content m m' ->
  m_len m = length (m_rows m) ->
  to_physical ev evs fd m = (n, Ok p) -> to_physical ev' evs' fd m' = (n', Ok p') ->
  forall s, legal (m_mtype m) s -> energy_physical s p = energy_physical s p'.
Proof.
  intros HM HM' HC HL E E' s Hs. assert (O := sound_ok _ HM). assert (O' := sound_ok _ HM').
  assert (R : reg m) by (apply built_reg, sound_built; auto). assert (R' : reg m') by (apply built_reg, sound_built; auto).
  assert (HL' : m_len m' = length (m_rows m')) by (destruct HC; congruence).
  assert (HE : energy fd s m = energy fd s m') by (unfold energy; destruct HC; rewrite sc_rows, sc_offset; auto).
  assert (HP : forall x, penalties x (dvals (m_constrs m)) = penalties x (dvals (m_constrs m'))).
  { intros x. apply (dvals_sum same_constr); [apply R|apply R'|apply HC|]. intros c c' H1 H2 H3. rewrite Forall_forall in O, O'.
    apply C90_penalty; auto using ok_real. apply C90_constraints; auto using ok_real. }
  assert (HT : m_mtype m' = m_mtype m) by (symmetry; apply HC). destruct (m_mtype m) eqn:ET; simpl in Hs.
  - rewrite (C09_ising _ _ _ _ _ _ s HL ET O E Hs), (C09_ising _ _ _ _ _ _ s HL' HT O' E' Hs), HE, HP. f_equal.
    apply (dvals_sum same_constr); [apply R|apply R'|apply HC|]. intros c c' H1 H2 H3. rewrite Forall_forall in O, O'. apply shift_same; auto using ok_real.
  - rewrite (C09_qubo _ _ _ _ _ _ s HL ET O E Hs), (C09_qubo _ _ _ _ _ _ s HL' HT O' E' Hs), HE, HP. reflexivity.
Qed.

(** The energies over the legal assignments determine the coefficients. *)
Lemma dsum_combine {K} (a b c e : K -> Qc) d : (dsum a d - dsum b d - dsum c d + dsum e d)%Qc = dsum (fun k => a k - b k - c k + e k)%Qc d.
Proof. unfold dsum. induction d as [|[k v] d IH]; simpl; [ring|]. rewrite <- IH. ring. Qed.
Lemma dsum_minus {K} (a b : K -> Qc) d : (dsum a d - dsum b d)%Qc = dsum (fun k => a k - b k)%Qc d.
Proof. unfold dsum. induction d as [|[k v] d IH]; simpl; [ring|]. rewrite <- IH. ring. Qed.
Lemma dsum_single {K} `{Eqb K} (f : K -> Qc) k0 d : NoDup (dkeys d) -> (forall k, In k (dkeys d) -> k <> k0 -> f k = 0%Qc) ->
  dsum f d = (dval k0 d * f k0)%Qc.
Proof.
  intros N HF. induction d as [|[k v] d IH]; [unfold dsum, dval; simpl; ring|]. inversion N as [|? ? N1 N2]; subst. unfold dval. simpl.
  assert (IH' := IH N2 (fun k HI => HF k (or_intror HI))). unfold dsum in *. cbn [map qsum fst snd]. rewrite IH'. destruct (eqb k0 k) eqn:E.
  - apply eqb_eq in E. subst k. unfold dval. rewrite (proj2 (dget_none k0 d)) by exact N1. ring.
  - rewrite HF; [unfold dval; ring|simpl; auto|]. intros ->. rewrite eqb_refl in E. discriminate.
Qed.
Definition pt (u w : Qc) (S : list string) : assignment := fun l => if mem l S then w else u.
Definition ordered_pairs (p : physical) : Prop := forall a b, In (a, b) (dkeys (p_quad p)) -> String.ltb a b = true.
Definition no_zeros {K} `{Eqb K} (d : dict K Qc) : Prop := forall k, dget k d <> Some 0%Qc.
Lemma dval_get {K} `{Eqb K} (d d' : dict K Qc) k : no_zeros d -> no_zeros d' -> dval k d = dval k d' -> dget k d = dget k d'.
Proof.
  intros Z Z' E. unfold dval in E. specialize (Z k). specialize (Z' k). destruct (dget k d), (dget k d'); congruence.
Qed.
Lemma pt_in u w S l : In l S -> pt u w S l = w.
Proof. intros H. unfold pt. replace (mem l S) with true by (symmetry; apply mem_in; auto). auto. Qed.
Lemma pt_out u w S l : ~ In l S -> pt u w S l = u.
Proof. intros H. unfold pt. destruct (mem l S) eqn:E; auto. apply mem_in in E. contradiction. Qed.
Ltac pts := repeat match goal with |- context [pt ?u ?w ?S ?l] =>
  first [rewrite (pt_in u w S l) by (simpl; tauto) | rewrite (pt_out u w S l) by (simpl; intuition congruence)] end.
Lemma quad_by_energy u w p a b : NoDup (dkeys (p_quad p)) -> ordered_pairs p -> String.ltb a b = true ->
  (energy_physical (pt u w []) p - energy_physical (pt u w [a]) p - energy_physical (pt u w [b]) p + energy_physical (pt u w [a; b]) p
   = - (dval (a, b) (p_quad p) * ((u - w) * (u - w))))%Qc.
Proof.
  intros N HO HAB. assert (NE : a <> b) by (intros ->; rewrite ltb_irrefl in HAB; discriminate). rewrite !energy_physical_dsum.
  match goal with |- ((- ?l1 - ?q1 + ?o) - (- ?l2 - ?q2 + ?o) - (- ?l3 - ?q3 + ?o) + (- ?l4 - ?q4 + ?o) = _)%Qc =>
    replace ((- l1 - q1 + o) - (- l2 - q2 + o) - (- l3 - q3 + o) + (- l4 - q4 + o))%Qc with (- (l1 - l2 - l3 + l4) - (q1 - q2 - q3 + q4))%Qc by ring end.
  rewrite !dsum_combine.
  assert (H1 : dsum (fun l => pt u w [] l - pt u w [a] l - pt u w [b] l + pt u w [a; b] l)%Qc (p_linear p) = 0%Qc).
  { unfold dsum. apply qsum_map_zero. intros [l v] _. cbn [fst snd]. destruct (string_dec l a) as [->|N1]; [|destruct (string_dec l b) as [->|N2]]; pts; ring. }
  rewrite H1, (dsum_single _ (a, b)); auto; [cbn [fst snd]; pts; ring|].
  intros [c d] HI HN. cbn [fst snd]. apply HO in HI. assert (NC : c <> d) by (intros ->; rewrite ltb_irrefl in HI; discriminate).
  assert (NX : ~ (c = b /\ d = a)) by (intros [-> ->]; rewrite (ltb_asym _ _ HI) in HAB; discriminate).
  assert (NY : ~ (c = a /\ d = b)) by (intros [-> ->]; congruence).
  destruct (string_dec c a) as [->|M1]; [|destruct (string_dec c b) as [->|M2]]; (destruct (string_dec d a) as [->|M3]; [|destruct (string_dec d b) as [->|M4]]); try tauto; pts; ring.
Qed.
Lemma lin_by_energy u w p p' a : NoDup (dkeys (p_linear p)) -> NoDup (dkeys (p_linear p')) ->
  (forall s, dsum (fun ab => s (fst ab) * s (snd ab))%Qc (p_quad p) = dsum (fun ab => s (fst ab) * s (snd ab))%Qc (p_quad p')) ->
  energy_physical (pt u w []) p = energy_physical (pt u w []) p' -> energy_physical (pt u w [a]) p = energy_physical (pt u w [a]) p' ->
  (dval a (p_linear p) * (u - w) = dval a (p_linear p') * (u - w))%Qc.
Proof.
  intros N N' HQ E0 E1. rewrite !energy_physical_dsum in E0, E1. rewrite !HQ in *.
  assert (HL : forall q, NoDup (dkeys (p_linear q)) -> (dsum (pt u w []) (p_linear q) - dsum (pt u w [a]) (p_linear q) = dval a (p_linear q) * (u - w))%Qc).
  { intros q NQ. rewrite dsum_minus, (dsum_single _ a); auto; [pts; ring|]. intros k _ NK. pts. ring. }
  rewrite <- !HL by auto. clear HL.
  set (x := dsum (pt u w []) (p_linear p)) in *. set (y := dsum (pt u w [a]) (p_linear p)) in *. set (x' := dsum (pt u w []) (p_linear p')) in *. set (y' := dsum (pt u w [a]) (p_linear p')) in *.
  match type of E0 with (- x - ?q + ?o = - x' - ?q + ?o')%Qc => replace x with (x' + o - o')%Qc by (replace x with (- ((- x - q + o) + q - o))%Qc by ring; rewrite E0; ring) end.
  match type of E1 with (- y - ?q + ?o = - y' - ?q + ?o')%Qc => replace y with (y' + o - o')%Qc by (replace y with (- ((- y - q + o) + q - o))%Qc by ring; rewrite E1; ring) end.
  ring.
Qed.
Lemma mul_cancel (x y k : Qc) : k <> 0%Qc -> (x * k = y * k)%Qc -> x = y.
Proof. intros NK E. replace x with (x * k / k)%Qc by (field; auto). rewrite E. field. auto. Qed.
Lemma energies_determine u w p p' : u <> w ->
  NoDup (dkeys (p_linear p)) -> NoDup (dkeys (p_linear p')) -> NoDup (dkeys (p_quad p)) -> NoDup (dkeys (p_quad p')) ->
  no_zeros (p_linear p) -> no_zeros (p_linear p') -> no_zeros (p_quad p) -> no_zeros (p_quad p') ->
  ordered_pairs p -> ordered_pairs p' ->
  (forall S, energy_physical (pt u w S) p = energy_physical (pt u w S) p') ->
  same_dict (p_linear p) (p_linear p') /\ same_dict (p_quad p) (p_quad p') /\ p_offset p = p_offset p'.
Proof.
  intros NE N1 N1' N2 N2' Z1 Z1' Z2 Z2' O O' HE.
  assert (NU : (u - w)%Qc <> 0%Qc) by (intros E; apply NE; replace u with ((u - w) + w)%Qc by ring; rewrite E; ring).
  assert (HQ : same_dict (p_quad p) (p_quad p')).
  { intros [a b]. destruct (String.ltb a b) eqn:L.
    - apply dval_get; auto. assert (H := quad_by_energy u w p a b N2 O L). assert (H' := quad_by_energy u w p' a b N2' O' L). rewrite !HE, H' in H.
      apply (mul_cancel _ _ ((u - w) * (u - w))%Qc); [intros E; apply Qcmult_integral in E; tauto|].
      replace (dval (a, b) (p_quad p) * ((u - w) * (u - w)))%Qc with (- - (dval (a, b) (p_quad p) * ((u - w) * (u - w))))%Qc by ring. rewrite <- H. ring.
    - assert (HN : forall q, ordered_pairs q -> dget (a, b) (p_quad q) = None).
      { intros q HO. destruct (dget (a, b) (p_quad q)) eqn:E; auto. assert (HI : In (a, b) (dkeys (p_quad q))) by (apply dget_some_in; eauto).
        apply HO in HI. congruence. }
      rewrite !HN; auto. }
  assert (HL : same_dict (p_linear p) (p_linear p')).
  { intros a. apply dval_get; auto. apply (mul_cancel _ _ (u - w)%Qc); auto. apply lin_by_energy; auto. intros s. apply dsum_same; auto. }
  split; [auto|]. split; [auto|]. assert (E := HE []). rewrite !energy_physical_dsum, (dsum_same _ _ _ N1 N1' HL), (dsum_same _ _ _ N2 N2' HQ) in E.
  match type of E with (?l - ?q + ?o = ?l - ?q + ?o')%Qc => replace o with (l - q + o - l + q)%Qc by ring; rewrite E; ring end.
Qed.
Lemma phys_facts ev evs fd m m' p : reachable m -> m_len m = length (m_rows m) -> to_physical ev evs fd m = (m', Ok p) ->
  p_mtype p = m_mtype m /\ NoDup (dkeys (p_linear p)) /\ NoDup (dkeys (p_quad p)) /\ no_zeros (p_linear p) /\ no_zeros (p_quad p) /\ ordered_pairs p.
Proof.
  intros HR HL E. destruct (to_physical_ok _ _ _ _ _ _ HL E) as (cms & EC & _ & EP).
  destruct (C10_coefficients _ _ _ _ _ _ HL E) as (cms' & EC' & N1 & N2 & L1 & L2 & Q1 & Q2). rewrite EC in EC'. inversion EC'; subst cms'. clear EC'.
  set (rows := m_rows m ++ flat_map m_rows cms) in *.
  split; [subst p; unfold phys, build_physical; destruct (index_labels _ _ _ _ _ _); reflexivity|].
  split; auto. split; auto. split; [|split].
  - intros a EA. destruct (Qc_eq_dec (lin_total fd rows a) 0) as [EZ|EZ]; [rewrite (L1 a EZ) in EA; discriminate|rewrite (L2 a EZ) in EA; inversion EA; auto].
  - intros [a b] EA. destruct (Qc_eq_dec (quad_total fd rows a b) 0) as [EZ|EZ]; [rewrite (Q1 a b EZ) in EA; discriminate|rewrite (Q2 a b EZ) in EA; inversion EA; auto].
  - intros a b HI. destruct (String.ltb a b) eqn:EL; auto. exfalso. destruct (proj2 (dget_some_in _ _) HI) as [v HV].
    assert (EZ : quad_total fd rows a b = 0%Qc); [|rewrite (Q1 a b EZ) in HV; discriminate].
    unfold quad_total. apply qsum_map_zero. intros r Hr. destruct (r_removed r); auto.
    assert (HK : key_ok r).
    { apply in_app_or in Hr. destruct Hr as [Hr|Hr].
      - pose proof (C01_keys m HR) as HK. rewrite Forall_forall in HK. auto.
      - apply in_flat_map in Hr. destruct Hr as (cm & HC & Hr). pose proof (cmodels_rows _ _ _ _ _ EC) as HF.
        rewrite Forall_forall in HF. specialize (HF cm HC). rewrite Forall_forall in HF. auto. }
    destruct HK as [_ HK]. destruct (r_key r) as [c|c d]; auto. destruct (String.eqb a c && String.eqb b d) eqn:EB; auto.
    apply andb_true_iff in EB. destruct EB as [E1 E2]. apply String.eqb_eq in E1, E2. subst. congruence.
Qed.
(** Equal logical models have physical models with the same type, coefficients and
    offset, and the same labels indexed. *)
Theorem C91_physical : forall ev evs ev' evs' fd m m' n n' p p', soundly_built m -> soundly_built m' ->
  model_eqb m (Some m') = true -> m_len m = length (m_rows m) ->
  to_physical ev evs fd m = (n, Ok p) -> to_physical ev' evs' fd m' = (n', Ok p') ->
  p_mtype p = p_mtype p' /\ same_dict (p_linear p) (p_linear p') /\ same_dict (p_quad p) (p_quad p') /\ p_offset p = p_offset p' /\
  forall s, energy_physical s p = energy_physical s p'.
Proof.
  intros ev evs ev' evs' fd m m' n n' p p' HM HM' EQ HL E E'. apply C90_built in EQ; auto using sound_built.
  assert (HL' : m_len m' = length (m_rows m')) by (destruct EQ; congruence).
  assert (R : reachable m) by (eapply reachable_with_reachable; eauto). assert (R' : reachable m') by (eapply reachable_with_reachable; eauto).
  destruct (phys_facts _ _ _ _ _ _ R HL E) as (T & N1 & N2 & Z1 & Z2 & O). destruct (phys_facts _ _ _ _ _ _ R' HL' E') as (T' & N1' & N2' & Z1' & Z2' & O').
  split; [rewrite T, T'; apply EQ|].
  assert (HD : same_dict (p_linear p) (p_linear p') /\ same_dict (p_quad p) (p_quad p') /\ p_offset p = p_offset p').
  { assert (HE : forall s, legal (m_mtype m) s -> energy_physical s p = energy_physical s p') by (eapply energies_agree; eauto).
    destruct (m_mtype m); simpl in HE.
    - apply (energies_determine 1 (- (1))); auto; [discriminate|]. intros S. apply HE. intros l. unfold pt. destruct (mem l S); auto.
    - apply (energies_determine 0 1); auto; [discriminate|]. intros S. apply HE. intros l. unfold pt. destruct (mem l S); auto. }
  destruct HD as (H1 & H2 & H3). split; [auto|]. split; [auto|]. split; [auto|]. intros s. rewrite !energy_physical_dsum, (dsum_same _ _ _ N1 N1' H1), (dsum_same _ _ _ N2 N2' H2), H3. reflexivity.
Qed.

(** ** The logical models after to_physical *)
Lemma nth_lists {A} (d : A) (l l' : list A) : length l = length l' -> (forall i, i < length l -> nth i l d = nth i l' d) -> l = l'.
Proof. intros HL HN. apply (nth_ext _ _ d d); auto. Qed.
Lemma index_name (l : list string) : NoDup l -> forall i n, nth_error l i = Some n -> index_of n l = Some i.
Proof.
  intros N i n E. destruct (index_of_in n l) as [j EJ]; [eapply nth_error_In; eauto|]. rewrite EJ. apply index_of_some in EJ. f_equal.
  apply (proj1 (NoDup_nth_error l) N); [apply nth_error_Some; congruence|congruence].
Qed.
Lemma cols_by_attr m m' : aligned m -> aligned m' -> names_unique m -> m_rows m = m_rows m' -> m_attrs m = m_attrs m' ->
  (forall r a, In r (m_rows m) -> attr_of m (r_name r) a = attr_of m' (r_name r) a) -> match_dict eq (m_cols m) (m_cols m').
Proof.
  intros (L & K & ND & F) (L' & K' & ND' & F') NU ER EA HA k.
  assert (HK : In k (dkeys (m_cols m)) <-> In k (dkeys (m_cols m'))) by (rewrite K, K', EA; tauto).
  destruct (dget k (m_cols m)) as [c|] eqn:E1, (dget k (m_cols m')) as [c'|] eqn:E2; auto.
  - rewrite Forall_forall in F, F'. assert (H1 := F _ (dget_in _ _ _ E1)). assert (H2 := F' _ (dget_in _ _ _ E2)). cbn [snd] in *.
    apply (nth_lists ANan); [congruence|]. intros i Hi. rewrite H1, L in Hi.
    destruct (nth_error (m_rows m) i) as [r|] eqn:EI; [|apply nth_error_None in EI; lia].
    assert (HI : In r (m_rows m)) by (apply nth_error_In in EI; auto).
    specialize (HA r k HI). unfold attr_of, attr_val in HA. unfold names in *. rewrite <- ER in HA.
    rewrite (index_name (map r_name (m_rows m)) NU i (r_name r)) in HA by (rewrite nth_error_map, EI; auto). rewrite E1, E2 in HA. auto.
  - apply dget_none in E2. apply E2, HK. apply dget_some_in. eauto.
  - apply dget_none in E1. apply E1, HK. apply dget_some_in. eauto.
Qed.
(** to_physical leaves two equal models equal. *)
Theorem C91_after_physical : forall ev evs ev' evs' fd m m' n n' p p' cms cms', soundly_built m -> soundly_built m' ->
  model_eqb m (Some m') = true -> aligned m -> aligned m' -> names_unique m ->
  cmodels evs 0 (m_mtype m) (dvals (m_constrs m)) = Ok cms -> cmodels evs' 0 (m_mtype m') (dvals (m_constrs m')) = Ok cms' ->
  (forall r cm, In r (m_rows m) -> r_removed r = true -> In cm (cms ++ cms') -> ~ In (r_name r) (names cm)) ->
  to_physical ev evs fd m = (n, Ok p) -> to_physical ev' evs' fd m' = (n', Ok p') ->
  model_eqb n (Some n') = true.
Proof.
  intros ev evs ev' evs' fd m m' n n' p p' cms cms' HM HM' EQ HA HA' NU EC EC' HN E E'. apply C90_built in EQ; auto using sound_built. assert (EQ' := EQ). destruct EQ'.
  assert (NU' : names_unique m') by (unfold names_unique, names in *; rewrite <- sc_rows; auto).
  destruct (C11_frame ev evs fd m n p cms HA NU EC) as (F1 & F2 & F3 & F4 & F5 & F6 & F7 & _ & F8 & F9 & F10 & F11); auto.
  { intros r cm H1 H2 H3. apply HN; auto. apply in_or_app; auto. }
  destruct (C11_frame ev' evs' fd m' n' p' cms' HA' NU' EC') as (G1 & G2 & G3 & G4 & G5 & G6 & G7 & _ & G8 & G9 & G10 & G11); auto.
  { intros r cm H1 H2 H3. apply HN; auto; [rewrite sc_rows; auto|apply in_or_app; auto]. }
  apply C90_built.
  - apply sound_built. assert (B := rw_op constr_ok ev evs (OPhysical fd) m HM I). cbn [do_op] in B. rewrite E in B. exact B.
  - apply sound_built. assert (B := rw_op constr_ok ev' evs' (OPhysical fd) m' HM' I). cbn [do_op] in B. rewrite E' in B. exact B.
  - assert (ER : m_rows n = m_rows n') by congruence.
    constructor; try congruence.
    + rewrite F2, G2. auto.
    + apply cols_by_attr; auto; [congruence|]. intros r a HI. rewrite F8 in HI. apply in_map_iff in HI. destruct HI as (r0 & <- & HI). apply filter_In in HI. destruct HI as [HI HX].
      apply negb_true_iff in HX. change (r_name (set_dirty false r0)) with (r_name r0). rewrite F9, G9 by (auto; rewrite <- ?sc_rows; auto).
      unfold attr_of, attr_val, names. rewrite sc_rows. destruct (index_of _ _); auto. rewrite (match_get _ _ sc_cols). auto.
    + destruct F10 as [F10 _], G10 as [G10 _]. congruence.
    + rewrite F6, G6. auto.
    + rewrite F4, G4. auto.
    + rewrite F5, G5. auto.
Qed.

(** ** C92 *)
Lemma filter_same {A} (f g : A -> bool) l : (forall x, In x (filter f l) <-> In x (filter g l)) -> filter f l = filter g l.
Proof.
  intros H. apply filter_ext_in. intros x Hx. specialize (H x). rewrite !filter_In in H. destruct (f x) eqn:E1, (g x) eqn:E2; auto; exfalso.
  - destruct H as [H _]. destruct (H (conj Hx eq_refl)). discriminate.
  - destruct H as [_ H]. destruct (H (conj Hx eq_refl)). discriminate.
Qed.
(** Equal logical models whose arrays were declared in the same order have equal
    physical models. *)
Theorem C92_same_order_partial : forall ev evs ev' evs' fd m m' n n' p p', soundly_built m -> soundly_built m' ->
  model_eqb m (Some m') = true -> dkeys (m_vars m) = dkeys (m_vars m') ->
  m_len m = length (m_rows m) -> NoDup (all_labels (m_vars m)) ->
  to_physical ev evs fd m = (n, Ok p) -> to_physical ev' evs' fd m' = (n', Ok p') ->
  physical_eqb p p' = true.
Proof.
  intros ev evs ev' evs' fd m m' n n' p p' HM HM' EQ HV HL HN E E'.
  destruct (C91_physical _ _ _ _ _ _ _ _ _ _ _ HM HM' EQ HL E E') as (T & H1 & H2 & H3 & _).
  apply C90_built in EQ; auto using sound_built. assert (HL' : m_len m' = length (m_rows m')) by (destruct EQ; congruence).
  assert (EV : m_vars m = m_vars m').
  { assert (R : NoDup (dkeys (m_vars m))) by (apply built_reg; auto using sound_built). assert (R' : NoDup (dkeys (m_vars m'))) by (apply built_reg; auto using sound_built).
    assert (HG := match_get _ _ (sc_vars _ _ EQ)). clear -HV HG R R'.
    assert (HD : forall d : dict string array, NoDup (dkeys d) -> d = map (fun k => (k, match dget k d with Some a => a | None => mkArray [] [] end)) (dkeys d)).
    { intros d N. unfold dkeys. rewrite map_map. rewrite <- (map_id d) at 1. apply map_ext_in. intros [k a] HI. cbn [fst]. apply in_dget in HI; auto. rewrite HI. auto. }
    rewrite (HD _ R), (HD _ R'), <- HV. apply map_ext. intros k. rewrite HG. auto. }
  assert (HN' : NoDup (all_labels (m_vars m'))) by (rewrite <- EV; auto).
  apply C64_equal_iff; [exact (C64_from_logical _ _ _ _ _ _ HL HN E)|exact (C64_from_logical _ _ _ _ _ _ HL' HN' E')|]. split; [auto|]. split; [auto|]. split; [auto|]. split; [auto|].
  destruct (C13_index_bijection _ _ _ _ _ _ HL HN E) as (ls & N & [f EF] & K1 & K2 & D1 & D2 & D3).
  destruct (C13_index_bijection _ _ _ _ _ _ HL' HN' E') as (ls' & N' & [f' EF'] & K1' & K2' & D1' & D2' & D3').
  assert (EL : ls = ls').
  { rewrite EF, EF', <- EV. apply filter_same. intros x. rewrite <- EF. replace (filter f' (all_labels (m_vars m))) with ls' by (rewrite EV; auto).
    rewrite D3, D3', <- EV, (match_in _ _ _ (sc_deleted _ _ EQ) x).
    assert (HO : occurs p x <-> occurs p' x); [|tauto]. unfold occurs.
    assert (HK : forall (K : Type) (EK : Eqb K) (d d' : dict K Qc), same_dict d d' -> forall k, In k (dkeys d) -> In k (dkeys d')).
    { intros K EK d d' HS k HI. apply dget_some_in in HI. destruct HI as [v HI]. rewrite HS in HI. apply dget_some_in. eauto. }
    assert (H1' : same_dict (p_linear p') (p_linear p)) by (intros k; symmetry; apply H1). assert (H2' : same_dict (p_quad p') (p_quad p)) by (intros k; symmetry; apply H2).
    split; (intros [HI|(a & b & HI & HX)]; [left; eapply HK; eauto|right; exists a, b; split; auto; eapply HK; eauto]). }
  assert (HH : forall A B (EA : Eqb A) (d d' : dict A B), (forall k v, dget k d = Some v <-> dget k d' = Some v) -> same_dict d d').
  { intros A B EA d d' HH k. destruct (dget k d) as [v|] eqn:EE; [symmetry; apply HH; auto|]. destruct (dget k d') as [v|] eqn:EE'; auto. apply HH in EE'. congruence. }
  split; apply HH; intros k v; [rewrite D1, D1', EL|rewrite D2, D2', EL]; tauto.
Qed.

(** [x] comes before [y] in the list. *)
Definition before {A} (x y : A) (l : list A) : Prop := exists l1 l2, l = l1 ++ x :: l2 /\ In y l2.
Lemma before_filter {A} (f : A -> bool) x y l : f x = true -> f y = true -> (before x y (filter f l) <-> before x y l).
Proof.
  intros FX FY. split.
  - induction l as [|a l IH]; cbn [filter]; [intros (l1 & l2 & E & _); destruct l1; discriminate|]. destruct (f a) eqn:EA.
    + intros (l1 & l2 & E & HI). destruct l1 as [|b l1]; cbn [app] in E; injection E as -> E.
      * exists [], l. split; auto. rewrite <- E in HI. apply filter_In in HI. tauto.
      * destruct IH as (k1 & k2 & -> & HK); [exists l1, l2; auto|]. exists (b :: k1), k2. auto.
    + intros H. destruct (IH H) as (k1 & k2 & -> & HK). exists (a :: k1), k2. auto.
  - intros (l1 & l2 & -> & HI). exists (filter f l1), (filter f l2). split; [rewrite filter_app; cbn [filter]; rewrite FX; auto|]. apply filter_In. auto.
Qed.
Lemma before_cons {A} (a x y : A) l : x <> a -> (before x y (a :: l) <-> before x y l).
Proof.
  intros N. split.
  - intros (l1 & l2 & E & HI). destruct l1 as [|b l1]; cbn [app] in E; injection E as -> E; [destruct N; auto|]. exists l1, l2. auto.
  - intros (l1 & l2 & -> & HI). exists (a :: l1), l2. auto.
Qed.
Lemma before_eq {A} : forall l l' : list A, NoDup l -> NoDup l' -> (forall x, In x l <-> In x l') -> (forall x y, In x l -> In y l -> (before x y l <-> before x y l')) -> l = l'.
Proof.
  induction l as [|a l IH]; intros l' N N' HS HB.
  - destruct l' as [|b l']; auto. destruct (proj2 (HS b) (or_introl eq_refl)).
  - destruct l' as [|b l']; [destruct (proj1 (HS a) (or_introl eq_refl))|]. inversion N as [|? ? N1 N2]; subst. inversion N' as [|? ? N1' N2']; subst.
    assert (EAB : b = a).
    { destruct (proj2 (HS b) (or_introl eq_refl)) as [->|HI]; auto. exfalso. assert (HX : before a b (b :: l')) by (apply HB; [left; auto|right; auto|exists [], l; auto]).
      destruct HX as (l1 & l2 & E & HL). destruct l1 as [|c l1]; cbn [app] in E; injection E as E0 E; [subst; contradiction|]. subst. apply N1'. apply in_or_app. right. right. exact HL. }
    subst b. f_equal. apply IH; auto.
    + intros x. specialize (HS x). cbn [In] in HS. split; intros HX; [destruct (proj1 HS (or_intror HX)) as [->|]; auto; contradiction|destruct (proj2 HS (or_intror HX)) as [->|]; auto; contradiction].
    + intros x y HX HY. assert (x <> a) by (intros ->; contradiction). rewrite <- (before_cons a x y l), <- (before_cons a x y l') by auto. apply HB; right; auto.
Qed.
(** Exactly: equal logical models have equal physical models if and only if the variables that have an index were declared in
    the same order. *)
Theorem C92_exact : forall ev evs ev' evs' fd m m' n n' p p', soundly_built m -> soundly_built m' ->
  model_eqb m (Some m') = true -> m_len m = length (m_rows m) -> NoDup (all_labels (m_vars m)) -> NoDup (all_labels (m_vars m')) ->
  to_physical ev evs fd m = (n, Ok p) -> to_physical ev' evs' fd m' = (n', Ok p') ->
  (physical_eqb p p' = true <->
   forall x y, In x (dkeys (p_l2i p)) -> In y (dkeys (p_l2i p)) -> (before x y (all_labels (m_vars m)) <-> before x y (all_labels (m_vars m')))).
Proof.
  intros ev evs ev' evs' fd m m' n n' p p' HM HM' EQ HL HN HN' E E'.
  destruct (C91_physical _ _ _ _ _ _ _ _ _ _ _ HM HM' EQ HL E E') as (T & H1 & H2 & H3 & _).
  apply C90_built in EQ; auto using sound_built. assert (HL' : m_len m' = length (m_rows m')) by (destruct EQ; congruence).
  destruct (C13_index_bijection _ _ _ _ _ _ HL HN E) as (ls & N & [f EF] & K1 & K2 & D1 & D2 & D3).
  destruct (C13_index_bijection _ _ _ _ _ _ HL' HN' E') as (ls' & N' & [f' EF'] & K1' & K2' & D1' & D2' & D3').
  assert (HV : forall x, In x (all_labels (m_vars m)) <-> In x (all_labels (m_vars m'))).
  { assert (R : NoDup (dkeys (m_vars m))) by (apply built_reg; auto using sound_built). assert (R' : NoDup (dkeys (m_vars m'))) by (apply built_reg; auto using sound_built).
    assert (HG := match_get _ _ (sc_vars _ _ EQ)).
    assert (HX : forall d d' : dict string array, NoDup (dkeys d) -> (forall k, dget k d = dget k d') -> forall x, In x (all_labels d) -> In x (all_labels d')).
    { intros d d' ND HD x HI. unfold all_labels in *. apply in_flat_map in HI. destruct HI as ([k a] & HI & HB). apply in_flat_map. exists (k, a). split; auto.
      apply dget_in. rewrite <- HD. apply in_dget; auto. }
    intros x. split; apply HX; auto. }
  assert (HO : forall x, occurs p x <-> occurs p' x).
  { intros x. unfold occurs.
    assert (HK : forall (K : Type) (EK : Eqb K) (d d' : dict K Qc), same_dict d d' -> forall k, In k (dkeys d) -> In k (dkeys d')).
    { intros K EK d d' HS k HI. apply dget_some_in in HI. destruct HI as [v HI]. rewrite HS in HI. apply dget_some_in. eauto. }
    assert (H1' : same_dict (p_linear p') (p_linear p)) by (intros k; symmetry; apply H1). assert (H2' : same_dict (p_quad p') (p_quad p)) by (intros k; symmetry; apply H2).
    split; (intros [HI|(a & b & HI & HX)]; [left; eapply HK; eauto|right; exists a, b; split; auto; eapply HK; eauto]). }
  assert (HS : forall x, In x ls <-> In x ls') by (intros x; rewrite D3, D3', HV, HO, (match_in _ _ _ (sc_deleted _ _ EQ) x); tauto).
  assert (HF : forall x, In x ls -> f x = true /\ f' x = true).
  { intros x HI. assert (HI' := proj1 (HS x) HI). rewrite EF in HI. rewrite EF' in HI'. apply filter_In in HI, HI'. tauto. }
  assert (ORD : (forall x y, In x (dkeys (p_l2i p)) -> In y (dkeys (p_l2i p)) -> (before x y (all_labels (m_vars m)) <-> before x y (all_labels (m_vars m')))) <-> ls = ls').
  { rewrite K1. split.
    - intros HB. apply before_eq; auto. intros x y HX HY. destruct (HF x HX), (HF y HY). rewrite EF at 1. rewrite EF'. rewrite !before_filter by auto. auto.
    - intros EL x y HX HY. destruct (HF x HX), (HF y HY). rewrite <- (before_filter f), <- (before_filter f' x y (all_labels (m_vars m'))), <- EF, <- EF', EL by auto. tauto. }
  rewrite ORD, C64_equal_iff; [|exact (C64_from_logical _ _ _ _ _ _ HL HN E)|exact (C64_from_logical _ _ _ _ _ _ HL' HN' E')]. split.
  - intros (_ & _ & _ & _ & _ & HI). assert (HNT : forall i, nth_error ls i = nth_error ls' i).
    { intros i. destruct (nth_error ls i) as [l|] eqn:EI.
      - symmetry. apply D2'. rewrite <- (HI i). apply D2. exact EI.
      - destruct (nth_error ls' i) as [l|] eqn:EI'; auto. exfalso. apply D2' in EI'. rewrite <- (HI i) in EI'. apply D2 in EI'. congruence. }
    clear -HNT. revert ls' HNT. induction ls as [|a ls IH]; intros [|b ls'] H; auto; try (specialize (H 0); discriminate). assert (H0 := H 0). injection H0 as ->. f_equal. apply IH. intros i. exact (H (S i)).
  - intros EL. split; [auto|]. split; [auto|]. split; [auto|]. split; [auto|].
    assert (HH : forall A B (EA : Eqb A) (d d' : dict A B), (forall k v, dget k d = Some v <-> dget k d' = Some v) -> same_dict d d').
    { intros A B EA d d' HH k. destruct (dget k d) as [v|] eqn:EE; [symmetry; apply HH; auto|]. destruct (dget k d') as [v|] eqn:EE'; auto. apply HH in EE'. congruence. }
    split; apply HH; intros k v; [rewrite D1, D1', EL|rewrite D2, D2', EL]; tauto.
Qed.

Lemma run_built P l : forall m n, (forall ev evs o, In (ev, evs, o) l -> given P o) -> reachable_with P m -> run l m = Some n -> reachable_with P n.
Proof.
  induction l as [|[[ev evs] o] l IH]; intros m n HG HM E; cbn [run] in E; [inversion E; subst; auto|].
  assert (B := rw_op P ev evs o m HM (HG ev evs o (or_introl eq_refl))). destruct (do_op ev evs o m) as [m' [u|e]]; [|discriminate].
  apply (IH m'); auto. intros ev0 evs0' o0 HI. apply (HG ev0 evs0'). simpl; auto.
Qed.
(** The two models of C90_hyps, as histories of calls. *)
Definition eq_list (swap : bool) : list (env * (nat -> env) * op) := map (fun o => (env0, evs0, o))
  ((if swap then [OVariables (VName "y") (ShTuple [ShInt 2]); OVariables (VName "x") (ShTuple [ShInt 3])]
    else [OVariables (VName "x") (ShTuple [ShInt 3]); OVariables (VName "y") (ShTuple [ShInt 2])]) ++
   [OAdd (TVar (bin "x" 0)) (NStr "h") (AC (CNum (qz 5))) (AC (CNum 1%Qc)) (AtDict [("k"%string, ANum (qz 3))]) TsNone;
    OAdd (TTuple [EVar (bin "y" 1); EVar (bin "x" 2)]) (NStr "J") (AC (CNum (qz (-2)))) (AC (CNum 1%Qc)) AtNone TsNone] ++
   (let a := OAddConstraint (Some (NHot [bin "x" 0; bin "x" 2] 1 "one" (qz 10))) in
    let a' := OAddConstraint (Some (NHot [bin "x" 2; bin "x" 0] 1 "one" (qz 10))) in
    let b := OAddConstraint (Some (Equality [bin "x" 1] [bin "y" 0] "same" (qz 4))) in
    if swap then [b; a'] else [a; b])).
Lemma eq_run (b : bool) : run (eq_list b) (new_model Qubo) = Some (if b then eq_b else eq_a).
Proof. destruct b; vm_compute; reflexivity. Qed.
Lemma eq_sound (b : bool) : soundly_built (if b then eq_b else eq_a).
Proof.
  eapply run_built; [|apply rw_new|apply eq_run]. intros ev evs o HI. destruct b; repeat (destruct HI as [HI|HI]; [inversion HI; subst; simpl; auto|]); try contradiction;
    repeat split; apply nodupb_ok; reflexivity.
Qed.
(** == of logical models does not see the order of declaration, which the indices
    of the physical model follow: equal models can have unequal physical models. *)
Theorem C92_refuted : exists m m' n n' p p', soundly_built m /\ soundly_built m' /\ model_eqb m (Some m') = true /\
  to_physical env0 evs0 feed0 m = (n, Ok p) /\ to_physical env0 evs0 feed0 m' = (n', Ok p') /\ physical_eqb p p' = false.
Proof.
  exists eq_a, eq_b. destruct (to_physical env0 evs0 feed0 eq_a) as [n [p|e]] eqn:E; [|exfalso; apply (f_equal (fun z => match snd z with Ok _ => true | _ => false end)) in E; vm_compute in E; discriminate].
  destruct (to_physical env0 evs0 feed0 eq_b) as [n' [p'|e]] eqn:E'; [|exfalso; apply (f_equal (fun z => match snd z with Ok _ => true | _ => false end)) in E'; vm_compute in E'; discriminate].
  exists n, n', p, p'. split; [apply (eq_sound false)|]. split; [apply (eq_sound true)|]. split; [vm_compute; reflexivity|]. split; auto. split; auto.
  assert (H := f_equal (fun z => match snd z with Ok p => p | _ => mkPhysical Qubo [] [] 0 [] [] [] end) E).
  assert (H' := f_equal (fun z => match snd z with Ok p => p | _ => mkPhysical Qubo [] [] 0 [] [] [] end) E'). cbn [snd] in H, H'. rewrite <- H, <- H'. vm_compute. reflexivity.
Qed.
Example C91_hyps : built eq_a /\ built eq_b /\ soundly_built eq_a /\ soundly_built eq_b /\ model_eqb eq_a (Some eq_b) = true /\ eq_a <> eq_b /\
  aligned eq_a /\ aligned eq_b /\ names_unique eq_a /\ NoDup (all_labels (m_vars eq_a)) /\
  (exists n, run [(env0, evs0, OFix (TVar (bin "x" 2)) 1%Qc); (env0, evs0, OIsing)] eq_a = Some n /\ length (m_rows n) = 3) /\
  (exists n p, to_physical env0 evs0 feed0 eq_a = (n, Ok p) /\ length (p_quad p) = 3) /\ (exists n p, to_physical env0 evs0 feed0 eq_b = (n, Ok p)).
Proof.
  assert (HA := eq_sound false). assert (HB := eq_sound true). cbv iota in HA, HB.
  assert (AL : forall m, Nat.eqb (m_len m) (length (m_rows m)) = true -> dkeys (m_cols m) = m_attrs m -> nodupb (m_attrs m) = true ->
    forallb (fun kc => Nat.eqb (length (snd kc)) (m_len m)) (m_cols m) = true -> aligned m).
  { intros m A B C D. split; [apply Nat.eqb_eq; auto|]. split; [auto|]. split; [apply nodupb_ok; auto|]. apply Forall_forall. rewrite forallb_forall in D. intros x Hx. apply Nat.eqb_eq. auto. }
  split; [apply sound_built; auto|]. split; [apply sound_built; auto|]. split; [auto|]. split; [auto|]. split; [vm_compute; reflexivity|]. split; [vm_compute; discriminate|].
  split; [apply AL; vm_compute; reflexivity|]. split; [apply AL; vm_compute; reflexivity|]. split; [apply nodupb_ok; vm_compute; reflexivity|]. split; [apply nodupb_ok; vm_compute; reflexivity|].
  split; [|split].
  - destruct (run _ eq_a) as [n|] eqn:E; [|vm_compute in E; discriminate]. exists n. split; auto.
    apply (f_equal (fun z => match z with Some n => length (m_rows n) | _ => 0 end)) in E. vm_compute in E. auto.
  - destruct (to_physical env0 evs0 feed0 eq_a) as [n [p|e]] eqn:E; [|exfalso; apply (f_equal (fun z => match snd z with Ok _ => true | _ => false end)) in E; vm_compute in E; discriminate].
    exists n, p. split; auto. apply (f_equal (fun z => match snd z with Ok p => length (p_quad p) | _ => 0 end)) in E. vm_compute in E. auto.
  - destruct (to_physical env0 evs0 feed0 eq_b) as [n [p|e]] eqn:E; [eauto|exfalso; apply (f_equal (fun z => match snd z with Ok _ => true | _ => false end)) in E; vm_compute in E; discriminate].
Qed.
Print Assumptions C90_built.
Print Assumptions C91_operations.
Print Assumptions C91_sequences.
Print Assumptions C91_merge.
Print Assumptions C91_physical.
Print Assumptions C91_after_physical.
Print Assumptions C92_same_order_partial.
Print Assumptions C92_exact.
Print Assumptions C92_refuted.
