(** * PropsRetry: C112, calling to_physical again after it raised for want of a placeholder. *)
From Verif Require Import PyBase PyLemmas Numbers Constraint LogicalModel Spec LogicalProofs EnergyProofs ConvertProofs MergeProofs PhysicalProofs ToPhysicalProofs ConstraintProofs Samples Physical History PropsHistory
  ProperProofs ConstrFrame PropsInteractions PropsConvert PropsMerge PropsPhysical PropsAlike Solver SolverSpec PropsSolver Services PropsSolvers PropsPenalty PropsReach PropsTsp PropsDetermined PropsFixing PropsMergeSum.
Local Open Scope string_scope.
Local Open Scope list_scope.

(** ** Specification *)
(** [n] calls of to_physical in a row that all raised for want of a placeholder
    (each with whatever placeholders, at whatever time). *)
Inductive failed : nat -> lmodel -> lmodel -> Prop :=
| failed_none m : failed 0 m m
| failed_again n ev evs fd m m1 m2 :
    to_physical ev evs fd m = (m1, Err PlaceholderError) -> failed n m1 m2 -> failed (S n) m m2.
(** A legal assignment of least energy. *)
Definition best (p : physical) (a : assignment) : Prop :=
  lawful (p_mtype p) a /\ forall b, lawful (p_mtype p) b -> (energy_physical a p <= energy_physical b p)%Qc.

(** ** No call that a constraint's model is made of raises a PlaceholderError *)
Definition noph {A} (f : LM A) : Prop := forall m, snd (f m) <> Err PlaceholderError.
Lemma np_bind {A B} (f : LM A) (k : A -> LM B) : noph f -> (forall a, noph (k a)) -> noph (bind f k).
Proof. intros F K m. unfold bind. specialize (F m). destruct (f m) as [m1 [a|e]]; cbn in *; [apply K|congruence]. Qed.
Lemma np_mfor {A} (l : list A) (f : A -> LM unit) : (forall a, noph (f a)) -> noph (mfor l f).
Proof. intros F. induction l as [|a l IH]; cbn [mfor]; [intros m; cbn; congruence|]. apply np_bind; auto. Qed.
Lemma np_lift {A} (r : res A) : r <> Err PlaceholderError -> noph (lift r).
Proof. intros H m. exact H. Qed.
Lemma np_guard b e : e <> PlaceholderError -> noph (guard b e).
Proof. intros H m. unfold guard. destruct b; cbn; congruence. Qed.
Ltac np_flat := intros m; repeat (match goal with |- context [match ?x with _ => _ end] => destruct x end; cbn); cbn; congruence.
Lemma np_info t : interaction_info t <> Err PlaceholderError.
Proof. unfold interaction_info. repeat (match goal with |- context [match ?x with _ => _ end] => destruct x end; cbn); congruence. Qed.
Lemma np_expand : noph expand_attrs.
Proof. intros m. unfold expand_attrs. refine (np_mfor (m_attrs m) _ _ m). intros a x. cbn. destruct (dget a (m_cols x)); cbn; discriminate. Qed.
Lemma np_new kv : noph (set_new_attr kv).
Proof. unfold set_new_attr. np_flat. Qed.
Lemma np_add ev t n c s a q : noph (add_interaction ev t n c s a q).
Proof.
  unfold add_interaction. apply np_bind; [apply np_guard; discriminate|intros _].
  apply np_bind; [apply np_lift; unfold check_coef; destruct c; discriminate|intros cc].
  apply np_bind; [apply np_lift; unfold check_coef; destruct s; discriminate|intros ss].
  apply np_bind; [apply np_lift; unfold check_attrs; destruct a; discriminate|intros aa].
  apply np_bind; [apply np_lift; unfold check_ts; destruct q; discriminate|intros qq].
  apply np_bind; [apply np_lift; apply np_info|intros i].
  apply np_bind; [apply np_lift; unfold add_name; destruct n; cbn; repeat (match goal with |- context [match ?x with _ => _ end] => destruct x end); discriminate|intros nm].
  apply np_bind; [intros m; cbn; discriminate|intros m].
  apply np_bind; [apply np_guard; discriminate|intros _].
  apply np_bind; [intros x; cbn; discriminate|intros _].
  apply np_bind; [apply np_expand|intros _].
  apply np_bind; [apply np_mfor; apply np_new|intros _]. intros x; cbn; discriminate.
Qed.
Lemma np_update_attr i kv : noph (update_attr i kv).
Proof. unfold update_attr. np_flat. Qed.
Lemma np_update_at nm c s a q : noph (update_at nm c s a q).
Proof.
  unfold update_at. apply np_bind; [intros m; cbn; discriminate|intros m].
  apply np_bind; [apply np_lift; unfold name_index; destruct (index_of _ _); discriminate|intros i].
  repeat (apply np_bind; [|intros ?]); try (intros x; cbn; discriminate).
  - destruct c; intros x; cbn; discriminate.
  - destruct s; intros x; cbn; discriminate.
  - destruct a; [cbn; apply np_mfor; apply np_update_attr|intros x; cbn; discriminate].
Qed.
Lemma np_removed m n : is_removed m n <> Err PlaceholderError.
Proof. unfold is_removed. repeat (match goal with |- context [match ?x with _ => _ end] => destruct x eqn:?E end; cbn); try congruence. unfold name_index in *. destruct (index_of _ _); congruence. Qed.
Lemma np_update ev t n c s a q : noph (update_interaction ev t n c s a q).
Proof.
  unfold update_interaction. apply np_bind; [apply np_guard; discriminate|intros _]. apply np_bind; [apply np_guard; discriminate|intros _].
  apply np_bind; [apply np_lift; unfold check_opt_num; destruct c as [c|]; [unfold check_num; destruct c as [c|]; [destruct c|]|]; discriminate|intros cc].
  apply np_bind; [apply np_lift; unfold check_opt_num; destruct s as [s|]; [unfold check_num; destruct s as [s|]; [destruct s|]|]; discriminate|intros ss].
  apply np_bind; [apply np_lift; unfold check_opt_attrs; destruct a; discriminate|intros aa].
  apply np_bind; [apply np_lift; unfold check_opt_ts; destruct q; discriminate|intros qq].
  apply np_bind; [apply np_lift; unfold opt_info; destruct (t_is_none t); [discriminate|]; pose proof (np_info t); destruct (interaction_info t); congruence|intros i].
  apply np_bind; [intros m; cbn; discriminate|intros m]. destruct (n_truthy n).
  - destruct n as [nm| |]; try (intros x; cbn; discriminate).
    apply np_bind; [apply np_guard; discriminate|intros _]. apply np_bind; [apply np_lift; apply np_removed|intros rm].
    apply np_bind; [apply np_guard; discriminate|intros _]. apply np_update_at.
  - destruct i as [i|]; [|intros x; cbn; discriminate]. destruct (has_name m (in_name i)); [|apply np_add].
    apply np_bind; [apply np_lift; apply np_removed|intros rm]. apply np_bind; [apply np_guard; discriminate|intros _]. apply np_update_at.
Qed.
Lemma np_to_model ev c : snd (to_model ev c) <> Err PlaceholderError.
Proof.
  assert (P : forall l q vs v, noph (cadd_pairs_of ev l q vs v)).
  { intros l q vs v. apply np_mfor. intros w. destruct (String.ltb _ _); [apply np_add|intros x; cbn; discriminate]. }
  destruct c as [vs n l s|vs l s|v1 v2 l s]; cbn [to_model].
  - apply np_mfor. intros v. apply np_bind; [apply np_add|intros _; apply P].
  - apply np_mfor. intros v. apply P.
  - repeat (apply np_bind; [apply np_mfor; intros v; first [apply P|apply np_add]|intros _]). apply np_mfor. intros v. apply np_mfor. intros w. apply np_add.
Qed.
Lemma np_array_create n sh vt : array_create n sh vt <> Err PlaceholderError.
Proof. unfold array_create. repeat (match goal with |- context [match ?x with _ => _ end] => destruct x end; cbn); congruence. Qed.
Lemma np_recreate vt todo : forall done, snd (recreate vt done todo) <> Err PlaceholderError.
Proof.
  induction todo as [|[n a] r IH]; intros done; cbn [recreate]; [discriminate|].
  pose proof (np_array_create n (a_shape a) vt). destruct (array_create n (a_shape a) vt); [apply IH|cbn; congruence].
Qed.
Lemma np_to_ising ev : noph (to_ising ev).
Proof.
  unfold to_ising, convert. apply np_bind; [intros m; cbn; discriminate|intros m]. destruct (mtype_eqb _ _); [intros x; cbn; discriminate|].
  assert (D : noph dataframe) by (intros x; unfold dataframe; destruct (df_ok x); cbn; discriminate).
  apply np_bind; [intros x; cbn; discriminate|intros _].
  apply np_bind. { intros x. unfold update_variables_type. pose proof (np_recreate (vt_of (m_mtype x)) (m_vars x) []) as H. destruct (recreate _ _ _) as [vs [u|e]]; cbn zeta; [match goal with |- context [if ?b then _ else _] => destruct b end; cbn; discriminate|cbn in *; congruence]. }
  intros _. apply np_bind; [exact D|intros h]. apply np_bind.
  { apply np_mfor. intros r. apply np_bind; [apply np_update|intros _ x; cbn; discriminate]. }
  intros _. apply np_bind; [exact D|intros j]. generalize 0. induction (filter body2_active j) as [|r l IH]; intros k; cbn [conv_Js]; [intros x; cbn; discriminate|].
  apply np_bind; [|intros _; apply IH]. unfold conv_J. apply np_bind; [apply np_update|intros _].
  destruct (r_inter r), (r_key r); try (intros x; cbn; discriminate).
  apply np_bind; [apply np_add|intros _]. apply np_bind; [apply np_add|intros _ x; cbn; discriminate].
Qed.
Lemma np_cmodels evs t cs : forall k, cmodels evs k t cs <> Err PlaceholderError.
Proof.
  induction cs as [|c cs IH]; intros k; cbn [cmodels]; [discriminate|].
  assert (H : cmodel (evs k) t c <> Err PlaceholderError).
  { unfold cmodel. pose proof (np_to_model (evs k) c) as H. destruct (to_model (evs k) c) as [cm [u|e]]; cbn [snd] in *; [|intros X; inversion X; subst; apply H; reflexivity].
    destruct (mtype_eqb t Qubo); [discriminate|]. pose proof (np_to_ising (evs k) cm) as H2. destruct (to_ising (evs k) cm) as [x [u2|e]]; cbn [snd] in *; [discriminate|intros X; inversion X; subst; apply H2; reflexivity]. }
  destruct (cmodel (evs k) t c); [|intros X; inversion X; subst; apply H; reflexivity]. specialize (IH (S k)). destruct (cmodels evs (S k) t cs); congruence.
Qed.

(** ** One failed call *)
Lemma failed_step ev evs fd m m1 : aligned m -> to_physical ev evs fd m = (m1, Err PlaceholderError) ->
  ~ resolved fd m /\ aligned m1 /\ exists cms, cmodels evs 0 (m_mtype m) (dvals (m_constrs m)) = Ok cms /\ PhysicalProofs.merged m cms m1.
Proof.
  intros A E. pose proof (al_physical _ _ _ _ _ _ E A) as A1. rewrite to_physical_after in E.
  pose proof (merge_constrs_spec ev evs (dvals (m_constrs m)) 0 m A) as S. pose proof (np_cmodels evs (m_mtype m) (dvals (m_constrs m)) 0) as N.
  destruct (cmodels evs 0 (m_mtype m) (dvals (m_constrs m))) as [cms|e] eqn:EC.
  - destruct S as (m2 & E2 & HM & _). rewrite E2 in E. pose proof (cmodels_plain _ _ _ _ _ EC) as PL.
    destruct (after_merge_eq fd m cms m2 HM PL) as [H1 H2].
    assert (RD : resolved fd m \/ ~ resolved fd m).
    { rewrite resolved_rows. unfold resolves. destruct (Forall_dec (row_resolved fd) (row_resolved_dec fd) (m_rows m)); [|tauto].
      destruct (ceval fd (m_offset m)); [left; split; auto; discriminate|]. right. intros [_ HX]; auto. }
    destruct RD as [R|R].
    + exfalso. destruct (H1 R) as (rem & _ & EQ). rewrite EQ in E.
      assert (P : noph (mfor rem purge_one)).
      { apply np_mfor. intros n. unfold purge_one. apply np_bind; [intros x; cbn; discriminate|intros x].
        apply np_bind; [apply np_lift; unfold name_index; destruct (index_of _ _); discriminate|intros i].
        destruct (pop_nth i (m_rows x)); [|intros y; cbn; discriminate].
        assert (PC : forall todo done, snd (pop_cols i done todo) <> Err PlaceholderError).
        { induction todo as [|[k c] r IH]; intros done; cbn [pop_cols]; [discriminate|]. destruct (pop_nth i c); [apply IH|cbn; discriminate]. }
        specialize (PC (m_cols x) []). destruct (pop_cols i [] (m_cols x)) as [cols [u|e]]; intros y; cbn in *; congruence. }
      specialize (P (with_prev (Some (phys fd m cms)) m)). destruct (mfor rem purge_one _) as [m3 [u|e]]; cbn in *; inversion E; subst; apply P; reflexivity.
    + rewrite (H2 R) in E. inversion E; subst. split; auto. split; auto. exists cms. auto.
  - destruct S as (m2 & E2). rewrite E2 in E. inversion E; subst. congruence.
Qed.
Lemma cmodels_shift evs t cs fd a : forall k cms, Forall constr_ok cs -> cmodels evs k t cs = Ok cms -> lawful t a ->
  sum_energy fd a cms = (penalties (as_binary t a) cs + match t with Ising => qsum (map ising_shift cs) | Qubo => 0 end)%Qc.
Proof.
  induction cs as [|c cs IH]; intros k cms HC E LA; cbn [cmodels] in E.
  - inversion E; subst. destruct t; unfold sum_energy, penalties; cbn; ring.
  - inversion HC as [|? ? C1 C2]; subst. destruct (cmodel (evs k) t c) as [cm|] eqn:EC; [|discriminate].
    destruct (cmodels evs (S k) t cs) as [l|] eqn:EL; [|discriminate]. inversion E; subst.
    specialize (IH _ _ C2 EL LA). unfold sum_energy, penalties in *. cbn [map qsum] in *. rewrite IH. destruct t; cbn [as_binary] in *.
    + rewrite (cmodel_energy_ising _ _ _ fd a EC) by assumption. ring.
    + rewrite (cmodel_energy_qubo _ _ _ fd a EC) by assumption. ring.
Qed.
Lemma failed_energy ev evs fd m m1 : aligned m -> Forall constr_ok (dvals (m_constrs m)) -> to_physical ev evs fd m = (m1, Err PlaceholderError) ->
  aligned m1 /\ m_constrs m1 = m_constrs m /\ m_mtype m1 = m_mtype m /\ forall fd' a, lawful (m_mtype m) a -> resolves fd' (m_offset m1) ->
  resolves fd' (m_offset m) /\ objective fd' m1 a = (objective fd' m a + penalties (as_binary (m_mtype m) a) (dvals (m_constrs m)) + shift m)%Qc.
Proof.
  intros A HC E. destruct (failed_step _ _ _ _ _ A E) as (_ & A1 & cms & EC & HM). split; auto.
  pose proof (mg_frame _ _ _ HM) as F. unfold frame in F. assert (FC : m_constrs m1 = m_constrs m) by congruence. assert (FT : m_mtype m1 = m_mtype m) by congruence.
  split; auto. split; auto. intros fd' a LA HR. destruct (mg_off _ _ _ HM fd') as [O1 O2]. apply O1 in HR. split; auto.
  unfold objective. fold (as_binary (m_mtype m1) a) (as_binary (m_mtype m) a). rewrite FC, FT.
  assert (EN : energy fd' a m1 = (energy fd' a m + sum_energy fd' a cms)%Qc).
  { rewrite !energy_csum, (O2 HR). assert (X : csum fd' a (m_rows m1) = csum fd' a (m_rows m ++ flat_map m_rows cms)).
    { pose proof (mg_rows _ _ _ HM) as R. induction R as [|x y l l' [EX _] R IH]; [reflexivity|]. rewrite !csum_cons, IH. f_equal.
      apply eqx_eqv in EX. destruct EX as (K1 & K2 & K3 & K4). unfold contribution. rewrite K1, K2, K3, K4. reflexivity. }
    rewrite X, csum_app. assert (Y : sum_energy fd' a cms = (- csum fd' a (flat_map m_rows cms) + qsum (map (fun c => value fd' (m_offset c)) cms))%Qc).
    { clear. unfold sum_energy. induction cms as [|c cms IH]; cbn [map qsum flat_map]; [rewrite csum_nil; ring|]. rewrite IH, csum_app, energy_csum. ring. }
    rewrite Y. ring. }
  rewrite EN, (cmodels_shift _ _ _ fd' a _ _ HC EC LA). unfold shift. ring.
Qed.

(** ** C112 *)
(** A PlaceholderError means that a placeholder is missing. *)
Theorem C112_error : forall ev evs fd m m1, aligned m -> to_physical ev evs fd m = (m1, Err PlaceholderError) -> ~ resolved fd m.
Proof. intros ev evs fd m m1 A E. apply (failed_step _ _ _ _ _ A E). Qed.

Lemma failed_objective n m m1 : failed n m m1 -> aligned m -> Forall constr_ok (dvals (m_constrs m)) ->
  aligned m1 /\ m_constrs m1 = m_constrs m /\ m_mtype m1 = m_mtype m /\ forall fd a, lawful (m_mtype m) a -> resolves fd (m_offset m1) ->
  objective fd m1 a = (objective fd m a + qz (Z.of_nat n) * (penalties (as_binary (m_mtype m) a) (dvals (m_constrs m)) + shift m))%Qc.
Proof.
  induction 1 as [m|n ev evs fd0 m m1 m2 E F IH]; intros A HC.
  - do 3 (split; auto). intros fd a _ _. change (Z.of_nat 0) with 0%Z. rewrite qz_0. ring.
  - destruct (failed_energy _ _ _ _ _ A HC E) as (A1 & C1 & T1 & EN). rewrite <- C1 in HC. destruct (IH A1 HC) as (A2 & C2 & T2 & EN2).
    split; auto. split; [congruence|]. split; [congruence|]. intros fd a LA HR.
    rewrite (EN2 fd a) by (auto; rewrite T1; auto).
    assert (R1 : resolves fd (m_offset m1)).
    { clear - F A1 HR. revert A1 HR. induction F as [m|n ev evs fd0 m m1 m2 E F IH]; intros A1 HR; auto.
      destruct (failed_step _ _ _ _ _ A1 E) as (_ & A2 & cms & _ & HM). apply (mg_off _ _ _ HM fd). auto. }
    destruct (EN fd a LA R1) as (_ & ->). assert (S1 : shift m1 = shift m) by (unfold shift; rewrite C1, T1; reflexivity).
    rewrite C1, T1, S1, Nat2Z.inj_succ, <- Z.add_1_l, qz_add, qz_1. ring.
Qed.
(** Full statement: after any number of failed calls to_physical gives what it would have given
    without them. What it gives has the penalties of the constraints once more for every
    failed call. *)
Theorem C112_exact_effect : forall n m m1 ev evs ev' evs' fd m2 p m3 q, aligned m -> Forall constr_ok (dvals (m_constrs m)) -> failed n m m1 ->
  to_physical ev evs fd m1 = (m2, Ok p) -> to_physical ev' evs' fd m = (m3, Ok q) ->
  exists k, forall a, lawful (m_mtype m) a ->
    energy_physical a p = (energy_physical a q + qz (Z.of_nat n) * penalties (as_binary (m_mtype m) a) (dvals (m_constrs m)) + k)%Qc.
Proof.
  intros n m m1 ev evs ev' evs' fd m2 p m3 q A HC F E E'. exists (qz (Z.of_nat n) * shift m)%Qc. intros a LA.
  destruct (failed_objective _ _ _ F A HC) as (A1 & C1 & T1 & EN).
  rewrite (physical_value _ _ _ _ _ _ a (proj1 A) HC E' LA).
  rewrite (physical_value _ _ _ _ _ _ a (proj1 A1)) with (2 := E) by (rewrite ?C1, ?T1; auto).
  rewrite (EN fd a LA (proj2 (physical_resolved _ _ _ _ _ _ (proj1 A1) E))).
  assert (S1 : shift m1 = shift m) by (unfold shift; rewrite C1, T1; reflexivity). rewrite S1. ring.
Qed.
(** Without constraints nothing changes. *)
Theorem C112_no_constraints_partial : forall n m m1, aligned m -> names_unique m -> m_constrs m = [] -> failed n m m1 -> m1 = m.
Proof.
  intros n m m1 A U C F. induction F as [m|n ev evs fd m m1 m2 E F IH]; auto.
  destruct (C12_no_constraints_partial _ _ _ _ _ _ A U C E) as (-> & _). auto.
Qed.
Lemma best_mtype ev evs fd m m' p : m_len m = length (m_rows m) -> to_physical ev evs fd m = (m', Ok p) -> p_mtype p = m_mtype m.
Proof. intros HL E. destruct (to_physical_ok _ _ _ _ _ _ HL E) as (cms & _ & _ & ->). unfold phys, build_physical. destruct (index_labels _ _ _ _ _ _). reflexivity. Qed.
Lemma times_nat_le n x y : (x <= y)%Qc -> (qz (Z.of_nat n) * x <= qz (Z.of_nat n) * y)%Qc.
Proof.
  intros H. rewrite (Qcmult_comm _ x), (Qcmult_comm _ y). apply Qcmult_le_compat_r; auto. rewrite <- qz_0. apply qz_le. lia.
Qed.
(** When the strengths are not negative and some best assignment satisfies the constraints, it stays
    a best assignment, and no assignment becomes one that was not. *)
Theorem C112_best_partial : forall n m m1 ev evs ev' evs' fd m2 p m3 q a, aligned m -> Forall constr_ok (dvals (m_constrs m)) -> failed n m m1 ->
  to_physical ev evs fd m1 = (m2, Ok p) -> to_physical ev' evs' fd m = (m3, Ok q) ->
  (forall c, In c (dvals (m_constrs m)) -> (0 <= strength c)%Qc) -> best q a -> Forall (satisfied a) (dvals (m_constrs m)) ->
  best p a /\ forall b, best p b -> best q b.
Proof.
  intros n m m1 ev evs ev' evs' fd m2 p m3 q a A HC F E E' HS [LA BA] SA.
  destruct (failed_objective _ _ _ F A HC) as (A1 & _ & T1 & _).
  pose proof (best_mtype _ _ _ _ _ _ (proj1 A1) E) as TP. pose proof (best_mtype _ _ _ _ _ _ (proj1 A) E') as TQ. rewrite T1 in TP. rewrite TQ in LA.
  destruct (C112_exact_effect _ _ _ _ _ _ _ _ _ _ _ _ A HC F E E') as [k EN]. set (cs := dvals (m_constrs m)) in *. set (t := m_mtype m) in *.
  assert (PA : forall b, lawful t b -> (penalties (as_binary t a) cs <= penalties (as_binary t b) cs)%Qc).
  { intros b LB. destruct (penalties_cases _ cs (as_binary_ok _ _ LA) HS) as (P1 & _). rewrite P1; [apply (penalties_cases _ cs (as_binary_ok _ _ LB) HS)|].
    eapply Forall_impl; [|exact SA]. intros c SC. apply as_binary_satisfied; auto. }
  unfold best. rewrite TP, TQ in *. split.
  - split; auto. intros b LB. rewrite !EN by auto. specialize (BA b LB). pose proof (times_nat_le n _ _ (PA b LB)). qord.
  - intros b [LB BB]. split; auto. intros c LC. specialize (BB a LA). rewrite !EN in BB by auto. specialize (BA c LC). pose proof (times_nat_le n _ _ (PA b LB)). qord.
Qed.

(** H = - 3 q[0] - 3 q[1], the 3 given as a placeholder, and a one-hot constraint of strength 2:
    both variables 1 is best, but after one failed call exactly one of them 1 is better. *)
Definition soft_with (st : Qc) : lmodel := run_ops
  [OVariables (VName "q") (ShTuple [ShInt 2]); OAdd (TVar (bin "q" 0)) (NStr "") (AC (CPh "lambda")) (num 1) AtNone TsNone;
   OAdd (TVar (bin "q" 1)) (NStr "") (AC (CPh "lambda")) (num 1) AtNone TsNone;
   OAddConstraint (Some (NHot [bin "q" 0; bin "q" 1] 1 "one" st))] (new_model Qubo).
Definition soft : lmodel := soft_with (qz 2).
Definition both_set : assignment := fun _ => 1%Qc.
Definition one_set : assignment := fun l => if String.eqb l "q[0]" then 1%Qc else 0%Qc.
Definition phys_of (x : lmodel * res physical) : physical := match snd x with Ok p => p | Err _ => mkPhysical Qubo [] [] 0 [] [] [] end.
Definition soft_q : physical := phys_of (to_physical env0 evs0 feed0 soft).
Definition soft_failed : lmodel := fst (to_physical env0 evs0 [] soft).
Definition soft_p : physical := phys_of (to_physical env0 evs0 feed0 soft_failed).
Lemma soft_facts : reachable soft /\ aligned soft /\ names_unique soft /\ Forall constr_ok (dvals (m_constrs soft)).
Proof.
  split; [apply PropsReach.history_reachable, run_history; constructor|].
  split; [apply alignedb_ok; vm_compute; reflexivity|]. split; [apply (wfb_ok soft); vm_compute; reflexivity|].
  constructor; [apply nodupb_ok; vm_compute; reflexivity|constructor].
Qed.
Theorem C112_refuted : exists m m1 p q a b, reachable m /\ aligned m /\ to_physical env0 evs0 [] m = (m1, Err PlaceholderError) /\
  (exists m2, to_physical env0 evs0 feed0 m1 = (m2, Ok p)) /\ (exists m3, to_physical env0 evs0 feed0 m = (m3, Ok q)) /\
  best q a /\ lawful Qubo b /\ (energy_physical b p < energy_physical a p)%Qc.
Proof.
  exists soft, soft_failed, soft_p, soft_q, both_set, one_set. destruct soft_facts as (R & A & _ & HC). split; [exact R|]. split; [exact A|].
  split. { unfold soft_failed. assert (X : snd (to_physical env0 evs0 [] soft) = Err PlaceholderError) by (vm_compute; reflexivity). rewrite <- X. apply surjective_pairing. }
  split. { unfold soft_p, phys_of. destruct (to_physical env0 evs0 feed0 soft_failed) as [x [p|e]] eqn:E; cbn [snd]; [exists x; reflexivity|]. apply (f_equal (fun z => okb z)) in E. vm_compute in E. discriminate. }
  assert (EQ : exists m3, to_physical env0 evs0 feed0 soft = (m3, Ok soft_q)).
  { unfold soft_q, phys_of. destruct (to_physical env0 evs0 feed0 soft) as [x [p|e]] eqn:E; cbn [snd]; [exists x; reflexivity|]. apply (f_equal (fun z => okb z)) in E. vm_compute in E. discriminate. }
  split; [exact EQ|]. split; [|split].
  - destruct EQ as [m3 E]. assert (T : p_mtype soft_q = Qubo) by (vm_compute; reflexivity). split; rewrite T; [intros l; right; reflexivity|]. intros b LB.
    rewrite (physical_value _ _ _ _ _ _ b (proj1 A) HC E LB). rewrite (physical_value _ _ _ _ _ _ both_set (proj1 A) HC E) by (intros l; right; reflexivity).
    apply Qcplus_le_compat; [|apply Qcle_refl]. unfold objective, energy, penalties. cbn. unfold contribution. cbn. unfold value, hot. cbn.
    destruct (LB "q[0]") as [-> | ->], (LB "q[1]") as [-> | ->]; vm_compute; discriminate.
  - intros l. unfold one_set. destruct (String.eqb l "q[0]"); auto.
  - vm_compute. reflexivity.
Qed.

(** The hypotheses are met, twice failed and with the constraint strong enough. *)
Definition hard : lmodel := soft_with (qz 8).
Example C112_hyps : exists m1 m2 m3 p q, reachable hard /\ aligned hard /\ names_unique hard /\ Forall constr_ok (dvals (m_constrs hard)) /\ failed 2 hard m1 /\ to_physical env0 evs0 feed0 m1 = (m2, Ok p) /\ to_physical env0 evs0 feed0 hard = (m3, Ok q) /\ (forall c, In c (dvals (m_constrs hard)) -> (0 <= strength c)%Qc) /\ best q one_set /\ Forall (satisfied one_set) (dvals (m_constrs hard)) /\ (exists m4, failed 1 ising_model m4 /\ aligned ising_model /\ names_unique ising_model /\ m_constrs ising_model = []).
Proof.
  assert (AL : aligned hard) by (apply alignedb_ok; vm_compute; reflexivity).
  assert (HC : Forall constr_ok (dvals (m_constrs hard))) by (constructor; [apply nodupb_ok; vm_compute; reflexivity|constructor]).
  set (x1 := to_physical env0 evs0 [] hard). set (x2 := to_physical env0 evs0 [] (fst x1)).
  assert (X1 : snd x1 = Err PlaceholderError) by (vm_compute; reflexivity). assert (X2 : snd x2 = Err PlaceholderError) by (vm_compute; reflexivity).
  destruct (ok_parts (to_physical env0 evs0 feed0 (fst x2))) as [p EP]; [vm_compute; reflexivity|].
  destruct (ok_parts (to_physical env0 evs0 feed0 hard)) as [q EQ]; [vm_compute; reflexivity|].
  eexists. eexists. eexists. exists p, q. split; [apply PropsReach.history_reachable, run_history; constructor|]. split; [exact AL|]. split; [apply (wfb_ok hard); vm_compute; reflexivity|]. split; [exact HC|].
  split. { eapply failed_again; [|eapply failed_again; [|apply failed_none]].
    - rewrite <- X1. apply surjective_pairing.
    - rewrite <- X2. apply surjective_pairing. }
  split; [exact EP|]. split; [exact EQ|]. split. { intros c [<-|[]]. vm_compute. discriminate. }
  split. { assert (T : p_mtype q = Qubo) by (rewrite (best_mtype _ _ _ _ _ _ (proj1 AL) EQ); vm_compute; reflexivity). split; rewrite T; [intros l; unfold one_set; destruct (String.eqb l "q[0]"); auto|]. intros b LB.
    rewrite (physical_value _ _ _ _ _ _ b (proj1 AL) HC EQ LB). rewrite (physical_value _ _ _ _ _ _ one_set (proj1 AL) HC EQ) by (intros l; unfold one_set; destruct (String.eqb l "q[0]"); auto).
    apply Qcplus_le_compat; [|apply Qcle_refl]. unfold objective, energy, penalties. cbn. unfold contribution. cbn. unfold value, hot. cbn.
    destruct (LB "q[0]") as [-> | ->], (LB "q[1]") as [-> | ->]; vm_compute; discriminate. }
  split. { constructor; [vm_compute; reflexivity|constructor]. }
  destruct C12_hyps as (m4 & E4 & A4 & U4 & C4). exists m4. split; [eapply failed_again; [exact E4|apply failed_none]|]. split; [exact A4|]. split; [exact U4|exact C4].
Qed.
Print Assumptions C112_error.
Print Assumptions C112_exact_effect.
Print Assumptions C112_no_constraints_partial.
Print Assumptions C112_best_partial.
Print Assumptions C112_refuted.
