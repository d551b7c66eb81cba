(** * PropsSampleCalls: C158 - the eight calls of SawatabiSolver in the samples, for every random source. *)
From Verif Require Import PyBase PyLemmas Numbers Constraint LogicalModel Spec PhysicalProofs ToPhysicalProofs Physical PropsPhysical
  Samples Solver SolverSpec SolverProofs PropsSolver NppStream SampleModels SampleCalls PropsLandscape.
Open Scope string_scope.
Open Scope list_scope.

(** ** Specification *)
(** Whatever the random source: the model is built, the call returns, all [reads] reads of [sweeps] sweeps are counted, every sample has exactly the variables
    [ls] with values of the model's type, and its energy is the one of the formula. *)
Definition answers (c : sample_call) (reads sweeps : nat) (ls : list string) (formula : assignment -> Qc) : Prop :=
  forall w clock ev evs fd, world_ok w -> boltz_ok w ->
  exists m1 m2 p out, sc_build c clock (new_model (sc_type c)) = (m1, Ok tt) /\ to_physical ev evs fd m1 = (m2, Ok p) /\
    result w p (sc_options c) = Ok out /\
    length (out_reads out) = reads /\ list_sum (map snd (out_set out)) = reads /\
    (forall r, In r (out_reads out) -> length (d_ehist r) = sweeps /\ length (d_thist r) = sweeps /\ length (d_ahist r) = sweeps) /\
    forall s e n, In (s, e, n) (out_set out) -> dkeys s = ls /\ Forall (legal (sc_type c)) (dvals s) /\ e = formula (value_of s).

(** ** Proof *)
Definition noloopb (p : physical) : bool := forallb (fun kv => negb (String.eqb (fst (fst kv)) (snd (fst kv)))) (p_quad p).
Lemma noloop p : noloopb p = true -> forall l, ~ In (l, l) (dkeys (p_quad p)).
Proof. intros H l HI. unfold dkeys in HI. apply in_map_iff in HI. destruct HI as ([k v] & E & HI). cbn [fst] in E. subst k. unfold noloopb in H. rewrite forallb_forall in H. specialize (H _ HI). cbn [fst snd] in H. rewrite String.eqb_refl in H. discriminate. Qed.
Definition fullb (t : mtype) (ls : list string) (o : options) : bool :=
  (Nat.eqb (length (init_list o)) 0 || Z.eqb (Z.of_nat (length (init_list o))) (o_reads o)) &&
  forallb (fun s => forallb (fun l => match dget l s with Some z => Z.eqb z 1 || Z.eqb z (match t with Ising => -1 | Qubo => 0 end) | None => false end) ls) (init_list o).
Lemma answers_ok c reads sweeps ls formula p : o_reads (sc_options c) = Z.of_nat reads -> o_sweeps (sc_options c) = Z.of_nat sweeps ->
  (forall clock ev evs fd, exists m1 m2, sc_build c clock (new_model (sc_type c)) = (m1, Ok tt) /\ to_physical ev evs fd m1 = (m2, Ok p) /\
     m_len m1 = length (m_rows m1) /\ NoDup (all_labels (m_vars m1)) /\ coveredb m1 p = true) ->
  dvals (p_i2l p) = ls -> ls <> [] -> p_mtype p = sc_type c -> noloopb p = true -> fullb (sc_type c) ls (sc_options c) = true ->
  (o_pickup (sc_options c) = "random" \/ o_pickup (sc_options c) = "sequential") ->
  (forall z, o_seed (sc_options c) = Some z -> (0 <= z)%Z) -> reverse_ok (o_reverse (sc_options c)) -> positive_schedule (sc_options c) ->
  (forall s, dkeys s = ls -> Forall (legal (sc_type c)) (dvals s) -> energy_physical (value_of s) p = formula (value_of s)) ->
  answers c reads sweeps ls formula.
Proof.
  intros OR OS HB HL NE HT NLP HF HPI HSE HR HP HE w clock ev evs fd WO BO. destruct (HB clock ev evs fd) as (m1 & m2 & B1 & B2 & B3 & B4 & B5).
  destruct (C67_indexed ev evs fd m1 m2 p B3 B4 B2 (coveredb_ok _ _ B5)) as (ls' & WI). assert (EL : ls' = ls) by (destruct WI as (_ & _ & <- & _); exact HL). subst ls'.
  unfold fullb in HF. apply andb_true_iff in HF. destruct HF as [F1 F2]. rewrite forallb_forall in F2.
  assert (CS : forall s l, In s (init_list (sc_options c)) -> In l ls -> exists z, dget l s = Some z /\ legal (sc_type c) z).
  { intros s l I1 I2. specialize (F2 _ I1). rewrite forallb_forall in F2. specialize (F2 _ I2). destruct (dget l s) as [z|]; [|discriminate]. exists z. split; auto.
    apply orb_true_iff in F2. destruct F2 as [F2|F2]; apply Z.eqb_eq in F2; subst z; destruct (sc_type c); cbn [legal]; auto. }
  destruct (C41_succeeds w p ls (sc_options c)) as (out & HO); auto.
  { apply noloop; auto. }
  { rewrite OS. lia. }
  { unfold complete_states. apply orb_true_iff in F1. destruct F1 as [F1|F1]; [left; apply Nat.eqb_eq in F1; destruct (init_list (sc_options c)); [reflexivity|discriminate]|]. right. apply Z.eqb_eq in F1. split; auto. intros s l I1 I2. destruct (CS s l I1 I2) as (z & Z1 & _). eauto. }
  assert (LS : legal_states p (sc_options c)).
  { intros s l z I1 OC G. rewrite HT. assert (I2 : In l ls) by (apply WI; exact OC). destruct (CS s l I1 I2) as (z' & Z1 & Z2). congruence. }
  exists m1, m2, p, out. split; auto. split; auto. split; auto. destruct (C40_samples w p ls _ out WO WI LS HO) as (S1 & _ & S3). destruct (C40_no_read_lost w p ls _ out WO WI LS HO) as (S4 & _). rewrite OR, Nat2Z.id in S3, S4.
  split; auto. split; auto. split; [intros r HIr; destruct (C41_histories w p ls _ out r WO WI HO HIr) as (H1 & H2 & H3 & _); rewrite OS, Nat2Z.id in H1, H2, H3; auto|]. intros s e n HI. destruct (S1 _ _ _ HI) as (K1 & K2 & _). rewrite HT in K2. split; auto. split; auto. rewrite (C39_reported_energy w p ls _ out s e n WO WI LS HO HI). apply HE; auto.
Qed.
(** The physical model of a call, at some time. *)
Definition some_env : env := mkEnv 0%Qc 0%Qc (fun _ => "") "1" (fun _ => "2").
Definition phys_of (c : sample_call) : physical :=
  match to_physical some_env (fun _ => some_env) [] (fst (sc_build c (fun _ => some_env) (new_model (sc_type c)))) with (_, Ok p) => p | (_, Err _) => mkPhysical Ising [] [] 0%Qc [] [] [] end.
Ltac built := intros clock ev evs fd; do 2 eexists; split; [vm_compute; reflexivity|]; split; [vm_compute; reflexivity|]; split; [reflexivity|]; split;
  [apply nodupb_ok; vm_compute; reflexivity|vm_compute; reflexivity].
Ltac literals := repeat match goal with |- context [{| this := ?a; canon := ?b |}] => let z := eval vm_compute in (Qnum a) in replace {| this := a; canon := b |} with (qz z) by (apply Qc_is_canon; reflexivity) end.
Ltac constants := repeat match goal with |- context [qz (Zneg ?p)] => replace (qz (Zneg p)) with (- qz (Zpos p))%Qc by (apply Qc_is_canon; reflexivity) end;
  replace (qz 1) with 1%Qc by (apply Qc_is_canon; reflexivity); replace (qz 0) with 0%Qc by (apply Qc_is_canon; reflexivity).
Ltac spelled c := let v := eval vm_compute in (phys_of c) in replace (phys_of c) with v by (vm_compute; reflexivity); unfold energy_physical; cbn [p_linear p_quad p_offset map qsum fst snd]; literals; constants.

(** ** Theorems *)
Definition energy_1_body (a : assignment) : Qc := qsum (map a twelve).
Definition energy_2_body (a : assignment) : Qc := (- qsum (map (fun l => a (fst l) * a (snd l)) (combine twelve (tl twelve))))%Qc.
Definition energy_2x2 (x y z : string) (a : assignment) : Qc := (qz 6 - qz 2 * (a x + a y + a z))%Qc.
Definition energy_ising (s : assignment) : Qc :=
  (qz 6 - (s "x[0][0]" + s "x[0][0]" * s "x[0][1]" - qz 2 * s "x[0][1]" * s "x[1][0]" + qz 3 * s "x[1][0]" * s "x[1][1]"
      - qz 4 * s "x[1][1]" * s "x[2][0]" + qz 5 * s "x[2][0]" * s "x[2][1]"))%Qc.
Definition energy_one_hot (a : assignment) : Qc :=
  ((a "a[0]" + a "a[1]" + a "a[2]" + a "a[3]" - 1) * (a "a[0]" + a "a[1]" + a "a[2]" + a "a[3]" - 1))%Qc.
Ltac call_ok c := apply (answers_ok _ _ _ _ _ (phys_of c));
  [reflexivity|reflexivity|built|vm_compute; reflexivity|discriminate|vm_compute; reflexivity|vm_compute; reflexivity|vm_compute; reflexivity|auto
  |intros z E; try discriminate; injection E as <-; discriminate| |try solve [vm_compute; auto]|].
(** The six forward calls with a seed. *)
Theorem C158_one_body : answers call_1_body 10 100 twelve energy_1_body.
Proof. call_ok call_1_body; [exact I|]. intros s _ _. spelled call_1_body. unfold energy_1_body, twelve. cbn [map qsum]. ring. Qed.
Theorem C158_two_body : answers call_2_body 10 100 twelve energy_2_body.
Proof. call_ok call_2_body; [exact I|]. intros s _ _. spelled call_2_body. unfold energy_2_body, twelve. cbn [map qsum tl combine fst snd]. ring. Qed.
Theorem C158_squares : answers call_2x2_ising 1 100 ["a[0][1]"; "a[1][0]"; "a[1][1]"] (energy_2x2 "a[0][1]" "a[1][0]" "a[1][1]") /\
  answers call_2x2_qubo 1 100 ["b[0][1]"; "b[1][0]"; "b[1][1]"] (energy_2x2 "b[0][1]" "b[1][0]" "b[1][1]").
Proof.
  split; [call_ok call_2x2_ising|call_ok call_2x2_qubo]; try exact I; intros s _ _; [spelled call_2x2_ising|spelled call_2x2_qubo]; unfold energy_2x2; ring.
Qed.
Theorem C158_ising : answers call_ising 1 100 ["x[0][0]"; "x[0][1]"; "x[1][0]"; "x[1][1]"; "x[2][0]"; "x[2][1]"] energy_ising.
Proof. call_ok call_ising; [exact I|]. intros s _ _. spelled call_ising. unfold energy_ising. ring. Qed.
Theorem C158_qubo : answers call_qubo 1 100 ["a[0]"; "a[1]"; "a[2]"; "a[3]"] energy_one_hot.
Proof.
  call_ok call_qubo; [exact I|]. intros s _ HL. apply value_binary in HL. spelled call_qubo. unfold energy_one_hot.
  destruct (HL "a[0]") as [-> | ->], (HL "a[1]") as [-> | ->], (HL "a[2]") as [-> | ->], (HL "a[3]") as [-> | ->]; apply Qc_is_canon; reflexivity.
Qed.
(** The calls with initial states, one of them with reverse annealing: the default seed is fresh. *)
Theorem C158_states : answers call_states 1 1 twelve energy_1_body /\ answers call_reverse 1 100 twelve energy_1_body.
Proof.
  split; [call_ok call_states; [exact I|]|call_ok call_reverse; [split; eexists; reflexivity| |]].
  - intros s _ _. spelled call_states. unfold energy_1_body, twelve. cbn [map qsum]. ring.
  - split; [reflexivity|]. split; [reflexivity|]. intros rt E. injection E as <-. reflexivity.
  - intros s _ _. spelled call_reverse. unfold energy_1_body, twelve. cbn [map qsum]. ring.
Qed.
(** A random source of the kind the theorems ask for, and what it answers. *)
Example C158_hyps : world_ok world0 /\ boltz_ok world0 /\
  match result world0 (phys_of call_states) (sc_options call_states) with Ok a => map snd (out_set a) = [1] | Err _ => False end.
Proof. split; [apply world0_ok|]. split; [apply boltz0_ok|]. vm_compute. auto. Qed.
Print Assumptions C158_one_body.
Print Assumptions C158_two_body.
Print Assumptions C158_squares.
Print Assumptions C158_ising.
Print Assumptions C158_qubo.
Print Assumptions C158_states.
