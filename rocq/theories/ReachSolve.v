(** * ReachSolve: running SawatabiSolver with random numbers of one's choice. *)
From Verif Require Import PyBase PyLemmas Numbers Constraint LogicalModel Spec PhysicalProofs Physical BqmProofs PropsBqm Solver SolverSpec SolverProofs PropsSolver ReachProofs.
From Coq Require Import Permutation.
Open Scope string_scope.
Open Scope list_scope.

(** ** What a run does is determined by the random numbers *)
Lemma visits_det E bz t rs x u a picks x1 u1 a1 : visits E bz t rs x u a picks x1 u1 a1 ->
  forall x2 u2 a2, visits E bz t rs x u a picks x2 u2 a2 -> x1 = x2 /\ u1 = u2 /\ a1 = a2.
Proof.
  assert (NL : forall q q' : Qc, (q < q')%Qc -> (q' <= q)%Qc -> False) by (intros q q' H1 H2; apply (Qclt_not_le _ _ H1); auto).
  induction 1; intros x2 u2 a2 HV; inversion HV; subst; auto;
    repeat match goal with H1 : ?x = Ok _, H2 : ?x = Ok _ |- _ => rewrite H1 in H2; inversion H2; subst; clear H2
                         | H1 : ?x = Some _, H2 : ?x = Some _ |- _ => rewrite H1 in H2; inversion H2; subst; clear H2 end;
    try (apply IHvisits; assumption); exfalso; eauto.
Qed.
Lemma annealed_det E bz rs x u plan es1 acc1 x1 u1 : annealed E bz rs x u plan es1 acc1 x1 u1 ->
  forall es2 acc2 x2 u2, annealed E bz rs x u plan es2 acc2 x2 u2 -> x1 = x2.
Proof.
  induction 1; intros es2 acc2 x2 u2 HA; inversion HA; subst; auto.
  match goal with H1 : visits _ _ _ _ _ _ _ _ _ _ _, H2 : visits _ _ _ _ _ _ _ _ _ _ _ |- _ => destruct (visits_det _ _ _ _ _ _ _ _ _ _ _ H1 _ _ _ H2) as (-> & -> & ->) end.
  eauto.
Qed.

(** ** The picks and random numbers of a run *)
Fixpoint all_picks (g : generator) (mode : string) (n m : nat) (tr : trace) : list (list nat) :=
  match m with
  | 0 => []
  | S m' => fst (pickups g mode n tr) :: all_picks g mode n m' (snd (pickups g mode n tr))
  end.
Lemma all_picks_len g mode n m : forall tr, length (all_picks g mode n m tr) = m.
Proof. induction m as [|m IH]; intros tr; simpl; auto. Qed.

Section Exact.
Variables (p : physical) (ls : list string) (orig b : bqm) (lin : list Qc) (adj : list (dict nat Qc)).
Hypothesis HS : prepared p ls orig b lin adj.
Variables (w : world) (g : generator) (o : options).
Notation n := (length (b_linear b)).
Notation E := (vector_energy p).
Notation tracked := (tracked p b).

Lemma sweep_exact rs st k st' : sweep_once w g o lin adj n rs st k = Ok st' -> tracked (k_x (s_walk st)) (k_energy (s_walk st)) ->
  tracked (k_x (s_walk st')) (k_energy (s_walk st')) /\ s_trace st' = snd (pickups g (o_pickup o) n (s_trace st)) /\
  exists a, visits E (w_boltz w) (s_temp st) rs (k_x (s_walk st)) (k_used (s_walk st)) 0 (fst (pickups g (o_pickup o) n (s_trace st)))
              (k_x (s_walk st')) (k_used (s_walk st')) a.
Proof.
  intros H HT. unfold sweep_once in H. apply rbind_ok in H. destruct H as (rv & HR & H).
  destruct (pickups g (o_pickup o) n (s_trace st)) as [idxs tr] eqn:EP. apply rbind_ok in H. destruct H as (k' & HF & H).
  apply rbind_ok in H. destruct H as ([t' tg] & HTT & H).
  destruct (flips_spec _ _ _ _ _ _ HS _ _ _ _ _ _ HF) as (T1 & V1); [exact HT|]. cbn [k_x k_used k_acc] in V1.
  inversion H; subst st'. cbn [s_walk s_trace fst snd]. split; auto. split; auto. exists (k_acc k'). exact V1.
Qed.
Lemma sweeps_exact rs : forall m k st st', sweeps w g o lin adj n rs st (seq k m) = Ok st' -> tracked (k_x (s_walk st)) (k_energy (s_walk st)) -> phase o k st ->
  exists es acc, annealed E (w_boltz w) rs (k_x (s_walk st)) (k_used (s_walk st))
    (combine (map (temp_at o) (seq k m)) (all_picks g (o_pickup o) n m (s_trace st))) es acc (k_x (s_walk st')) (k_used (s_walk st')).
Proof.
  induction m as [|m IH]; intros k st st' H HT HP; cbn [seq sweeps] in H.
  - inversion H; subst. exists [], []. constructor.
  - apply rbind_ok in H. destruct H as (st1 & H1 & H). destruct (sweep_exact _ _ _ _ H1 HT) as (T1 & TR & a & V).
    destruct (IH _ _ _ H T1 (sweep_phase _ _ _ _ _ _ _ _ _ _ H1 HP)) as (es & acc & A).
    exists (E (k_x (s_walk st)) :: es), (a :: acc). cbn [seq map all_picks combine]. rewrite TR in A. destruct HP as [ET _]. rewrite ET in V. econstructor; eauto.
Qed.
Hypothesis HG : rng_ok g.
Lemma annealing_exact s0 tr d tr' : annealing w g o p orig b lin adj s0 tr = Ok (d, tr') -> reverse_ok (o_reverse o) ->
  exists x0 tr1 x u es acc, initial_spins g p b s0 tr = Ok (x0, tr1) /\ length x0 = length ls /\ length x = length ls /\
    annealed E (w_boltz w) (g_floats g (RRandom (Z.to_nat (o_sweeps o * Z.of_nat n)) :: tr1)) x0 0
      (combine (map (temp_at o) (seq 0 (Z.to_nat (o_sweeps o))))
         (all_picks g (o_pickup o) n (Z.to_nat (o_sweeps o)) (RRandom (Z.to_nat (o_sweeps o * Z.of_nat n)) :: tr1))) es acc x u /\
    d_sample d = combine ls x /\ d_energy d = E x.
Proof.
  intros H HR. unfold annealing in H. apply rbind_ok in H. destruct H as ([x0 t1] & H0 & H). cbn [fst snd] in H.
  destruct (initial_spec _ _ _ _ _ _ HS g HG _ _ _ _ H0) as (L0 & S0). apply rbind_ok in H. destruct H as (e0 & HE & H). apply bqm_energy_ok in HE.
  apply rbind_ok in H. destruct H as ([tm tg] & HTT & H). destruct (o_sweeps o * Z.of_nat n <? 0)%Z eqn:EN; [discriminate|].
  apply rbind_ok in H. destruct H as (st & HW & H). inversion H; subst d tr'. clear H. apply Z.ltb_ge in EN.
  pose proof (pr_n _ _ _ _ _ _ HS) as HN. pose proof (pr_maps _ _ _ _ _ _ HS) as HM.
  assert (HT : tracked x0 (- (1) * e0)%Qc).
  { split; auto. rewrite HE. rewrite (energy_bqm_ext b (value_of (make_sample p x0)) (spins p x0)).
    - transitivity (- energy_bqm (spins p x0) b)%Qc; [ring|]. apply (pr_energy _ _ _ _ _ _ HS).
    - apply (value_of_spins p ls HM). congruence. }
  match type of HW with sweeps _ _ _ _ _ _ ?R ?S _ = _ => set (rs := R) in *; set (st0 := S) in * end.
  destruct (sweeps_spec _ _ _ _ _ _ HS w g o rs _ _ _ HW HT) as (T2 & _).
  destruct (sweeps_exact rs _ 0 st0 st HW HT) as (es & acc & A).
  { unfold phase, temp_at. cbn [st0 s_temp s_reversing s_target fst snd]. destruct (o_reverse o) as [|dd|]; [| |destruct HR].
    - inversion HTT; subst. split; auto. cbn [Qcpower]. cbn [fst]. ring.
    - destruct HR as [[per HR1] [rt HR2]]. rewrite HR1, HR2. assert (TR : rev_truthy (RDict dd) = true) by (destruct dd; [discriminate|reflexivity]).
      rewrite TR in HTT. unfold rev_get in HTT. rewrite HR2 in HTT. cbn [rbind] in HTT. inversion HTT; subst. split; auto.
      exists tg, per. split; auto. split; auto. cbn [Qcpower]. ring. }
  cbn [st0 s_walk k_x k_used s_trace] in A. destruct (annealed_facts _ _ _ _ _ _ _ _ _ _ A) as (_ & _ & LX & _).
  exists x0, t1, (k_x (s_walk st)), (k_used (s_walk st)), es, acc. split; auto. split; [congruence|]. split; [congruence|]. split; [exact A|].
  cbn [d_sample d_energy]. split; [apply (make_sample_eq p ls HM); congruence|]. destruct T2 as [_ ->]. rewrite (pr_offset _ _ _ _ _ _ HS). ring.
Qed.
End Exact.

(** ** A generator with prescribed answers *)
Fixpoint permutations_drawn (tr : trace) : nat :=
  match tr with [] => 0 | RPermutation _ :: r => S (permutations_drawn r) | _ :: r => permutations_drawn r end.
Definition script (n : nat) (bits : list bool) (rs : list Qc) (picks : list (list nat)) : generator :=
  mkGen (fun tr => match tr with RIntegers k :: _ => if Nat.eqb k (length bits) then bits else repeat true k | _ => [] end)
        (fun tr => match tr with RRandom k :: _ => if Nat.eqb k (length rs) then rs else repeat 0%Qc k | _ => [] end)
        (fun tr => match tr with RPermutation k :: r => if Nat.eqb k n then nth (permutations_drawn r) picks (seq 0 k) else seq 0 k | _ => [] end).
Lemma script_ok n bits rs picks : Forall in01 rs -> Forall (fun l => Permutation l (seq 0 n)) picks -> rng_ok (script n bits rs picks).
Proof.
  intros HR HP. split; intros k tr; cbn.
  - destruct (Nat.eqb_spec k (length bits)); auto. apply repeat_length.
  - destruct (Nat.eqb_spec k (length rs)); auto. split; [apply repeat_length|]. apply Forall_forall. intros v HV. apply repeat_spec in HV. subst.
    split; [apply Qcle_refl|reflexivity].
  - destruct (Nat.eqb_spec k n) as [->|]; auto. destruct (nth_in_or_default (permutations_drawn tr) picks (seq 0 n)) as [HI|E]; [|rewrite E; auto].
    rewrite Forall_forall in HP. auto.
Qed.
Lemma script_random n bits rs picks m : forall tr, permutations_drawn tr + m <= length picks ->
  all_picks (script n bits rs picks) "random" n m tr = firstn m (skipn (permutations_drawn tr) picks).
Proof.
  induction m as [|m IH]; intros tr H; cbn [all_picks firstn]; auto. unfold pickups. cbn [String.eqb Ascii.eqb Bool.eqb fst snd].
  rewrite IH by (cbn [permutations_drawn]; lia). cbn [g_perm script permutations_drawn]. rewrite Nat.eqb_refl.
  assert (LT : permutations_drawn tr < length picks) by lia. revert LT. generalize (permutations_drawn tr). clear.
  induction picks as [|q picks IH]; intros k LT; [simpl in LT; lia|]. destruct k as [|k]; [reflexivity|]. simpl in LT. cbn [skipn nth]. apply IH. lia.
Qed.
Lemma picks_sequential g n m : forall tr, all_picks g "sequential" n m tr = repeat (seq 0 n) m.
Proof. induction m as [|m IH]; intros tr; cbn [all_picks repeat]; auto. unfold pickups. cbn [String.eqb Ascii.eqb Bool.eqb fst snd]. rewrite IH. auto. Qed.

(** ** From solve to the run *)
Lemma solve_exact w p ls o out : well_indexed p ls -> world_ok w -> result w p o = Ok out ->
  exists g orig b lin adj, pick_rng w (o_seed o) = Ok g /\ rng_ok g /\ prepared p ls orig b lin adj /\
    reads w g o p orig b lin adj (start_states p o) [] = Ok (out_reads out) /\
    out_set out = sampleset (is_ising (p_mtype p)) (out_reads out).
Proof.
  intros HW (HF & HSD) H. unfold result, solve in H. destruct (check_args p o) as [[]|] eqn:EC; [|discriminate].
  destruct (pick_rng w (o_seed o)) as [g|] eqn:EG; [|discriminate].
  assert (RG : rng_ok g).
  { unfold pick_rng in EG. destruct (o_seed o) as [z|]; [|inversion EG; subst; auto].
    destruct (Z.eqb z 0); [inversion EG; subst; auto|]. destruct (z <? 0)%Z; inversion EG; subst; auto. }
  destruct (to_bqm 1 p) as [orig|] eqn:EB; [|discriminate]. cbn [snd] in H. cbv zeta in H. set (b := bqm_to_spin orig) in *.
  apply rbind_ok in H. destruct H as (lin & HL & H). apply rbind_ok in H. destruct H as (adj & HA & H). apply rbind_ok in H. destruct H as (l & HR & H).
  inversion H; subst out. cbn [out_reads out_set]. clear H.
  assert (HS : prepared p ls orig b lin adj).
  { split; auto; [apply well_indexed_maps; auto|]. destruct HW as (_ & _ & _ & HO). intros x. apply HO. }
  assert (ET : b_spin orig = match p_mtype p with Ising => true | Qubo => false end).
  { destruct (to_bqm_spec _ _ _ EB) as (_ & _ & _ & _ & _ & H6 & _). exact H6. }
  exists g, orig, b, lin, adj. split; auto. split; auto. split; auto. rewrite ET in *. split; auto.
  unfold start_states. destruct (has_init o) eqn:EI; [|exact HR].
  rewrite andb_true_r in HR. destruct (p_mtype p); cbn [negb] in HR; [|exact HR]. unfold init_list at 1. destruct (o_init o); exact HR.
Qed.

(** Which visiting orders a pick-up mode allows. *)
Definition order_ok (mode : string) (n : nat) (picks : list nat) : Prop :=
  (mode = "random" /\ Permutation picks (seq 0 n)) \/ (mode = "sequential" /\ picks = seq 0 n).
Lemma order_perm mode n picks : order_ok mode n picks -> Permutation picks (seq 0 n).
Proof. intros [[_ H]|[_ ->]]; auto. Qed.

Lemma combine_map {A B C} (f : A -> B) (g : A -> C) (l : list A) : combine (map f l) (map g l) = map (fun a => (f a, g a)) l.
Proof. induction l as [|a l IH]; simpl; auto. rewrite IH. auto. Qed.
Lemma split_plan {A B} (plan : list (A * B)) : combine (map fst plan) (map snd plan) = plan.
Proof. rewrite combine_map. rewrite <- (map_id plan) at 2. apply map_ext. intros [a b]. auto. Qed.
Lemma start_unique ls s x x' : length x = length ls -> length x' = length ls -> starts ls (Some s) x -> starts ls (Some s) x' -> x = x'.
Proof.
  intros L L' H H'. apply vec_ext. intros j. destruct (nth_error ls j) as [l|] eqn:EL.
  - destruct (H j l EL) as (z & H1 & H2). destruct (H' j l EL) as (z' & H1' & H2'). congruence.
  - apply nth_error_None in EL. rewrite !(proj2 (nth_error_None _ _)); auto; lia.
Qed.
(** One read with prescribed random numbers. [bits]: the drawn initial spins, when no initial state is given. *)
Theorem scripted : forall seeded boltz p ls o x0 x bits,
  (forall z, rng_ok (seeded z)) -> (forall d t, (0 < d)%Qc -> (0 < t)%Qc -> exists pr, boltz d t = Ok pr) ->
  well_indexed p ls -> ls <> [] -> (forall l, ~ In (l, l) (dkeys (p_quad p))) ->
  o_reads o = 1%Z -> complete_states ls o -> o_seed o = None -> (0 <= o_sweeps o)%Z -> reverse_ok (o_reverse o) -> positive_schedule o ->
  o_pickup o = "random" \/ o_pickup o = "sequential" -> length x0 = length ls ->
  (match start_states p o with [None] => bits = map (fun z => Z.eqb z 1) x0 /\ Forall spinz x0 | [s] => starts ls s x0 | _ => False end) ->
  anneals (vector_energy p) boltz (order_ok (o_pickup o) (length ls)) (map (temp_at o) (seq 0 (Z.to_nat (o_sweeps o)))) x0 x ->
  exists g, rng_ok g /\ exists out, result (mkWorld seeded g boltz) p o = Ok out /\
    out_set out = [(convert_sample (is_ising (p_mtype p)) (combine ls x), vector_energy p x, 1)].
Proof.
  intros seeded boltz p ls o x0 x bits SO BO HW NE NL RD CS SD SW RV PS PK L0 ST (plan & vs & MF & FP & LV & FV & RUN).
  set (n := length ls) in *. set (m := Z.to_nat (o_sweeps o)) in *.
  assert (LP : length plan = m) by (rewrite <- (map_length fst), MF, map_length, seq_length; auto).
  set (rs := vs ++ repeat 0%Qc (m * n - length vs)).
  assert (SUM : list_sum (map (fun tp : Qc * list nat => length (snd tp)) plan) = m * n).
  { rewrite <- LP. clear - FP. induction FP as [|tp plan HO FP IH]; simpl; auto. rewrite IH. apply order_perm, Permutation_length in HO. rewrite seq_length in HO. lia. }
  assert (LR : length rs = m * n) by (unfold rs; rewrite app_length, repeat_length; lia).
  set (g := script n bits rs (map snd plan)).
  assert (GO : rng_ok g).
  { apply script_ok.
    - apply Forall_app. split; auto. apply Forall_forall. intros v HV. apply repeat_spec in HV. subst. split; [apply Qcle_refl|reflexivity].
    - apply Forall_forall. intros q HQ. apply in_map_iff in HQ. destruct HQ as (tp & <- & HI). rewrite Forall_forall in FP. eapply order_perm; eauto. }
  exists g. split; auto. assert (WO : world_ok (mkWorld seeded g boltz)) by (split; auto).
  destruct (C41_succeeds (mkWorld seeded g boltz) p ls o) as [out HO]; auto; [rewrite SD; discriminate|].
  exists out. split; auto. destruct (solve_exact _ _ _ _ _ HW WO HO) as (g' & orig & b & lin & adj & EG & _ & HS & HR & ES).
  rewrite SD in EG. cbn in EG. inversion EG; subst g'. clear EG.
  destruct (start_states p o) as [|s0 [|? ?]] eqn:ESS; [destruct ST| |destruct s0; destruct ST]. cbn [reads] in HR.
  apply rbind_ok in HR. destruct HR as ([d tr'] & HA & HR). apply rbind_ok in HR. destruct HR as (l' & EL & HR). inversion EL; subst l'. inversion HR as [ER]. cbn [fst] in ER.
  pose proof (pr_n _ _ _ _ _ _ HS) as HN.
  destruct (annealing_exact _ _ _ _ _ _ HS _ _ _ GO _ _ _ _ HA RV) as (y0 & tr1 & y & u & es & acc & HI & LY0 & LY & AN & D1 & D2).
  assert (Y0 : y0 = x0 /\ permutations_drawn tr1 = 0).
  { destruct s0 as [s|].
    - destruct (initial_spec _ _ _ _ _ _ HS g GO _ _ _ _ HI) as (_ & SY). split; [eapply start_unique; eauto|].
      cbn [initial_spins] in HI. apply rbind_ok in HI. destruct HI as (? & _ & HI). inversion HI; subst. reflexivity.
    - cbn [initial_spins] in HI. inversion HI; subst. split; [|reflexivity]. destruct ST as [-> SX]. cbn [g_bits g script]. rewrite map_length.
      rewrite HN. fold n. rewrite L0, Nat.eqb_refl, map_map. clear - SX. induction SX as [|z x0 HZ SX IH]; simpl; auto. f_equal; auto.
      destruct HZ as [->| ->]; reflexivity. }
  destruct Y0 as [-> PD]. assert (ET : Z.to_nat (o_sweeps o * Z.of_nat (length (b_linear b))) = m * n).
  { rewrite HN, Z2Nat.inj_mul by lia. rewrite Nat2Z.id. reflexivity. }
  rewrite ET, HN in AN. cbn [w_boltz] in AN. fold n m in AN.
  assert (EF : g_floats g (RRandom (m * n) :: tr1) = rs) by (cbn [g script g_floats]; rewrite LR, Nat.eqb_refl; auto). rewrite EF in AN.
  assert (EP : all_picks g (o_pickup o) n m (RRandom (m * n) :: tr1) = map snd plan).
  { destruct PK as [PK|PK]; rewrite PK in *.
    - unfold g. rewrite script_random; cbn [permutations_drawn]; rewrite PD; [|rewrite map_length; lia]. cbn [skipn]. rewrite <- LP, <- (map_length snd). apply firstn_all.
    - rewrite picks_sequential. rewrite <- LP. clear - FP. induction FP as [|tp plan HO FP IH]; simpl; auto. f_equal; auto. destruct HO as [[HO _]|[_ HO]]; [discriminate|congruence]. }
  rewrite EP, <- MF, split_plan in AN. destruct (RUN [] (repeat 0%Qc (m * n - length vs))) as (es' & acc' & A'). cbn [app length Nat.add] in A'. fold rs in A'.
  rewrite (annealed_det _ _ _ _ _ _ _ _ _ _ A' _ _ _ _ AN). rewrite ES, <- ER. unfold sampleset, aggregate. cbn [fold_left aggregate_add map]. rewrite D1, D2. reflexivity.
Qed.
