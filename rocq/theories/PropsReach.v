(** * PropsReach: properties C98 and C99, the assignments SawatabiSolver can return. *)
From Verif Require Import PyBase PyLemmas Numbers Constraint LogicalModel Spec PhysicalProofs Samples Physical BqmProofs History PropsHistory PropsPhysical PropsBqm PropsAlike
  Solver SolverSpec SolverProofs PropsSolver ReachProofs ReachSolve SeqReach.
From Coq Require Import Permutation.
Open Scope string_scope.
Open Scope list_scope.

(** ** What the theorems speak about *)
(** An assignment of legal values: +1 or -1 (Ising), 0 or 1 (QUBO). *)
Definition legal_assignment (t : mtype) (s : assignment) : Prop := forall l, exists z, s l = qz z /\ legal t z.
(** The assignment that differs from [s] in the variable [l] only. *)
Definition changed (t : mtype) (s : assignment) (l : string) : assignment := assign s l (toggled t (s l)).
(** The value of the variable makes a difference to the energy. *)
Definition matters (p : physical) (l : string) : Prop :=
  exists s, legal_assignment (p_mtype p) s /\ energy_physical (changed (p_mtype p) s l) p <> energy_physical s p.
(** Changing one variable always changes the energy. *)
Definition no_ties (p : physical) : Prop :=
  forall s l, legal_assignment (p_mtype p) s -> occurs p l -> energy_physical (changed (p_mtype p) s l) p <> energy_physical s p.
(** [exp(-d / t)] lies strictly between 0 and 1. *)
Definition proper_boltz (boltz : Qc -> Qc -> res Qc) : Prop :=
  forall d t, (0 < d)%Qc -> (0 < t)%Qc -> exists pr, boltz d t = Ok pr /\ (0 < pr)%Qc /\ (pr < 1)%Qc.
(** The call can return exactly the sample [s] with its energy, for some random numbers. *)
Definition can_return (seeded : Z -> generator) (boltz : Qc -> Qc -> res Qc) (p : physical) (o : options) (s : dict string Z) : Prop :=
  exists g, rng_ok g /\ exists out, result (mkWorld seeded g boltz) p o = Ok out /\ out_set out = [(s, energy_physical (value_of s) p, 1)].
(** A model that solve accepts. *)
Definition solvable (p : physical) (ls : list string) : Prop :=
  well_indexed p ls /\ ls <> [] /\ (forall l, ~ In (l, l) (dkeys (p_quad p))).
(** A legal value for every variable. *)
Definition full_state (p : physical) (ls : list string) (s : dict string Z) : Prop :=
  forall l, In l ls -> exists z, dget l s = Some z /\ legal (p_mtype p) z.
(** One read, a fresh generator, a schedule of positive temperatures. *)
Definition one_read (o : options) (init : option (list (dict string Z))) (mode : string) : Prop :=
  o_reads o = 1%Z /\ o_init o = init /\ o_pickup o = mode /\ o_seed o = None /\ (0 <= o_sweeps o)%Z /\ reverse_ok (o_reverse o) /\ positive_schedule o.

(** ** Spin vectors and assignments *)
Definition spin_of (v : Qc) : Z := if Qc_eq_dec v 1 then 1%Z else (-1)%Z.
Definition vec (ls : list string) (s : assignment) : list Z := map (fun l => spin_of (s l)) ls.
Lemma spin_of_spin v : spinz (spin_of v).
Proof. unfold spin_of, spinz. destruct (Qc_eq_dec v 1); auto. Qed.
Lemma spin_of_legal t z : legal t z -> spin_to (is_ising t) (spin_of (qz z)) = z.
Proof.
  unfold spin_of. destruct t; cbn [legal is_ising spin_to]; intros [->| ->]; destruct (Qc_eq_dec _ 1) as [E|E]; try reflexivity;
    try (exfalso; apply E; apply qz_1); apply (f_equal this) in E; vm_compute in E; discriminate.
Qed.
Lemma vec_spinv ls s : spinv (length ls) (vec ls s).
Proof. split; [apply map_length|]. apply Forall_forall. intros z HZ. apply in_map_iff in HZ. destruct HZ as (l & <- & _). apply spin_of_spin. Qed.
Lemma vec_energy p ls s : well_indexed p ls -> legal_assignment (p_mtype p) s -> vector_energy p (vec ls s) = energy_physical s p.
Proof.
  intros HW HS. pose proof (vec_spinv ls s) as [LV FV]. rewrite (vector_sample p ls _ HW LV FV). pose proof HW as (ND & _ & _ & HO).
  apply energy_physical_ext. intros l OC. apply HO in OC. destruct (In_nth_error _ _ OC) as [i Hi]. rewrite convert_combine by auto.
  destruct (HS l) as (z & EZ & LZ). rewrite (value_combine ls _ l i z); auto; [rewrite map_length; auto|].
  rewrite <- (spin_of_legal (p_mtype p) z LZ), <- EZ. apply map_nth_error. unfold vec. apply (map_nth_error (fun l => spin_of (s l))). auto.
Qed.
Lemma changed_legal t s l : legal_assignment t s -> legal_assignment t (changed t s l).
Proof.
  intros H k. unfold changed, assign. destruct (String.eqb k l); auto. destruct (H l) as (z & -> & LZ).
  destruct t; cbn [toggled legal] in *.
  - exists (- z)%Z. split; [rewrite qz_opp; auto|lia].
  - exists (1 - z)%Z. split; [|lia]. destruct LZ as [->| ->]; apply Qc_is_canon; reflexivity.
Qed.
Lemma vec_changed t ls s i l : NoDup ls -> nth_error ls i = Some l -> legal_assignment t s -> vec ls (changed t s l) = flipped i (vec ls s).
Proof.
  intros ND HI HS. apply vec_ext. intros j. rewrite flipped_at. unfold vec. rewrite !nth_error_map. destruct (nth_error ls j) as [k|] eqn:EK; [|destruct (Nat.eqb j i); auto].
  cbn [option_map]. unfold changed, assign. destruct (String.eqb_spec k l) as [->|NE].
  - assert (j = i) by (apply (proj1 (NoDup_nth_error ls) ND); [apply nth_error_Some; congruence|congruence]). subst j. rewrite Nat.eqb_refl. cbn [option_map]. f_equal.
    destruct (HS l) as (z & -> & LZ). destruct t; cbn [toggled legal] in *; destruct LZ as [->| ->]; reflexivity.
  - destruct (Nat.eqb_spec j i) as [->|]; auto. congruence.
Qed.
Lemma vec_all t ls x : NoDup ls -> spinv (length ls) x -> exists s, legal_assignment t s /\ vec ls s = x.
Proof.
  intros ND [LX FX]. exists (fun l => match dget l (combine ls x) with Some z => qz (spin_to (is_ising t) z) | None => 1%Qc end). split.
  - intros l. destruct (dget l (combine ls x)) as [z|] eqn:E.
    + exists (spin_to (is_ising t) z). split; auto. apply spin_to_legal. rewrite Forall_forall in FX. apply FX. apply dget_in in E. eapply in_combine_r; eauto.
    + exists 1%Z. split; [symmetry; apply qz_1|destruct t; cbn; auto].
  - apply vec_ext. intros j. unfold vec. rewrite nth_error_map. destruct (nth_error ls j) as [l|] eqn:EL; cbn [option_map].
    + destruct (nth_error x j) as [z|] eqn:EZ; [|apply nth_error_None in EZ; assert (j < length ls) by (apply nth_error_Some; congruence); lia].
      rewrite (in_dget l z); [|unfold dkeys; rewrite map_fst_combine; auto|apply nth_error_In with j; rewrite nth_error_combine, EL, EZ; auto].
      f_equal. rewrite Forall_forall in FX. destruct (FX z (nth_error_In _ _ EZ)) as [->| ->]; destruct t; reflexivity.
    + apply nth_error_None in EL. symmetry. apply nth_error_None. lia.
Qed.
Lemma matters_vec p ls i l : well_indexed p ls -> nth_error ls i = Some l -> matters p l -> vmatters (vector_energy p) (length ls) i.
Proof.
  intros HW HI (s & HS & NE). exists (vec ls s). split; [apply vec_spinv|]. rewrite <- (vec_changed (p_mtype p) ls s i l); auto; [|apply HW].
  rewrite !vec_energy; auto. apply changed_legal; auto.
Qed.
Lemma ties_vec p ls : well_indexed p ls -> no_ties p -> forall x i, spinv (length ls) x -> i < length ls -> vector_energy p (flipped i x) <> vector_energy p x.
Proof.
  intros HW NT x i HX LI. destruct (vec_all (p_mtype p) ls x) as (s & HS & <-); [apply HW|auto|].
  destruct (nth_error ls i) as [l|] eqn:EL; [|apply nth_error_None in EL; lia].
  rewrite <- (vec_changed (p_mtype p) ls s i l); auto; [|apply HW]. rewrite !vec_energy; auto; [|apply changed_legal; auto].
  apply NT; auto. destruct HW as (_ & _ & _ & HO). apply HO. eapply nth_error_In; eauto.
Qed.
(** The spins of a target sample. *)
Lemma target_spins p ls vals : well_indexed p ls -> length vals = length ls -> Forall (legal (p_mtype p)) vals ->
  exists x, spinv (length ls) x /\ convert_sample (is_ising (p_mtype p)) (combine ls x) = combine ls vals /\
            vector_energy p x = energy_physical (value_of (combine ls vals)) p.
Proof.
  intros HW LV FV. set (x := map (fun z => spin_of (qz z)) vals). assert (HX : spinv (length ls) x).
  { split; [unfold x; rewrite map_length; auto|]. apply Forall_forall. intros z HZ. apply in_map_iff in HZ. destruct HZ as (v & <- & _). apply spin_of_spin. }
  assert (EC : convert_sample (is_ising (p_mtype p)) (combine ls x) = combine ls vals).
  { rewrite convert_combine by apply HX. f_equal. unfold x. rewrite map_map. rewrite <- (map_id vals) at 2. apply map_ext_in. intros z HZ.
    apply spin_of_legal. rewrite Forall_forall in FV. auto. }
  exists x. split; auto. split; auto. rewrite <- EC. destruct HX. apply vector_sample; auto.
Qed.
Lemma warm_schedule boltz o : proper_boltz boltz -> reverse_ok (o_reverse o) -> positive_schedule o -> forall k m, Forall (warm boltz) (map (temp_at o) (seq k m)).
Proof.
  intros PB RV PS k m. apply Forall_forall. intros t HT. apply in_map_iff in HT. destruct HT as (j & <- & _). intros d HD. apply PB; auto. apply temp_positive; auto.
Qed.
(** The given initial state, as spins. *)
Lemma given_start p ls o s0 mode : well_indexed p ls -> one_read o (Some [s0]) mode -> full_state p ls s0 ->
  complete_states ls o /\ exists s1 x0, start_states p o = [Some s1] /\ spinv (length ls) x0 /\ starts ls (Some s1) x0.
Proof.
  intros HW (RD & IN & _) FS. assert (IL : init_list o = [s0]) by (unfold init_list; rewrite IN; auto). split.
  - right. rewrite IL. split; [simpl; lia|]. intros s l [<-|[]] HL. destruct (FS l HL) as (z & HZ & _). eauto.
  - set (s1 := match p_mtype p with Ising => s0 | Qubo => to_spin_state s0 end).
    assert (H1 : forall l, In l ls -> exists z, dget l s1 = Some z /\ spinz z).
    { intros l HL. destruct (FS l HL) as (z & HZ & LZ). unfold s1. destruct (p_mtype p); [exists z; auto|]. unfold to_spin_state.
      rewrite (dget_map (fun v => if Z.eqb v 0 then (-1)%Z else v)), HZ. cbn [option_map]. eexists; split; [reflexivity|]. unfold spinz. destruct LZ as [->| ->]; cbn; auto. }
    exists s1, (map (fun l => match dget l s1 with Some z => z | None => 1%Z end) ls). split; [|split].
    + unfold start_states, has_init. rewrite IL. cbn. unfold s1. destruct (p_mtype p); reflexivity.
    + split; [apply map_length|]. apply Forall_forall. intros z HZ. apply in_map_iff in HZ. destruct HZ as (l & <- & HL). destruct (H1 l HL) as (z & -> & HS). auto.
    + intros i l HI. destruct (H1 l (nth_error_In _ _ HI)) as (z & HZ & _). exists z. split; auto. rewrite nth_error_map, HI. cbn [option_map]. rewrite HZ. auto.
Qed.

(** ** C98: random pick-up *)
(** From any initial state, every assignment can be returned. *)
Theorem C98_every_assignment : forall seeded boltz p ls o s0 vals,
  (forall z, rng_ok (seeded z)) -> proper_boltz boltz -> solvable p ls -> (forall l, occurs p l -> matters p l) ->
  one_read o (Some [s0]) "random" -> full_state p ls s0 -> (2 * Z.of_nat (length ls) <= o_sweeps o)%Z ->
  length vals = length ls -> Forall (legal (p_mtype p)) vals ->
  can_return seeded boltz p o (combine ls vals).
Proof.
  intros seeded boltz p ls o s0 vals SO PB (HW & NE & NL) HM OR FS LW LV FV. destruct (given_start _ _ _ _ _ HW OR FS) as (CS & s1 & x0 & ES & X0 & ST).
  destruct OR as (RD & IN & PK & SD & SW & RV & PS). destruct (target_spins p ls vals HW LV FV) as (x & HX & EC & EE).
  destruct (scripted seeded boltz p ls o x0 x []) as (g & GO & out & HO & EO); auto.
  - intros d t HD HT. destruct (PB d t HD HT) as (pr & HP & _). eauto.
  - apply X0.
  - rewrite ES. exact ST.
  - assert (HA : anneals (vector_energy p) boltz (perm (length ls)) (map (temp_at o) (seq 0 (Z.to_nat (o_sweeps o)))) x0 x).
    { apply random_reach; auto; [|apply warm_schedule; auto|rewrite map_length, seq_length; lia].
      intros i LI. destruct (nth_error ls i) as [l|] eqn:EL; [|apply nth_error_None in EL; lia]. apply matters_vec with l; auto. apply HM.
      destruct HW as (_ & _ & _ & HO). apply HO. eapply nth_error_In; eauto. }
    destruct HA as (plan & vs & A1 & A2 & A3). exists plan, vs. split; auto. split; auto. rewrite PK. eapply Forall_impl; [|exact A2]. intros tp HP. left. auto.
  - exists g. split; auto. exists out. split; auto. rewrite EO, EC, EE. reflexivity.
Qed.
(** Without initial states, every assignment can be returned, in either mode and after any number of sweeps. *)
Lemma all_flipped E boltz n ts : Forall (warm boltz) ts -> forall x, length x = n ->
  exists y, length y = n /\ (Forall spinz x -> Forall spinz y) /\ anneals E boltz (eq (seq 0 n)) ts y x.
Proof.
  intros HW. induction HW as [|t ts HT HW IH]; intros x HX; [exists x; split; auto; split; auto; apply anneals_nil|].
  destruct (IH x HX) as (y & LY & SY & A). exists (flip_all (seq 0 n) y). split; [rewrite flip_all_len; auto|]. split; [intros H; apply flip_all_spins; auto|].
  apply anneals_cons with (seq 0 n) y; auto. rewrite <- (all_twice n y LY) at 2. apply runs_all; auto.
Qed.
Theorem C98_random_start : forall seeded boltz p ls o mode vals,
  (forall z, rng_ok (seeded z)) -> proper_boltz boltz -> solvable p ls ->
  one_read o None mode -> mode = "random" \/ mode = "sequential" ->
  length vals = length ls -> Forall (legal (p_mtype p)) vals ->
  can_return seeded boltz p o (combine ls vals).
Proof.
  intros seeded boltz p ls o mode vals SO PB (HW & NE & NL) (RD & IN & PK & SD & SW & RV & PS) MD LV FV.
  destruct (target_spins p ls vals HW LV FV) as (x & [LX SX] & EC & EE).
  destruct (all_flipped (vector_energy p) boltz (length ls) (map (temp_at o) (seq 0 (Z.to_nat (o_sweeps o))))) with (x := x) as (x0 & L0 & S0 & A); auto.
  { apply warm_schedule; auto. }
  destruct (scripted seeded boltz p ls o x0 x (map (fun z => Z.eqb z 1) x0)) as (g & GO & out & HO & EO); auto.
  - intros d t HD HT. destruct (PB d t HD HT) as (pr & HP & _). eauto.
  - left. unfold init_list. rewrite IN. auto.
  - rewrite PK. auto.
  - unfold start_states, has_init, init_list. rewrite IN, RD. cbn. split; auto.
  - destruct A as (plan & vs & A1 & A2 & A3). exists plan, vs. split; auto. split; auto. rewrite PK. eapply Forall_impl; [|exact A2].
    intros tp HP. destruct MD as [->| ->]; [left|right]; rewrite <- HP; auto.
  - exists g. split; auto. exists out. split; auto. rewrite EO, EC, EE. reflexivity.
Qed.

(** In the physical model of any history of API calls every variable matters. *)
Lemma pt_legal t S : legal_assignment t (pt 1%Qc (match t with Ising => (- (1))%Qc | Qubo => 0%Qc end) S).
Proof.
  intros l. unfold pt. destruct (mem l S).
  - destruct t; [exists (-1)%Z|exists 0%Z]; (split; [apply Qc_is_canon; reflexivity|cbn; auto]).
  - exists 1%Z. split; [apply Qc_is_canon; reflexivity|destruct t; cbn; auto].
Qed.
Lemma coefficients_matter p l : NoDup (dkeys (p_linear p)) -> NoDup (dkeys (p_quad p)) -> no_zeros (p_linear p) -> no_zeros (p_quad p) -> ordered_pairs p ->
  occurs p l -> matters p l.
Proof.
  intros N1 N2 Z1 Z2 OP OC. set (u := 1%Qc). set (w := match p_mtype p with Ising => (- (1))%Qc | Qubo => 0%Qc end).
  assert (NU : (u - w)%Qc <> 0%Qc) by (unfold u, w; destruct (p_mtype p); intros E; apply (f_equal this) in E; vm_compute in E; discriminate).
  (* two points that differ in l *)
  assert (KEY : forall S S', (forall k, k <> l -> mem k S = mem k S') -> mem l S <> mem l S' -> energy_physical (pt u w S) p <> energy_physical (pt u w S') p -> matters p l).
  { intros S S' HK HL NE. exists (pt u w S). split; [apply pt_legal|]. intros EQ. apply NE. rewrite <- EQ. apply energy_physical_ext. intros k _.
    unfold changed, assign. destruct (String.eqb_spec k l) as [->|NK]; [|unfold pt; rewrite (HK k NK); auto].
    unfold pt. destruct (mem l S), (mem l S'); try congruence; unfold u, w; destruct (p_mtype p); cbn [toggled]; ring. }
  assert (MEM : forall k S, mem k S = if in_dec string_dec k S then true else false).
  { intros k S. destruct (in_dec string_dec k S) as [H|H]; [apply mem_in; auto|destruct (mem k S) eqn:E; auto; apply mem_in in E; contradiction]. }
  assert (PAIR : forall a b, In (a, b) (dkeys (p_quad p)) -> l = a \/ l = b -> matters p l).
  { intros a b HI HL. assert (LT := OP a b HI). assert (NE : a <> b) by (intros ->; rewrite ltb_irrefl in LT; discriminate).
    assert (HQ := quad_by_energy u w p a b N2 OP LT).
    assert (NZ : (- (dval (a, b) (p_quad p) * ((u - w) * (u - w))))%Qc <> 0%Qc).
    { intros E. assert (E2 : (dval (a, b) (p_quad p) * ((u - w) * (u - w)))%Qc = 0%Qc) by (rewrite <- (Qcopp_involutive (_ * _)), E; ring).
      apply Qcmult_integral in E2. destruct E2 as [E2|E2]; [|apply Qcmult_integral in E2; tauto].
      destruct (proj2 (dget_some_in _ _) HI) as [v HV]. unfold dval in E2. rewrite HV in E2. apply (Z2 (a, b)). congruence. }
    destruct HL as [->| ->].
    - destruct (Qc_eq_dec (energy_physical (pt u w []) p) (energy_physical (pt u w [a]) p)) as [E1|E1].
      + destruct (Qc_eq_dec (energy_physical (pt u w [b]) p) (energy_physical (pt u w [a; b]) p)) as [E2|E2].
        * exfalso. apply NZ. rewrite <- HQ, E1, E2. ring.
        * apply (KEY [b] [a; b]); auto; [intros k NK|]; rewrite !MEM; repeat (destruct (in_dec _ _ _)); simpl in *; intuition congruence.
      + apply (KEY [] [a]); auto; [intros k NK|]; rewrite !MEM; repeat (destruct (in_dec _ _ _)); simpl in *; intuition congruence.
    - destruct (Qc_eq_dec (energy_physical (pt u w []) p) (energy_physical (pt u w [b]) p)) as [E1|E1].
      + destruct (Qc_eq_dec (energy_physical (pt u w [a]) p) (energy_physical (pt u w [a; b]) p)) as [E2|E2].
        * exfalso. apply NZ. rewrite <- HQ, E1, E2. ring.
        * apply (KEY [a] [a; b]); auto; [intros k NK|]; rewrite !MEM; repeat (destruct (in_dec _ _ _)); simpl in *; intuition congruence.
      + apply (KEY [] [b]); auto; [intros k NK|]; rewrite !MEM; repeat (destruct (in_dec _ _ _)); simpl in *; intuition congruence. }
  destruct (existsb (fun ab => String.eqb l (fst ab) || String.eqb l (snd ab)) (dkeys (p_quad p))) eqn:EX.
  - apply existsb_exists in EX. destruct EX as ([a b] & HI & HL). cbn [fst snd] in HL. apply orb_true_iff in HL.
    apply (PAIR a b HI). destruct HL as [HL|HL]; apply String.eqb_eq in HL; auto.
  - assert (NQ : forall a b, In (a, b) (dkeys (p_quad p)) -> a <> l /\ b <> l).
    { intros a b HI. split; intros ->; assert (existsb (fun ab => String.eqb l (fst ab) || String.eqb l (snd ab)) (dkeys (p_quad p)) = true); try congruence;
        apply existsb_exists; eexists; (split; [exact HI|]); cbn [fst snd]; rewrite String.eqb_refl, ?orb_true_r; auto. }
    destruct OC as [OC|(a & b & HI & HL)]; [|destruct (NQ a b HI); destruct HL; congruence].
    destruct (proj2 (dget_some_in _ _) OC) as [v HV]. apply (KEY [] [l]); [intros k NK|rewrite !MEM; repeat (destruct (in_dec _ _ _)); simpl in *; intuition congruence|].
    + rewrite !MEM. repeat (destruct (in_dec _ _ _)); simpl in *; intuition congruence.
    + rewrite !energy_physical_dsum. intros EQ.
      assert (EQQ : dsum (fun ab => pt u w [] (fst ab) * pt u w [] (snd ab))%Qc (p_quad p) = dsum (fun ab => pt u w [l] (fst ab) * pt u w [l] (snd ab))%Qc (p_quad p)).
      { unfold dsum. apply qsum_map_ext. intros [[a b] c] HI. cbn [fst snd]. apply (in_map fst) in HI. destruct (NQ a b HI). pts. reflexivity. }
      rewrite EQQ in EQ. assert (DL : (dsum (pt u w []) (p_linear p) - dsum (pt u w [l]) (p_linear p) = dval l (p_linear p) * (u - w))%Qc).
      { rewrite dsum_minus, (dsum_single _ l); auto; [pts; ring|]. intros k _ NK. pts. ring. }
      assert (D0 : (dsum (pt u w []) (p_linear p) - dsum (pt u w [l]) (p_linear p) = 0)%Qc).
      { match type of EQ with (- ?x - ?q + ?o = - ?y - ?q + ?o)%Qc => replace (x - y)%Qc with (- ((- x - q + o) - (- y - q + o)))%Qc by ring; rewrite EQ; ring end. }
      rewrite DL in D0. apply Qcmult_integral in D0. destruct D0 as [D0|D0]; [|tauto]. unfold dval in D0. rewrite HV in D0. apply (Z1 l). congruence.
Qed.
Theorem C98_variables_matter : forall ev evs fd m m' p l,
  reachable m -> m_len m = length (m_rows m) -> to_physical ev evs fd m = (m', Ok p) -> occurs p l -> matters p l.
Proof.
  intros ev evs fd m m' p l HR HL E OC. destruct (phys_facts _ _ _ _ _ _ HR HL E) as (_ & N1 & N2 & Z1 & Z2 & OP). apply coefficients_matter; auto.
Qed.

(** An assignment of minimal energy exists among the samples. *)
Fixpoint all_vals (t : mtype) (n : nat) : list (list Z) :=
  match n with
  | O => [[]]
  | S k => map (cons 1%Z) (all_vals t k) ++ map (cons (match t with Ising => (-1)%Z | Qubo => 0%Z end)) (all_vals t k)
  end.
Lemma all_vals_spec t n v : In v (all_vals t n) <-> length v = n /\ Forall (legal t) v.
Proof.
  revert v. induction n as [|n IH]; intros v; cbn [all_vals].
  - split; [intros [<-|[]]; auto|]. intros [HL _]. destruct v; [simpl; auto|discriminate].
  - rewrite in_app_iff, !in_map_iff. split.
    + intros [(w & <- & HW)|(w & <- & HW)]; apply IH in HW; destruct HW; simpl; (split; [congruence|]); constructor; auto; destruct t; cbn; auto.
    + intros [HL HF]. destruct v as [|z v]; [discriminate|]. inversion HF as [|? ? HZ HV]; subst.
      assert (HI : In v (all_vals t n)) by (apply IH; auto). destruct t; cbn [legal] in HZ; destruct HZ as [->| ->]; eauto.
Qed.
Lemma least {A} (f : A -> Qc) (l : list A) : l <> [] -> exists a, In a l /\ forall b, In b l -> (f a <= f b)%Qc.
Proof.
  induction l as [|a l IH]; [contradiction|]. intros _. destruct l as [|b l]; [exists a; split; simpl; auto; intros b [<-|[]]; apply Qcle_refl|].
  destruct IH as (c & HC & HM); [discriminate|]. destruct (Qclt_le_dec (f c) (f a)) as [H|H].
  - exists c. split; [simpl in *; auto|]. intros d [<-|HD]; auto. apply Qclt_le_weak. auto.
  - exists a. split; [simpl; auto|]. intros d [<-|HD]; [apply Qcle_refl|]. eapply Qcle_trans; eauto.
Qed.
Lemma least_sample p ls : well_indexed p ls -> exists vals, length vals = length ls /\ Forall (legal (p_mtype p)) vals /\
  forall s, legal_assignment (p_mtype p) s -> (energy_physical (value_of (combine ls vals)) p <= energy_physical s p)%Qc.
Proof.
  intros HW. destruct (least (fun v => energy_physical (value_of (combine ls v)) p) (all_vals (p_mtype p) (length ls))) as (vals & HI & HM).
  { intros E. assert (HI : In (repeat 1%Z (length ls)) (all_vals (p_mtype p) (length ls))).
    { apply all_vals_spec. split; [apply repeat_length|]. apply Forall_forall. intros z HZ. apply repeat_spec in HZ. subst. destruct (p_mtype p); cbn; auto. }
    rewrite E in HI. destruct HI. }
  apply all_vals_spec in HI. destruct HI as (HL & HF). exists vals. split; auto. split; auto. intros s HS.
  destruct (vec_spinv ls s) as (LV & FV). rewrite <- (vec_energy p ls s HW HS), (vector_sample p ls _ HW LV FV), convert_combine by auto. apply HM.
  apply all_vals_spec. split; [rewrite map_length; auto|]. apply Forall_forall. intros z HZ. apply in_map_iff in HZ. destruct HZ as (y & <- & HY).
  apply spin_to_legal. rewrite Forall_forall in FV. auto.
Qed.

(** The model of any history of API calls, solved from any initial state: every sample can come back, the best one among them. *)
Theorem C98_model : forall ev evs fd m m' p seeded boltz,
  reachable m -> m_len m = length (m_rows m) -> NoDup (all_labels (m_vars m)) -> to_physical ev evs fd m = (m', Ok p) -> covered m p -> (exists l, occurs p l) ->
  (forall z, rng_ok (seeded z)) -> proper_boltz boltz ->
  exists ls, NoDup ls /\ (forall l, In l ls <-> occurs p l) /\
    forall o s0, one_read o (Some [s0]) "random" -> full_state p ls s0 -> (2 * Z.of_nat (length ls) <= o_sweeps o)%Z ->
    (forall vals, length vals = length ls -> Forall (legal (p_mtype p)) vals -> can_return seeded boltz p o (combine ls vals)) /\
    (exists vals, can_return seeded boltz p o (combine ls vals) /\
       forall s, legal_assignment (p_mtype p) s -> (energy_physical (value_of (combine ls vals)) p <= energy_physical s p)%Qc).
Proof.
  intros ev evs fd m m' p seeded boltz HR HL HN E HC [l0 HX] SO PB. destruct (C67_indexed _ _ _ _ _ _ HL HN E HC) as [ls HW]. exists ls.
  split; [apply HW|]. split; [apply HW|]. intros o s0 OR FS LW.
  assert (SV : solvable p ls).
  { split; auto. split; [intros ->; destruct HW as (_ & _ & _ & HO); apply (proj2 (HO l0) HX)|]. apply (C37_succeeds_iff 1%Qc p). eapply C37_from_logical; eauto. }
  assert (ALL : forall vals, length vals = length ls -> Forall (legal (p_mtype p)) vals -> can_return seeded boltz p o (combine ls vals)).
  { intros vals LV FV. eapply C98_every_assignment; eauto. intros l OC. eapply C98_variables_matter; eauto. }
  split; auto. destruct (least_sample p ls HW) as (vals & LV & FV & HM). exists vals. auto.
Qed.

(** ** C99: sequential pick-up *)
(** Every assignment can be returned if no change of one variable leaves the energy as it is, and the sweeps are many. *)
Theorem C99_sequential_partial : forall seeded boltz p ls o s0 vals,
  (forall z, rng_ok (seeded z)) -> proper_boltz boltz -> solvable p ls -> no_ties p ->
  one_read o (Some [s0]) "sequential" -> full_state p ls s0 -> (2 * 2 ^ Z.of_nat (length ls) <= o_sweeps o)%Z ->
  length vals = length ls -> Forall (legal (p_mtype p)) vals ->
  can_return seeded boltz p o (combine ls vals).
Proof.
  intros seeded boltz p ls o s0 vals SO PB (HW & NE & NL) HM OR FS LW LV FV. destruct (given_start _ _ _ _ _ HW OR FS) as (CS & s1 & x0 & ES & X0 & ST).
  destruct OR as (RD & IN & PK & SD & SW & RV & PS). destruct (target_spins p ls vals HW LV FV) as (x & HX & EC & EE).
  destruct (scripted seeded boltz p ls o x0 x []) as (g & GO & out & HO & EO); auto.
  - intros d t HD HT. destruct (PB d t HD HT) as (pr & HP & _). eauto.
  - apply X0.
  - rewrite ES. exact ST.
  - assert (HA : anneals (vector_energy p) boltz (eq (seq 0 (length ls))) (map (temp_at o) (seq 0 (Z.to_nat (o_sweeps o)))) x0 x).
    { apply sequential_reach; auto; [apply ties_vec; auto|apply warm_schedule; auto|].
      rewrite map_length, seq_length. apply Nat2Z.inj_le. rewrite Z2Nat.id by auto. rewrite Nat2Z.inj_mul, Nat2Z.inj_pow. exact LW. }
    destruct HA as (plan & vs & A1 & A2 & A3). exists plan, vs. split; auto. split; auto. rewrite PK. eapply Forall_impl; [|exact A2]. intros tp HP. right. auto.
  - exists g. split; auto. exists out. split; auto. rewrite EO, EC, EE. reflexivity.
Qed.

(** A square of equal couplings. *)
Definition edge (i j : nat) : op := OAdd (TTuple [EVar (spn "x" i); EVar (spn "x" j)]) (NStr "") (num 1) (num 1) AtNone TsNone.
Definition square_ops : list op := [OVariables (VName "x") (ShTuple [ShInt 4]); edge 0 1; edge 0 2; edge 1 3; edge 2 3].
Definition square_model : lmodel := run_ops square_ops (new_model Ising).
Definition square : physical := sample_physical square_model.
Definition corners : list string := ["x[0]"; "x[1]"; "x[2]"; "x[3]"].
Definition stuck : dict string Z := combine corners [1; -1; 1; 1]%Z.
Lemma history_reachable m : history m -> reachable m.
Proof. induction 1; constructor; auto. Qed.
Lemma square_indexed : well_indexed square corners.
Proof.
  split; [apply nodupb_ok; reflexivity|]. split; [|split; [vm_compute; reflexivity|]].
  - assert (EL : p_l2i square = combine corners [0; 1; 2; 3]) by (vm_compute; reflexivity). intros l i. rewrite EL. unfold corners. cbn [combine dget].
    repeat match goal with |- context [eqb l ?c] => destruct (eqb l c) eqn:?; [match goal with H : eqb l c = true |- _ => apply eqb_eq in H; subst l end|] end;
      (split; [intros H; inversion H; reflexivity|]); destruct i as [|[|[|[|[|i]]]]]; cbn; intros H; inversion H; subst; try reflexivity; rewrite ?eqb_refl in *; discriminate.
  - intros l. unfold occurs. assert (EL : dkeys (p_linear square) = []) by (vm_compute; reflexivity).
    assert (EQ : dkeys (p_quad square) = [("x[0]", "x[1]"); ("x[0]", "x[2]"); ("x[1]", "x[3]"); ("x[2]", "x[3]")]) by (vm_compute; reflexivity). rewrite EL, EQ. split.
    + intros [<-|[<-|[<-|[<-|[]]]]]; right; [exists "x[0]", "x[1]"|exists "x[0]", "x[1]"|exists "x[0]", "x[2]"|exists "x[2]", "x[3]"]; (split; [simpl; tauto|auto]).
    + intros [[]|(a & b & HI & HL)]. simpl in HI. unfold corners. simpl. destruct HI as [HI|[HI|[HI|[HI|[]]]]]; inversion HI; subst; destruct HL; subst; auto.
Qed.
Lemma forced (E : list Z -> Qc) boltz t rs x y u a i r x' u' a' : flipped i x = y -> E y = E x -> visits E boltz t rs x u a (i :: r) x' u' a' ->
  visits E boltz t rs y u (S a) r x' u' a'.
Proof.
  intros <- HE H. inversion H; subst; auto; exfalso;
    match goal with HU : (E x < E (flipped i x))%Qc |- _ => rewrite HE in HU; apply (Qclt_not_eq _ _ HU); reflexivity end.
Qed.
Lemma square_sweep boltz t rs u x' u' a' (up : bool) :
  let s := (if up then [1; -1; 1; 1] else [-1; 1; -1; -1])%Z in
  visits (vector_energy square) boltz t rs s u 0 (seq 0 4) x' u' a' -> x' = (if up then [-1; 1; -1; -1] else [1; -1; 1; 1])%Z.
Proof.
  intros s H. unfold s in H. cbn [seq] in H. destruct up;
    do 4 (eapply forced in H; [|vm_compute; reflexivity|apply Qc_is_canon; vm_compute; reflexivity]); inversion H; reflexivity.
Qed.
Lemma square_anneal boltz rs plan : forall x u es acc x' u', Forall (fun tp => snd tp = seq 0 4) plan ->
  annealed (vector_energy square) boltz rs x u plan es acc x' u' -> (exists up : bool, x = if up then [1; -1; 1; 1] else [-1; 1; -1; -1])%Z ->
  exists up : bool, (x' = if up then [1; -1; 1; 1] else [-1; 1; -1; -1])%Z.
Proof.
  induction plan as [|[t picks] plan IH]; intros x u es acc x' u' HF HA [up ->]; inversion HA as [|? ? ? ? ? ? ? ? ? ? ? ? HV HR]; subst; [eauto|].
  inversion HF as [|? ? HP HQ]; subst. cbn [snd] in HP. subst picks. apply square_sweep in HV. eapply IH; eauto. exists (negb up). subst. destruct up; reflexivity.
Qed.
Lemma four (x : list Z) : length x = 4 -> exists a b c d, x = [a; b; c; d].
Proof. destruct x as [|a [|b [|c [|d [|]]]]]; try discriminate. eauto. Qed.
(** From this start the solver never reaches the best assignment in sequential mode, whatever the
    temperatures, the number of sweeps and the random numbers, although every variable matters. *)
Theorem C99_refuted : exists m m' p ls s0 best,
  history m /\ to_physical env0 evs0 feed0 m = (m', Ok p) /\ solvable p ls /\ (forall l, occurs p l -> matters p l) /\ full_state p ls s0 /\
  Forall (legal (p_mtype p)) best /\ length best = length ls /\
  forall w o out s e c, world_ok w -> o_init o = Some [s0] -> o_pickup o = "sequential" -> result w p o = Ok out -> In (s, e, c) (out_set out) ->
    s <> combine ls best /\ (energy_physical (value_of (combine ls best)) p < e)%Qc.
Proof.
  exists square_model, (fst (to_physical env0 evs0 feed0 square_model)), square, corners, stuck, [1; 1; 1; 1]%Z.
  assert (HH : history square_model) by (apply run_history; constructor).
  assert (EP : to_physical env0 evs0 feed0 square_model = (fst (to_physical env0 evs0 feed0 square_model), Ok square)).
  { unfold square, sample_physical. destruct (to_physical env0 evs0 feed0 square_model) as [m' [p|e]] eqn:E; [reflexivity|].
    exfalso. apply (f_equal (fun z => match snd z with Ok _ => true | _ => false end)) in E. vm_compute in E. discriminate. }
  split; [exact HH|]. split; [exact EP|]. split.
  { split; [apply square_indexed|]. split; [discriminate|]. intros l HI. assert (EQ : dkeys (p_quad square) = [("x[0]", "x[1]"); ("x[0]", "x[2]"); ("x[1]", "x[3]"); ("x[2]", "x[3]")]) by (vm_compute; reflexivity).
    rewrite EQ in HI. simpl in HI. destruct HI as [HI|[HI|[HI|[HI|[]]]]]; discriminate HI || (inversion HI; subst; discriminate). }
  split; [intros l OC; eapply C98_variables_matter; [apply history_reachable; exact HH|vm_compute; reflexivity|exact EP|exact OC]|].
  assert (ET : p_mtype square = Ising) by (vm_compute; reflexivity).
  split; [unfold full_state; rewrite ET; intros l [<-|[<-|[<-|[<-|[]]]]]; eexists; (split; [vm_compute; reflexivity|cbn [legal]; unfold spinz; auto])|].
  split; [rewrite ET; repeat (constructor; [cbn [legal]; unfold spinz; auto|]); constructor|]. split; [reflexivity|].
  intros w o out s e c WO IN PK HO HI. destruct (solve_reads _ _ _ _ _ square_indexed WO HO) as (g & HG & _ & HF & ES).
  assert (SS : start_states square o = [Some stuck]).
  { unfold start_states, has_init, init_list. rewrite IN. vm_compute. reflexivity. }
  rewrite SS in HF. inversion HF as [|? d ? l2 HR HF2]; subst. inversion HF2; subst. clear HF2 HF.
  destruct (rd_run _ _ _ _ _ _ HR) as (x0 & plan & es & acc & x & rs & u & A1 & A2 & A3 & _ & _ & _ & _ & HS & AN & D1 & D2 & _).
  assert (X0 : x0 = [1; -1; 1; 1]%Z).
  { destruct (four x0 A1) as (z0 & z1 & z2 & z3 & ->). cbn [starts] in A2.
    destruct (A2 0 _ eq_refl) as (y0 & Y0 & N0). destruct (A2 1 _ eq_refl) as (y1 & Y1 & N1). destruct (A2 2 _ eq_refl) as (y2 & Y2 & N2). destruct (A2 3 _ eq_refl) as (y3 & Y3 & N3).
    vm_compute in Y0, Y1, Y2, Y3. cbn in N0, N1, N2, N3. congruence. }
  destruct (square_anneal _ _ _ _ _ _ _ _ _ (HS ltac:(rewrite PK; discriminate)) AN) as [up EX]; [exists true; exact X0|].
  assert (EO : out_reads out = [d]) by congruence. rewrite ES, EO in HI. cbn [sampleset aggregate] in HI.
  assert (HD : (s, e, c) = (convert_sample true (d_sample d), d_energy d, 1)) by (destruct HI as [HI|[]]; rewrite <- HI; reflexivity).
  inversion HD; subst s e c. rewrite D1, D2, EX. destruct up; (split; [intros HX; vm_compute in HX; discriminate|]); vm_compute; reflexivity.
Qed.

(** ** The hypotheses can be met *)
Definition half : Qc -> Qc -> res Qc := fun _ _ => Ok (qfrac 1 2).
Lemma half_proper : proper_boltz half.
Proof. intros d t _ _. exists (qfrac 1 2). split; auto. split; reflexivity. Qed.
Definition options_of (sweeps : Z) (init : option (list (dict string Z))) (mode : string) : options := mkOptions 1 sweeps (qfrac 9 10) (qz 100) init RNone mode None.
Lemma options_read sweeps init mode : (0 <= sweeps)%Z -> one_read (options_of sweeps init mode) init mode.
Proof. intros H. repeat split; auto. Qed.
Lemma phys2_solvable t : solvable (phys2 t) ["a"; "b"].
Proof. split; [apply phys2_indexed|]. split; [discriminate|apply quad2_loop]. Qed.
Lemma phys2_ties t : no_ties (phys2 t).
Proof.
  intros s l HS OC. destruct (phys2_indexed t) as (_ & _ & _ & HO). apply HO in OC. cbn [phys2 p_mtype] in HS.
  destruct (HS "a") as (za & EA & LA). destruct (HS "b") as (zb & EB & LB).
  unfold energy_physical, changed. destruct OC as [<-|[<-|[]]]; cbn [phys2 p_linear p_quad p_offset p_mtype map fst snd qsum toggled] ; unfold assign; cbn [String.eqb Ascii.eqb Bool.eqb]; rewrite EA, EB;
    destruct t; cbn [legal toggled] in *; destruct LA as [->| ->], LB as [->| ->]; intros E; apply (f_equal this) in E; vm_compute in E; discriminate.
Qed.
Example C98_C99_hyps : (forall z, rng_ok (w_seeded world0 z)) /\ proper_boltz half /\
  (forall t, solvable (phys2 t) ["a"; "b"] /\ no_ties (phys2 t) /\ (forall l, occurs (phys2 t) l -> matters (phys2 t) l)) /\
  one_read (options_of 8 (Some [[("a", 1%Z); ("b", 0%Z)]]) "random") (Some [[("a", 1%Z); ("b", 0%Z)]]) "random" /\
  full_state (phys2 Qubo) ["a"; "b"] [("a", 1%Z); ("b", 0%Z)] /\
  (exists m', to_physical env0 evs0 feed0 square_model = (m', Ok square) /\ reachable square_model /\ m_len square_model = length (m_rows square_model) /\
     NoDup (all_labels (m_vars square_model)) /\ covered square_model square /\ occurs square "x[3]").
Proof.
  split; [intros z; apply const_gen_ok|]. split; [apply half_proper|]. split.
  { intros t. split; [apply phys2_solvable|]. split; [apply phys2_ties|]. intros l OC.
    exists (fun _ => 1%Qc). assert (HS : legal_assignment (p_mtype (phys2 t)) (fun _ => 1%Qc)).
    { intros k. exists 1%Z. split; [apply Qc_is_canon; reflexivity|destruct t; cbn; auto]. }
    split; auto. apply phys2_ties; auto. }
  split; [apply options_read; lia|]. split; [intros l [<-|[<-|[]]]; eexists; (split; [reflexivity|cbn; auto])|].
  exists (fst (to_physical env0 evs0 feed0 square_model)). split.
  { unfold square, sample_physical. destruct (to_physical env0 evs0 feed0 square_model) as [m' [p|e]] eqn:E; [reflexivity|].
    exfalso. apply (f_equal (fun z => match snd z with Ok _ => true | _ => false end)) in E. vm_compute in E. discriminate. }
  split; [apply history_reachable, run_history; constructor|]. split; [vm_compute; reflexivity|]. split; [apply nodupb_ok; vm_compute; reflexivity|].
  destruct square_indexed as (_ & _ & _ & HO). split; [|apply HO; simpl; auto].
  intros l OC. apply HO in OC. split; [assert (EA : all_labels (m_vars square_model) = corners) by (vm_compute; reflexivity); rewrite EA; auto|vm_compute; auto].
Qed.
Print Assumptions C98_every_assignment.
Print Assumptions C98_random_start.
Print Assumptions C98_variables_matter.
Print Assumptions C98_model.
Print Assumptions C99_sequential_partial.
Print Assumptions C99_refuted.
