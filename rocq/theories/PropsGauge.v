(** * PropsGauge: C137, which of its two values a variable of a physical model is said to have is a convention: describing
    some of the variables by their opposite values changes what SawatabiSolver returns in the same way, and nothing else. *)
From Verif Require Import PyBase PyLemmas Numbers Constraint LogicalModel Spec PhysicalProofs Physical BqmProofs PropsBqm Solver SolverSpec SolverProofs PropsSolver ToPhysicalProofs PropsPhysical PropsAlike Services PropsPenalty PropsSolvers ReachProofs PropsReach PropsUnits PropsLandscape Samples.
Local Open Scope string_scope.
Local Open Scope list_scope.

(** ** Specification *)
(** The other one of the two values of a variable. *)
Definition other_value (t : mtype) (z : Z) : Z := match t with Ising => (- z)%Z | Qubo => (1 - z)%Z end.
(** A state or sample with the other values for the variables [F]. *)
Definition recoded (t : mtype) (F : string -> bool) (s : dict string Z) : dict string Z :=
  map (fun e => (fst e, if F (fst e) then other_value t (snd e) else snd e)) s.
(** An assignment with the other values for the variables [F]. *)
Definition opposite (t : mtype) (F : string -> bool) (a : assignment) : assignment :=
  fun l => if F l then match t with Ising => (- a l)%Qc | Qubo => (1 - a l)%Qc end else a l.
(** An initial state is given for every read. *)
Definition starts_given (o : options) : Prop := exists s l, o_init o = Some (s :: l).
(** All values of the initial states are values of the type. *)
Definition proper_states (t : mtype) (o : options) : Prop := forall s l z, In s (init_list o) -> In (l, z) s -> SolverSpec.legal t z.

(** ** Proofs *)
Lemma recoded_get t F s l : dget l (recoded t F s) = option_map (fun z => if F l then other_value t z else z) (dget l s).
Proof.
  induction s as [|[k z] s IH]; [reflexivity|]. change (recoded t F ((k, z) :: s)) with ((k, if F k then other_value t z else z) :: recoded t F s).
  cbn [dget]. destruct (eqb l k) eqn:E; [|exact IH]. apply eqb_eq in E. subst. reflexivity.
Qed.
Lemma recoded_eqb t F s s' : sample_eqb (recoded t F s) (recoded t F s') = sample_eqb s s'.
Proof.
  unfold sample_eqb, dict_eqb. assert (L : forall d, length (recoded t F d) = length d) by (intros d; apply map_length). rewrite !L. f_equal.
  induction s as [|[k z] s IH]; [reflexivity|]. change (recoded t F ((k, z) :: s)) with ((k, if F k then other_value t z else z) :: recoded t F s).
  cbn [forallb fst snd]. rewrite IH. f_equal.
  rewrite recoded_get. destruct (dget k s') as [z'|]; [|reflexivity]. cbn [option_map]. destruct (F k); [|reflexivity].
  apply Bool.eq_true_iff_eq. rewrite !eqb_eq. unfold other_value. destruct t; lia.
Qed.

Section Gauge.
  Variables (p q : physical) (ls : list string) (orig b orig' b' : bqm) (lin lin' : list Qc) (adj adj' : list (dict nat Qc)) (c : Qc) (F : string -> bool).
  Hypothesis HP : prepared p ls orig b lin adj.
  Hypothesis HQ : prepared q ls orig' b' lin' adj'.
  Hypothesis EN : forall s, spin s -> spin_energy q (opposite Ising F s) = (spin_energy p s + c)%Qc.
  Notation n := (length (b_linear b)).

  (** A vector of spins with some of them reversed. *)
  Fixpoint turned (ks : list string) (x : list Z) : list Z :=
    match ks, x with
    | k :: ks', z :: x' => (if F k then (- z)%Z else z) :: turned ks' x'
    | _, _ => x
    end.
  Notation fx := (turned ls).
  Lemma turned_length ks : forall x, length (turned ks x) = length x.
  Proof. induction ks as [|k ks IH]; intros [|z x]; cbn; auto. Qed.
  Lemma turned_nth ks : forall x i l, nth_error ks i = Some l -> nth_error (turned ks x) i = option_map (fun z => if F l then (- z)%Z else z) (nth_error x i).
  Proof.
    induction ks as [|k ks IH]; intros x i l H; [destruct i; discriminate|]. destruct x as [|z x]; [destruct i; reflexivity|].
    destruct i as [|i]; cbn in *; [inversion H; subst; reflexivity|]. apply IH. exact H.
  Qed.
  Lemma turned_flip ks : forall x i, turned ks (upd_nth i Z.opp x) = upd_nth i Z.opp (turned ks x).
  Proof.
    induction ks as [|k ks IH]; intros [|z x] i; cbn [turned]; try reflexivity; [destruct i; reflexivity|].
    destruct i as [|i]; cbn; [destruct (F k); reflexivity|]. rewrite IH. reflexivity.
  Qed.
  Lemma turned_spins ks : forall x, Forall spinz x -> Forall spinz (turned ks x).
  Proof. induction ks as [|k ks IH]; intros [|z x] HX; cbn; auto. inversion HX; subst. constructor; auto. destruct (F k); auto. apply spin_opp. auto. Qed.
  Lemma turned_combine ks : forall x, length x = length ks -> combine ks (turned ks x) = recoded Ising F (combine ks x).
  Proof. induction ks as [|k ks IH]; intros [|z x] HL; try discriminate; cbn; auto. unfold recoded in IH. rewrite IH by auto. reflexivity. Qed.

  Lemma gauge_n : length (b_linear b') = n.
  Proof. rewrite (pr_n _ _ _ _ _ _ HP), (pr_n _ _ _ _ _ _ HQ). reflexivity. Qed.
  Lemma gauge_vector x : length x = length ls -> Forall spinz x -> vector_energy q (fx x) = (vector_energy p x + c)%Qc.
  Proof.
    intros HL HX. unfold vector_energy.
    rewrite (spin_energy_ext p (spins p x) (all_spins p x)).
    2: { intros l OC. unfold all_spins. rewrite (occurs_mem _ _ _ _ _ _ HP l OC). reflexivity. }
    rewrite <- EN by (apply (all_spins_spin _ _ _ _ _ _ HP); auto). apply spin_energy_ext. intros l OC.
    pose proof (same_occurs _ _ _ _ _ _ _ _ _ _ _ HP HQ l OC) as OC'.
    unfold opposite, all_spins. rewrite (occurs_mem _ _ _ _ _ _ HP l OC').
    unfold spins. rewrite <- (same_l2i _ _ _ _ _ _ _ _ _ _ _ HP HQ l). destruct (dget l (p_l2i p)) as [i|] eqn:EI.
    - destruct (pr_maps _ _ _ _ _ _ HP) as (_ & HM & _). apply HM in EI. rewrite (turned_nth _ _ _ _ EI). destruct (nth_error x i) as [z|] eqn:EZ.
      + cbn [option_map]. destruct (F l); [|reflexivity]. rewrite Forall_forall in HX. destruct (HX z (nth_error_In _ _ EZ)) as [-> | ->]; apply Qc_is_canon; reflexivity.
      + apply nth_error_None in EZ. assert (i < length ls) by (apply nth_error_Some; congruence). lia.
    - exfalso. apply (occurs_mem _ _ _ _ _ _ HP) in OC'. unfold dmem in OC'. rewrite EI in OC'. discriminate.
  Qed.
  Lemma gauge_calc i x : length x = n -> Forall spinz x -> calc_energy_diff lin' adj' i (fx x) = calc_energy_diff lin adj i x.
  Proof.
    intros HL HX. pose proof (pr_n _ _ _ _ _ _ HP) as HN. destruct (Nat.lt_ge_cases i n) as [LT|GE].
    - destruct (calc_total _ _ _ _ _ _ HP i x LT HL) as [e E]. assert (LT' : i < length (b_linear b')) by (rewrite gauge_n; exact LT).
      assert (HL' : length (fx x) = length (b_linear b')) by (rewrite turned_length, gauge_n; exact HL).
      destruct (calc_total _ _ _ _ _ _ HQ i (fx x) LT' HL') as [e' E']. rewrite E, E'. f_equal.
      destruct (calc_spec _ _ _ _ _ _ HP _ _ _ E HL) as [_ ->]. destruct (calc_spec _ _ _ _ _ _ HQ _ _ _ E' HL') as [_ ->].
      assert (HF : Forall spinz (upd_nth i Z.opp x)) by (apply (flipped_entries spinz i x spin_opp HX)).
      assert (LF : length (upd_nth i Z.opp x) = length ls) by (rewrite upd_nth_length; congruence).
      change (vector_energy q (upd_nth i Z.opp (fx x)) - vector_energy q (fx x) = vector_energy p (upd_nth i Z.opp x) - vector_energy p x)%Qc.
      rewrite <- turned_flip, !gauge_vector by (auto; congruence). ring.
    - unfold calc_energy_diff, item. rewrite (proj2 (nth_error_None x i)), (proj2 (nth_error_None (fx x) i)) by (rewrite ?turned_length; lia). reflexivity.
  Qed.

  Variables (w : world) (g : generator) (o o' : options).
  Hypothesis HG : rng_ok g.
  Hypothesis HO : with_states None o' = with_states None o.
  Let h : Qc := (c - qz 2 * (p_offset q - p_offset p))%Qc.
  Let sk (k : walk) : walk := mkWalk (fx (k_x k)) (k_energy k + h)%Qc (k_used k) (k_acc k).
  Let fair (k : walk) : Prop := length (k_x k) = n /\ Forall spinz (k_x k).
  Lemma gauge_flip rs t k i : fair k -> flip w lin' adj' rs t (sk k) i = on_ok sk (flip w lin adj rs t k i) /\ (forall k', flip w lin adj rs t k i = Ok k' -> fair k').
  Proof.
    intros [F1 F2]. unfold flip. change (k_x (sk k)) with (fx (k_x k)). change (k_used (sk k)) with (k_used k). rewrite (gauge_calc i _ F1 F2).
    destruct (calc_energy_diff lin adj i (k_x k)) as [e|]; [|split; [reflexivity|discriminate]]. cbn [rbind].
    destruct (is_acceptable w rs (k_used k) e t) as [[a u]|]; [|split; [reflexivity|discriminate]]. cbn [rbind fst snd]. destruct a; cbn [on_ok].
    - split; [f_equal; unfold sk; cbn [k_x k_energy k_used k_acc]; rewrite turned_flip; f_equal; ring|].
      intros k' E. inversion E. split; cbn [k_x]; [rewrite upd_nth_length; auto|]. apply (flipped_entries spinz i _ spin_opp F2).
    - split; [reflexivity|]. intros k' E. inversion E. split; auto.
  Qed.
  Lemma gauge_flips rs t l : forall k, fair k -> flips w lin' adj' rs t (sk k) l = on_ok sk (flips w lin adj rs t k l) /\ (forall k', flips w lin adj rs t k l = Ok k' -> fair k').
  Proof.
    induction l as [|i l IH]; intros k FK; cbn [flips]; [split; [reflexivity|]; intros k' E; inversion E; subst; auto|].
    destruct (gauge_flip rs t k i FK) as [-> F']. destruct (flip w lin adj rs t k i) as [k1|]; [|split; [reflexivity|discriminate]]. cbn [on_ok rbind].
    apply IH. apply F'. reflexivity.
  Qed.
  Let ss (s : sweepst) : sweepst := mkSweep (s_trace s) (sk (s_walk s)) (s_temp s) (s_reversing s) (s_target s)
    (map (fun e => e + h)%Qc (s_ehist s)) (s_thist s) (s_ahist s).
  Lemma gauge_sweep rs s i : fair (s_walk s) ->
    sweep_once w g o' lin' adj' n rs (ss s) i = on_ok ss (sweep_once w g o lin adj n rs s i) /\ (forall s', sweep_once w g o lin adj n rs s i = Ok s' -> fair (s_walk s')).
  Proof.
    intros FK. destruct (same_opts o o' HO) as (O1 & O2 & O3 & _). unfold sweep_once. rewrite O1, O2, O3. change (s_reversing (ss s)) with (s_reversing s).
    match goal with |- rbind ?a _ = _ /\ _ => destruct a as [rev|]; [|split; [reflexivity|discriminate]] end. cbn [rbind].
    change (s_trace (ss s)) with (s_trace s). destruct (pickups g (o_pickup o) n (s_trace s)) as [idxs tr].
    set (k0 := mkWalk (k_x (s_walk s)) (k_energy (s_walk s)) (k_used (s_walk s)) 0).
    change (mkWalk (k_x (s_walk (ss s))) (k_energy (s_walk (ss s))) (k_used (s_walk (ss s))) 0) with (sk k0). change (s_temp (ss s)) with (s_temp s). change (s_target (ss s)) with (s_target s).
    destruct (gauge_flips rs (s_temp s) idxs k0 FK) as [-> F']. destruct (flips w lin adj rs (s_temp s) k0 idxs) as [k|]; [|split; [reflexivity|discriminate]]. cbn [on_ok rbind].
    match goal with |- rbind ?a _ = _ /\ _ => destruct a as [[t1 t2]|]; [|split; [reflexivity|discriminate]] end. cbn [rbind on_ok]. split.
    - f_equal. unfold ss. cbn [s_trace s_walk s_temp s_reversing s_target s_ehist s_thist s_ahist]. f_equal. rewrite map_app. reflexivity.
    - intros s' E. inversion E. cbn [s_walk]. apply F'. reflexivity.
  Qed.
  Lemma gauge_sweeps rs l : forall s, fair (s_walk s) ->
    sweeps w g o' lin' adj' n rs (ss s) l = on_ok ss (sweeps w g o lin adj n rs s l) /\ (forall s', sweeps w g o lin adj n rs s l = Ok s' -> fair (s_walk s')).
  Proof.
    induction l as [|i l IH]; intros s FK; cbn [sweeps]; [split; [reflexivity|]; intros s' E; inversion E; subst; auto|].
    destruct (gauge_sweep rs s i FK) as [-> F']. destruct (sweep_once w g o lin adj n rs s i) as [s1|]; [|split; [reflexivity|discriminate]]. cbn [on_ok rbind].
    apply IH. apply F'. reflexivity.
  Qed.
  Lemma gauge_initial s0 tr : initial_spins g q b' (Some (recoded Ising F s0)) tr = on_ok (fun x => (fx (fst x), snd x)) (initial_spins g p b (Some s0) tr).
  Proof.
    unfold initial_spins. rewrite gauge_n.
    destruct (fill_cases ls g HG p _ _ s0 _ _ _ _ HP eq_refl eq_refl) as [(x & E & L & S)|(E & l & I & D)];
    destruct (fill_cases ls g HG q _ _ (recoded Ising F s0) _ _ _ _ HQ eq_refl (eq_sym gauge_n)) as [(x' & E' & L' & S')|(E' & l' & I' & D')]; rewrite E, E'; cbn [rbind on_ok fst snd].
    - f_equal. f_equal. apply nth_ext with (d := 0%Z) (d' := 0%Z); [rewrite turned_length; congruence|]. intros i Hi.
      destruct (nth_error ls i) as [l|] eqn:EL; [|apply nth_error_None in EL; lia].
      destruct (S i l EL) as (z & Z1 & Z2). destruct (S' i l EL) as (z' & Z1' & Z2').
      rewrite (nth_error_nth _ _ _ Z2'). rewrite recoded_get, Z1 in Z1'. cbn [option_map] in Z1'.
      assert (X : nth_error (fx x) i = Some (if F l then (- z)%Z else z)) by (rewrite (turned_nth _ _ _ _ EL), Z2; reflexivity).
      rewrite (nth_error_nth _ _ _ X). unfold other_value in Z1'. congruence.
    - exfalso. destruct (In_nth_error _ _ I') as [i Hi]. destruct (S i l' Hi) as (z & Z1 & _). rewrite recoded_get, Z1 in D'. discriminate.
    - exfalso. destruct (In_nth_error _ _ I) as [i Hi]. destruct (S' i l Hi) as (z & Z1 & _). rewrite recoded_get, D in Z1. discriminate.
    - reflexivity.
  Qed.
  Lemma gauge_sample x : length x = length ls -> make_sample q (fx x) = recoded Ising F (make_sample p x).
  Proof.
    intros HL. rewrite (make_sample_eq p ls (pr_maps _ _ _ _ _ _ HP)) by auto.
    rewrite (make_sample_eq q ls (pr_maps _ _ _ _ _ _ HQ)) by (rewrite turned_length; auto). apply turned_combine. exact HL.
  Qed.
  Let sr (r : read) : read := mkRead (recoded Ising F (d_sample r)) (d_energy r + c)%Qc (map (fun e => e + h)%Qc (d_ehist r)) (d_thist r) (d_ahist r).
  Lemma gauge_annealing s0 tr : (forall x, length x = length ls -> starts ls (Some s0) x -> Forall spinz x) ->
    annealing w g o' q orig' b' lin' adj' (Some (recoded Ising F s0)) tr = on_ok (fun x => (sr (fst x), snd x)) (annealing w g o p orig b lin adj (Some s0) tr).
  Proof.
    intros HS. destruct (same_opts o o' HO) as (O1 & O2 & O3 & O4 & O5 & _). unfold annealing. rewrite gauge_n, gauge_initial, O1, O4, O5.
    destruct (initial_spins g p b (Some s0) tr) as [[x0 tr0]|] eqn:EI; [|reflexivity]. cbn [rbind on_ok fst snd].
    destruct (initial_spec _ _ _ _ _ _ HP g HG _ _ _ _ EI) as [L0 S0]. pose proof (pr_n _ _ _ _ _ _ HP) as HN. assert (L1 : length x0 = length ls) by congruence.
    pose proof (HS x0 L1 S0) as F0. assert (L1' : length (fx x0) = length ls) by (rewrite turned_length; exact L1).
    rewrite (start_energy ls _ _ _ _ _ _ HP L1), (start_energy ls _ _ _ _ _ _ HQ L1'). cbn [rbind].
    match goal with |- rbind ?a _ = _ => destruct a as [[t0 tg]|]; [|reflexivity] end. cbn [rbind fst snd].
    destruct (_ <? 0)%Z; [reflexivity|].
    set (st0 := mkSweep (RRandom (Z.to_nat (o_sweeps o * Z.of_nat n)) :: tr0) (mkWalk x0 (- (1) * (- (vector_energy p x0 - qz 2 * p_offset p)))%Qc 0 0) t0
                 (match o_reverse o with RNone => false | _ => true end) tg [] [] []).
    match goal with |- rbind (sweeps _ _ _ _ _ _ _ ?s _) _ = _ => replace s with (ss st0) end.
    2: { unfold ss, st0, sk. cbn [s_trace s_walk s_temp s_reversing s_target s_ehist s_thist s_ahist k_x k_energy k_used k_acc map]. f_equal. f_equal.
         rewrite (gauge_vector x0 L1 F0). unfold h. ring. }
    match goal with |- rbind (sweeps _ _ _ _ _ _ ?rs _ ?l) _ = _ => destruct (gauge_sweeps rs l st0) as [-> FS]; [split; [exact L0|exact F0]|] end.
    destruct (sweeps w g o lin adj n _ st0 _) as [st|] eqn:ES; [|reflexivity]. cbn [on_ok rbind fst snd]. destruct (FS st eq_refl) as [LS _].
    f_equal. f_equal.
    unfold sr. cbn [d_sample d_energy d_ehist d_thist d_ahist]. unfold ss, sk. cbn [s_walk k_x k_energy s_ehist s_thist s_ahist s_trace].
    rewrite gauge_sample by congruence. f_equal. rewrite (pr_offset _ _ _ _ _ _ HP), (pr_offset _ _ _ _ _ _ HQ). unfold h. ring.
  Qed.
  Lemma gauge_reads l : (forall s0, In s0 l -> forall x, length x = length ls -> starts ls (Some s0) x -> Forall spinz x) ->
    forall tr, reads w g o' q orig' b' lin' adj' (map Some (map (recoded Ising F) l)) tr = on_ok (map sr) (reads w g o p orig b lin adj (map Some l) tr).
  Proof.
    induction l as [|s0 l IH]; intros HS tr; [reflexivity|]. cbn [map reads]. rewrite gauge_annealing by (apply HS; left; reflexivity).
    destruct (annealing w g o p orig b lin adj (Some s0) tr) as [[r tr1]|]; [|reflexivity].
    cbn [on_ok rbind fst snd]. rewrite IH by (intros; eapply HS; [right; eauto| |]; auto). destruct (reads w g o p orig b lin adj (map Some l) tr1); reflexivity.
  Qed.
End Gauge.

Definition turned_read (F : string -> bool) (c h : Qc) (r : read) : read :=
  mkRead (recoded Ising F (d_sample r)) (d_energy r + c)%Qc (map (fun e => e + h)%Qc (d_ehist r)) (d_thist r) (d_ahist r).
Definition turned_row (F : string -> bool) (c : Qc) (r : srow) : srow := match r with (s, e, k) => (recoded Ising F s, e + c, k)%Qc end.
Lemma turned_aggregate F c h l : aggregate (map (turned_read F c h) l) = map (turned_row F c) (aggregate l).
Proof.
  assert (A : forall s e l, aggregate_add (recoded Ising F s) (e + c)%Qc (map (turned_row F c) l) = map (turned_row F c) (aggregate_add s e l)).
  { intros s e. induction l0 as [|[[s' e'] k] l0 IH]; [reflexivity|]. cbn [map aggregate_add turned_row]. rewrite recoded_eqb. destruct (sample_eqb s' s); [reflexivity|].
    cbn [map turned_row]. rewrite <- IH. reflexivity. }
  unfold aggregate. change (@nil srow) with (map (turned_row F c) []) at 1. generalize (@nil srow). induction l as [|r l IH]; intros a; [reflexivity|].
  cbn [map fold_left]. rewrite <- IH. f_equal. apply A.
Qed.
Lemma recoded_spin_state F s : (forall l z, In (l, z) s -> SolverSpec.legal Qubo z) -> to_spin_state (recoded Qubo F s) = recoded Ising F (to_spin_state s).
Proof.
  intros HS. unfold to_spin_state, recoded. rewrite !map_map. apply map_ext_in. intros [l z] HI. cbn [fst snd]. destruct (F l); [|reflexivity].
  destruct (HS l z HI) as [-> | ->]; reflexivity.
Qed.
Lemma recoded_convert t F s : Forall (fun e => spinz (snd e)) s -> convert_sample (is_ising t) (recoded Ising F s) = recoded t F (convert_sample (is_ising t) s).
Proof.
  intros HS. unfold convert_sample, recoded. rewrite !map_map. apply map_ext_in. intros [l z] HI. cbn [fst snd]. rewrite Forall_forall in HS. specialize (HS _ HI). cbn [snd] in HS.
  destruct (F l); [|reflexivity]. destruct t; [reflexivity|]. cbn [is_ising spin_to other_value]. destruct HS as [-> | ->]; reflexivity.
Qed.
Lemma opposite_binary F s : forall l, to_binary (opposite Ising F s) l = opposite Qubo F (to_binary s) l.
Proof. intros l. unfold to_binary, opposite. destruct (F l); [|reflexivity]. change (qz 2) with (1 + 1)%Qc. field. discriminate. Qed.

(** ** C137 *)
(** Two physical models of the same type with the same variables in the same index order, such that the energy of an assignment in the first
    and the energy of the assignment with the opposite values for the variables [F] in the second differ by the constant [c]. If the initial
    states given to the second are those given to the first with the opposite values for [F], so are the
    samples; numbers of occurrences, temperatures and acceptances are the same, and the energies differ by
    [c]. If one raises, the other raises the same exception. *)
Theorem C137_opposite : forall w p q ls o c F, world_ok w -> well_indexed p ls -> well_indexed q ls -> no_loops p -> no_loops q ->
  p_mtype q = p_mtype p ->
  (forall a, lawful (p_mtype p) a -> energy_physical (opposite (p_mtype p) F a) q = (energy_physical a p + c)%Qc) ->
  starts_given o -> proper_states (p_mtype p) o ->
  match result w p o with
  | Err e => result w q (with_states (option_map (map (recoded (p_mtype p) F)) (o_init o)) o) = Err e
  | Ok u => exists u', result w q (with_states (option_map (map (recoded (p_mtype p) F)) (o_init o)) o) = Ok u' /\
      out_set u' = map (fun r => match r with (s, e, k) => (recoded (p_mtype p) F s, e + c, k)%Qc end) (out_set u) /\
      map d_ahist (out_reads u') = map d_ahist (out_reads u) /\
      map d_thist (out_reads u') = map d_thist (out_reads u) /\
      map d_ehist (out_reads u') = map (map (fun e => e + (c - qz 2 * (p_offset q - p_offset p)))%Qc) (map d_ehist (out_reads u))
  end.
Proof.
  intros w p q ls o c F (W1 & W2) WP WQ LP LQ ET EE (s1 & l1 & EI) PS. set (t := p_mtype p) in *.
  set (o' := with_states (option_map (map (recoded t F)) (o_init o)) o).
  assert (EN : forall s, spin s -> spin_energy q (opposite Ising F s) = (spin_energy p s + c)%Qc).
  { intros s HS. unfold spin_energy. rewrite ET. fold t. pose proof (spin_lawful t s HS) as L. destruct t; [apply EE; exact L|].
    rewrite <- (EE _ L). apply energy_physical_ext. intros l _. apply opposite_binary. }
  assert (LS : legal_states p o).
  { intros s l z HI _ HD. apply (PS s l z HI). apply dget_in. exact HD. }
  assert (IL : init_list o = s1 :: l1) by (unfold init_list; rewrite EI; reflexivity).
  assert (IL' : init_list o' = map (recoded t F) (init_list o)) by (unfold init_list, o', with_states; cbn; rewrite EI; reflexivity).
  assert (HH : has_init o = true) by (unfold has_init; rewrite IL; reflexivity).
  assert (HH' : has_init o' = true) by (unfold has_init; rewrite IL', IL; reflexivity).
  assert (HO : with_states None o' = with_states None o) by reflexivity.
  set (starts0 := match t with Ising => init_list o | Qubo => map to_spin_state (init_list o) end).
  assert (ST : start_states p o = map Some starts0) by (unfold start_states; rewrite HH; reflexivity).
  assert (ST' : start_states q o' = map Some (map (recoded Ising F) starts0)).
  { unfold start_states. rewrite HH', ET, IL'. fold t. unfold starts0. f_equal. destruct t; [reflexivity|]. rewrite !map_map. apply map_ext_in. intros s HI.
    apply recoded_spin_state. intros l z HZ. exact (PS s l z HI HZ). }
  enough (GOAL : match result w p o with
    | Err e => result w q o' = Err e
    | Ok u => exists u', result w q o' = Ok u' /\ out_reads u' = map (turned_read F c (c - qz 2 * (p_offset q - p_offset p))%Qc) (out_reads u) /\
        out_set u = sampleset (is_ising t) (out_reads u) /\ out_set u' = sampleset (is_ising t) (out_reads u')
    end).
  { destruct (result w p o) as [u|e] eqn:ER; [|exact GOAL]. destruct GOAL as (u' & E & R & S & S'). exists u'. split; [exact E|].
    rewrite S', S, R. split; [|rewrite !map_map; auto]. unfold sampleset. rewrite turned_aggregate, !map_map.
    assert (SP : Forall (fun r => Forall (fun e => spinz (snd e)) (d_sample r)) (out_reads u)).
    { destruct (solve_final w p ls o u WP (conj W1 W2) LS ER) as (_ & xs & F1 & F2). clear - F1 F2. revert F2. induction F1 as [|r x l xs (HL & HD & _) FF IH]; intros F2; constructor; inversion F2; subst; auto.
      rewrite HD. apply Forall_forall. intros [l0 z] HI. apply in_combine_r in HI. rewrite Forall_forall in H1. apply H1. exact HI. }
    apply aggregate_samples in SP. apply map_ext_in. intros [[s e] k] HI. rewrite Forall_forall in SP. specialize (SP _ HI). cbn [fst] in SP.
    cbn [turned_row]. rewrite (recoded_convert t F s SP). reflexivity. }
  unfold result, solve.
  assert (CA : check_args q o' = check_args p o).
  { unfold check_args. rewrite HH, HH', IL', map_length.
    assert (EQ : Nat.eqb (length (p_linear q)) 0 && Nat.eqb (length (p_quad q)) 0 = Nat.eqb (length (p_linear p)) 0 && Nat.eqb (length (p_quad p)) 0).
    { apply Bool.eq_true_iff_eq. rewrite (empty_iff p ls WP), (empty_iff q ls WQ). tauto. }
    rewrite EQ. reflexivity. }
  rewrite CA. change (o_seed o') with (o_seed o).
  destruct (check_args p o) as [[]|]; [|reflexivity]. destruct (pick_rng w (o_seed o)) as [g|] eqn:EG; [|reflexivity].
  assert (RG : rng_ok g).
  { unfold pick_rng in EG. destruct (o_seed o) as [z|]; [|inversion EG; subst; auto]. destruct (Z.eqb z 0); [inversion EG; subst; auto|]. destruct (z <? 0)%Z; inversion EG; subst; auto. }
  destruct (proj2 (proj1 (C37_succeeds_iff 1 p)) LP) as [orig EB]. destruct (proj2 (proj1 (C37_succeeds_iff 1 q)) LQ) as [orig' EB']. rewrite EB, EB'. cbn zeta.
  destruct (prepared_of _ _ _ WP EB) as (lin & adj & E1 & E2 & PP). destruct (prepared_of _ _ _ WQ EB') as (lin' & adj' & E1' & E2' & PQ).
  cbn [snd]. rewrite E1, E2, E1', E2'. cbn [rbind].
  assert (IN : forall r orig0 o0, to_bqm 1 r = Ok orig0 ->
    (if has_init o0 then map Some (match (if negb (b_spin orig0) && has_init o0 then Some (map to_spin_state (init_list o0)) else o_init o0) with Some l => l | None => [] end)
     else repeat None (Z.to_nat (o_reads o0))) = start_states r o0 /\ b_spin orig0 = is_ising (p_mtype r)).
  { intros r orig0 o0 EB0. destruct (to_bqm_spec _ _ _ EB0) as (_ & _ & _ & _ & _ & H6 & _). rewrite H6. split; [|destruct (p_mtype r); reflexivity].
    unfold start_states. destruct (has_init o0) eqn:EH; [|reflexivity]. rewrite andb_true_r. destruct (p_mtype r); cbn [negb]; [|reflexivity].
    unfold init_list. destruct (o_init o0); reflexivity. }
  destruct (IN _ _ o EB) as [I1 I2]. destruct (IN _ _ o' EB') as [I1' I2']. rewrite I1, I1', I2, I2', ST, ST', ET. fold t.
  rewrite (gauge_reads p q ls orig _ orig' _ lin lin' adj adj' c F PP PQ EN w g o o' RG HO).
  - destruct (reads w g o p orig _ lin adj (map Some starts0) []) as [l|]; [|reflexivity]. cbn [on_ok rbind].
    eexists. split; [reflexivity|]. cbn [out_reads out_set]. split; [reflexivity|]. split; reflexivity.
  - intros s0 HS x HL SX. apply (start_spins p ls o (Some s0) x WP LS); auto. rewrite ST. apply in_map. exact HS.
Qed.

(** An Ising model without fields: reversing all spins of the initial states reverses all spins of the samples, with the same energies,
    numbers of occurrences and histories. *)
Theorem C137_no_field : forall w p ls o, world_ok w -> well_indexed p ls -> no_loops p -> p_mtype p = Ising -> p_linear p = [] ->
  starts_given o -> proper_states Ising o ->
  match result w p o with
  | Err e => result w p (with_states (option_map (map (recoded Ising (fun _ => true))) (o_init o)) o) = Err e
  | Ok u => exists u', result w p (with_states (option_map (map (recoded Ising (fun _ => true))) (o_init o)) o) = Ok u' /\
      out_set u' = map (fun r => match r with (s, e, k) => (recoded Ising (fun _ => true) s, e, k) end) (out_set u) /\
      map d_ahist (out_reads u') = map d_ahist (out_reads u) /\
      map d_thist (out_reads u') = map d_thist (out_reads u) /\
      map d_ehist (out_reads u') = map d_ehist (out_reads u)
  end.
Proof.
  intros w p ls o WO WP LP TP NF SG PS. pose proof (C137_opposite w p p ls o 0 (fun _ => true) WO WP WP LP LP eq_refl) as H. rewrite TP in H.
  assert (EE : forall a, lawful Ising a -> energy_physical (opposite Ising (fun _ => true) a) p = (energy_physical a p + 0)%Qc).
  { intros a _. unfold energy_physical. rewrite NF. cbn [map qsum]. assert (Q : qsum (map (fun e => snd e * (opposite Ising (fun _ => true) a (fst (fst e)) * opposite Ising (fun _ => true) a (snd (fst e))))%Qc (p_quad p)) =
      qsum (map (fun e => snd e * (a (fst (fst e)) * a (snd (fst e))))%Qc (p_quad p))).
    { f_equal. apply map_ext. intros [[u v] x]. cbn [fst snd]. unfold opposite. ring. }
    unfold opposite in *. cbn beta iota in *. rewrite ?Q. ring. }
  specialize (H EE SG PS). destruct (result w p o) as [u|e]; [|exact H]. destruct H as (u' & E & H1 & H2 & H3 & H4). exists u'. split; [exact E|]. split; [|split; [exact H2|split; [exact H3|]]].
  - rewrite H1. apply map_ext. intros [[s e] k]. f_equal. f_equal. ring.
  - rewrite H4, map_map. apply map_ext. intros r. rewrite <- (map_id (d_ehist r)) at 2. apply map_ext. intros e. ring.
Qed.

(** ** The hypotheses can be met *)
(** [phys2 Qubo] in terms of the opposite of a. *)
Definition is_a (l : string) : bool := String.eqb l "a".
Definition phys2_opposite : physical :=
  mkPhysical Qubo [("a", qz (-1)); ("b", qz 1)] [(("a", "b"), qz (-3))] (qz 4) ["a"; "b"] [("a", 0); ("b", 1)] [(0, "a"); (1, "b")].
Definition coupling : physical :=
  mkPhysical Ising [] [(("a", "b"), qz (-3))] (qz 4) ["a"; "b"] [("a", 0); ("b", 1)] [(0, "a"); (1, "b")].
Definition spin_options : options := mkOptions 1 2 (qfrac 1 2) (qz 10) (Some [[("a", 1%Z); ("b", 1%Z)]]) RNone "sequential" (Some 7%Z).
Definition shown (r : res outcome) : list (dict string Z * nat) := match r with Ok u => map (fun x => (fst (fst x), snd x)) (out_set u) | Err _ => [] end.
Example C137_opposite_hyps : world_ok step_world /\ well_indexed (phys2 Qubo) ["a"; "b"] /\ well_indexed phys2_opposite ["a"; "b"] /\ no_loops (phys2 Qubo) /\ no_loops phys2_opposite /\
  (forall a, lawful Qubo a -> energy_physical (opposite Qubo is_a a) phys2_opposite = (energy_physical a (phys2 Qubo) + 0)%Qc) /\
  starts_given options1 /\ proper_states Qubo options1 /\
  length (shown (result step_world (phys2 Qubo) options1)) = 1 /\
  shown (result step_world phys2_opposite (with_states (option_map (map (recoded Qubo is_a)) (o_init options1)) options1)) =
    map (fun r => (recoded Qubo is_a (fst r), snd r)) (shown (result step_world (phys2 Qubo) options1)).
Proof.
  split; [apply step_ok|]. split; [apply phys2_indexed|]. split.
  { apply two_indexed; auto. intros l. unfold occurs. cbn. split.
    - intros [[H|[H|[]]]|(a & b & [H|[]] & E)]; auto. inversion H; subst. auto.
    - intros [-> | ->]; auto. }
  split; [intros l [H|[]]; inversion H; subst; discriminate|]. split; [intros l [H|[]]; inversion H; subst; discriminate|].
  split.
  { intros a _. unfold energy_physical, phys2_opposite, phys2, opposite. cbn [p_linear p_quad p_offset map fst snd is_a String.eqb]. cbn -[Qcplus Qcmult Qcopp Qcminus qz].
    change (qz (-1)) with (-(1))%Qc. change (qz (-2)) with (-(1+1))%Qc. change (qz (-3)) with (-(1+1+1))%Qc. change (qz 3) with (1+1+1)%Qc. change (qz 4) with (1+1+1+1)%Qc. change (qz 5) with (1+1+1+1+1)%Qc. change (qz 1) with 1%Qc. ring. }
  split; [exists [("a", 0%Z); ("b", 1%Z)], []; reflexivity|].
  split; [intros s l z [<-|[]] [H|[H|[]]]; inversion H; subst; [left|right]; reflexivity|].
  split; vm_compute; reflexivity.
Qed.
Example C137_no_field_hyps : world_ok step_world /\ well_indexed coupling ["a"; "b"] /\ no_loops coupling /\ p_mtype coupling = Ising /\ p_linear coupling = [] /\
  starts_given spin_options /\ proper_states Ising spin_options /\
  shown (result step_world coupling spin_options) = [([("a", 1); ("b", -1)]%Z, 1)] /\
  shown (result step_world coupling (with_states (option_map (map (recoded Ising (fun _ => true))) (o_init spin_options)) spin_options)) = [([("a", -1); ("b", 1)]%Z, 1)].
Proof.
  split; [apply step_ok|]. split.
  { apply two_indexed; auto. intros l. unfold occurs. cbn. split.
    - intros [[]|(a & b & [H|[]] & E)]. inversion H; subst. exact E.
    - intros E. right. exists "a", "b". auto. }
  split; [intros l [H|[]]; inversion H; subst; discriminate|]. split; [reflexivity|]. split; [reflexivity|].
  split; [exists [("a", 1%Z); ("b", 1%Z)], []; reflexivity|].
  split; [intros s l z [<-|[]] [H|[H|[]]]; inversion H; subst; left; reflexivity|].
  split; vm_compute; reflexivity.
Qed.
Print Assumptions C137_opposite.
Print Assumptions C137_no_field.
