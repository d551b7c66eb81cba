(** * PropsLandscape: C119 and C120, what SawatabiSolver returns depends on the energies of the spin configurations
    and on nothing else in the physical model: neither the order of its coefficients nor its type matters. *)
From Verif Require Import PyBase PyLemmas Numbers Constraint LogicalModel Spec PhysicalProofs Physical BqmProofs PropsBqm Solver SolverSpec SolverProofs PropsSolver ToPhysicalProofs PropsPhysical History PropsHistory PropsAlike Services PropsPenalty PropsSolvers ReachProofs PropsReach PropsDetermined PropsUnits Samples.
From Verif Require TspProofs.
Local Open Scope string_scope.
Local Open Scope list_scope.

(** ** Specification *)
Notation lawful := PropsSolvers.legal_assignment.
(** The problem has no interaction of a variable with itself. *)
Definition no_loops (p : physical) : Prop := forall l, ~ In (l, l) (dkeys (p_quad p)).
(** Two outcomes that agree except that the energies of the second are higher by [c], and its energy histories by [h]. *)
Definition outcome_shifted (c h : Qc) (u u' : outcome) : Prop :=
  out_set u' = map (fun r => match r with (s, e, k) => (s, e + c, k)%Qc end) (out_set u) /\
  map d_ahist (out_reads u') = map d_ahist (out_reads u) /\
  map d_thist (out_reads u') = map d_thist (out_reads u) /\
  map d_ehist (out_reads u') = map (map (fun e => e + h)%Qc) (map d_ehist (out_reads u)).

(** ** Proofs *)
Lemma fill_state_err p s0 vs e : forall x, (forall v, In v vs -> exists i, dget v (p_l2i p) = Some i /\ i < length x) ->
  fill_state p vs s0 x = Err e -> e = KeyError.
Proof.
  induction vs as [|v vs IH]; intros x HV E; cbn [fill_state] in E; [discriminate|].
  destruct (HV v (or_introl eq_refl)) as (i & HI & LT). unfold l2i in E. rewrite HI in E. cbn [rbind] in E.
  destruct (dget v s0) as [z|]; [|congruence]. destruct (set_nth_some i z x LT) as [x' ES]. rewrite ES in E.
  apply (IH x'); [|exact E]. intros u HU. rewrite (set_nth_length _ _ _ _ ES). apply HV. right. exact HU.
Qed.
(** A vector of spins as an assignment of spins to all labels. *)
Definition all_spins (p : physical) (x : list Z) : assignment := fun l => if dmem l (p_l2i p) then spins p x l else 1%Qc.
Lemma spin_energy_ext p s s' : (forall l, occurs p l -> s l = s' l) -> spin_energy p s = spin_energy p s'.
Proof. intros H. unfold spin_energy. destruct (p_mtype p); apply energy_physical_ext; intros l OC; [|unfold to_binary]; rewrite H; auto. Qed.

Section Same.
  Variables (p q : physical) (ls : list string) (orig b orig' b' : bqm) (lin lin' : list Qc) (adj adj' : list (dict nat Qc)) (c : Qc).
  Hypothesis HP : prepared p ls orig b lin adj.
  Hypothesis HQ : prepared q ls orig' b' lin' adj'.
  Hypothesis EN : forall s, spin s -> spin_energy q s = (spin_energy p s + c)%Qc.

  Lemma all_spins_spin x : length x = length ls -> Forall spinz x -> spin (all_spins p x).
  Proof.
    intros HL HX l. unfold all_spins, dmem, spins. destruct (dget l (p_l2i p)) as [i|] eqn:E; [|auto].
    destruct (pr_maps _ _ _ _ _ _ HP) as (_ & HM & _). apply HM in E. destruct (nth_error x i) as [z|] eqn:EZ.
    - rewrite Forall_forall in HX. destruct (HX z (nth_error_In _ _ EZ)) as [-> | ->]; [right|left]; apply Qc_is_canon; reflexivity.
    - apply nth_error_None in EZ. assert (i < length ls) by (apply nth_error_Some; congruence). lia.
  Qed.
  Lemma same_l2i l : dget l (p_l2i p) = dget l (p_l2i q).
  Proof.
    destruct (pr_maps _ _ _ _ _ _ HP) as (_ & HM & _). destruct (pr_maps _ _ _ _ _ _ HQ) as (_ & HM' & _).
    destruct (dget l (p_l2i p)) as [i|] eqn:E; [symmetry; apply HM', HM, E|]. destruct (dget l (p_l2i q)) as [i|] eqn:E'; [|reflexivity].
    apply HM', HM in E'. congruence.
  Qed.
  Lemma same_spins x l : spins q x l = spins p x l.
  Proof. unfold spins. rewrite same_l2i. reflexivity. Qed.
  Lemma occurs_mem l : occurs p l -> dmem l (p_l2i p) = true.
  Proof.
    intros OC. apply (pr_occurs _ _ _ _ _ _ HP) in OC. destruct (In_nth_error _ _ OC) as [i Hi]. destruct (pr_maps _ _ _ _ _ _ HP) as (_ & HM & _).
    apply HM in Hi. unfold dmem. rewrite Hi. reflexivity.
  Qed.
  Lemma same_occurs l : occurs q l -> occurs p l.
  Proof. intros OC. apply (pr_occurs _ _ _ _ _ _ HP). apply (pr_occurs _ _ _ _ _ _ HQ). exact OC. Qed.
  Lemma same_vector x : length x = length ls -> Forall spinz x -> vector_energy q x = (vector_energy p x + c)%Qc.
  Proof.
    intros HL HX. unfold vector_energy. rewrite (spin_energy_ext q _ (all_spins p x)), (spin_energy_ext p (spins p x) (all_spins p x)).
    - apply EN. apply all_spins_spin; auto.
    - intros l OC. unfold all_spins. rewrite (occurs_mem l OC). reflexivity.
    - intros l OC. unfold all_spins. rewrite (occurs_mem l (same_occurs l OC)). apply same_spins.
  Qed.
  Lemma same_n : length (b_linear b') = length (b_linear b).
  Proof. rewrite (pr_n _ _ _ _ _ _ HP), (pr_n _ _ _ _ _ _ HQ). reflexivity. Qed.
  Notation n := (length (b_linear b)).
  Lemma same_calc i x : length x = n -> Forall spinz x -> calc_energy_diff lin' adj' i x = calc_energy_diff lin adj i x.
  Proof.
    intros HL HX. pose proof (pr_n _ _ _ _ _ _ HP) as HN. destruct (Nat.lt_ge_cases i n) as [LT|GE].
    - destruct (calc_total _ _ _ _ _ _ HP i x LT HL) as [e E]. assert (LT' : i < length (b_linear b')) by (rewrite same_n; exact LT).
      assert (HL' : length x = length (b_linear b')) by (rewrite same_n; exact HL).
      destruct (calc_total _ _ _ _ _ _ HQ i x LT' HL') as [e' E']. rewrite E, E'. f_equal.
      destruct (calc_spec _ _ _ _ _ _ HP _ _ _ E HL) as [_ ->]. destruct (calc_spec _ _ _ _ _ _ HQ _ _ _ E' HL') as [_ ->].
      assert (HF : Forall spinz (upd_nth i Z.opp x)) by (apply (flipped_entries spinz i x spin_opp HX)).
      assert (LF : length (upd_nth i Z.opp x) = length ls) by (rewrite upd_nth_length; congruence).
      change (vector_energy q (upd_nth i Z.opp x) - vector_energy q x = vector_energy p (upd_nth i Z.opp x) - vector_energy p x)%Qc.
      rewrite !same_vector by (auto; congruence). ring.
    - unfold calc_energy_diff, item. rewrite (proj2 (nth_error_None x i)) by lia. reflexivity.
  Qed.

  Variables (w : world) (g : generator) (o o' : options).
  Hypothesis HG : rng_ok g.
  Hypothesis HO : with_states None o' = with_states None o.
  Let h : Qc := (c - qz 2 * (p_offset q - p_offset p))%Qc.
  Let sk (k : walk) : walk := mkWalk (k_x k) (k_energy k + h)%Qc (k_used k) (k_acc k).
  Definition fair (k : walk) : Prop := length (k_x k) = n /\ Forall spinz (k_x k).
  Lemma same_flip rs t k i : fair k -> flip w lin' adj' rs t (sk k) i = on_ok sk (flip w lin adj rs t k i) /\ (forall k', flip w lin adj rs t k i = Ok k' -> fair k').
  Proof.
    intros [F1 F2]. unfold flip. change (k_x (sk k)) with (k_x k). change (k_used (sk k)) with (k_used k). rewrite (same_calc i _ F1 F2).
    destruct (calc_energy_diff lin adj i (k_x k)) as [e|]; [|split; [reflexivity|discriminate]]. cbn [rbind].
    destruct (is_acceptable w rs (k_used k) e t) as [[a u]|]; [|split; [reflexivity|discriminate]]. cbn [rbind fst snd]. destruct a; cbn [on_ok].
    - split; [f_equal; unfold sk; cbn; f_equal; ring|]. intros k' E. inversion E. split; cbn [k_x]; [rewrite upd_nth_length; auto|]. apply (flipped_entries spinz i _ spin_opp F2).
    - split; [reflexivity|]. intros k' E. inversion E. split; auto.
  Qed.
  Lemma same_flips rs t l : forall k, fair k -> flips w lin' adj' rs t (sk k) l = on_ok sk (flips w lin adj rs t k l) /\ (forall k', flips w lin adj rs t k l = Ok k' -> fair k').
  Proof.
    induction l as [|i l IH]; intros k F; cbn [flips]; [split; [reflexivity|]; intros k' E; inversion E; subst; auto|].
    destruct (same_flip rs t k i F) as [-> F']. destruct (flip w lin adj rs t k i) as [k1|]; [|split; [reflexivity|discriminate]]. cbn [on_ok rbind].
    apply IH. apply F'. reflexivity.
  Qed.
  Let ss (s : sweepst) : sweepst := mkSweep (s_trace s) (sk (s_walk s)) (s_temp s) (s_reversing s) (s_target s)
    (map (fun e => e + h)%Qc (s_ehist s)) (s_thist s) (s_ahist s).
  Lemma same_opts : o_reverse o' = o_reverse o /\ o_pickup o' = o_pickup o /\ o_rate o' = o_rate o /\ o_temp o' = o_temp o /\ o_sweeps o' = o_sweeps o /\ o_reads o' = o_reads o /\ o_seed o' = o_seed o.
  Proof. unfold with_states in HO. inversion HO. auto 10. Qed.
  Lemma same_sweep rs s i : fair (s_walk s) ->
    sweep_once w g o' lin' adj' n rs (ss s) i = on_ok ss (sweep_once w g o lin adj n rs s i) /\ (forall s', sweep_once w g o lin adj n rs s i = Ok s' -> fair (s_walk s')).
  Proof.
    intros F. destruct same_opts as (O1 & O2 & O3 & _). unfold sweep_once. rewrite O1, O2, O3. change (s_reversing (ss s)) with (s_reversing s).
    match goal with |- rbind ?a _ = _ /\ _ => destruct a as [rev|]; [|split; [reflexivity|discriminate]] end. cbn [rbind].
    change (s_trace (ss s)) with (s_trace s). destruct (pickups g (o_pickup o) n (s_trace s)) as [idxs tr].
    set (k0 := mkWalk (k_x (s_walk s)) (k_energy (s_walk s)) (k_used (s_walk s)) 0).
    change (mkWalk (k_x (s_walk (ss s))) (k_energy (s_walk (ss s))) (k_used (s_walk (ss s))) 0) with (sk k0). change (s_temp (ss s)) with (s_temp s). change (s_target (ss s)) with (s_target s).
    destruct (same_flips rs (s_temp s) idxs k0 F) as [-> F']. destruct (flips w lin adj rs (s_temp s) k0 idxs) as [k|]; [|split; [reflexivity|discriminate]]. cbn [on_ok rbind].
    match goal with |- rbind ?a _ = _ /\ _ => destruct a as [[t1 t2]|]; [|split; [reflexivity|discriminate]] end. cbn [rbind on_ok]. split.
    - f_equal. unfold ss. cbn. f_equal. rewrite map_app. reflexivity.
    - intros s' E. inversion E. cbn [s_walk]. apply F'. reflexivity.
  Qed.
  Lemma same_sweeps rs l : forall s, fair (s_walk s) ->
    sweeps w g o' lin' adj' n rs (ss s) l = on_ok ss (sweeps w g o lin adj n rs s l) /\ (forall s', sweeps w g o lin adj n rs s l = Ok s' -> fair (s_walk s')).
  Proof.
    induction l as [|i l IH]; intros s F; cbn [sweeps]; [split; [reflexivity|]; intros s' E; inversion E; subst; auto|].
    destruct (same_sweep rs s i F) as [-> F']. destruct (sweep_once w g o lin adj n rs s i) as [s1|]; [|split; [reflexivity|discriminate]]. cbn [on_ok rbind].
    apply IH. apply F'. reflexivity.
  Qed.
  Lemma fill_cases r v V s0 lin0 adj0 b0 orig0 : prepared r ls orig0 b0 lin0 adj0 -> v = bqm_variables b0 -> V = length (b_linear b0) ->
    (exists x, fill_state r v s0 (repeat 1%Z V) = Ok x /\ length x = length ls /\ starts ls (Some s0) x) \/
    (fill_state r v s0 (repeat 1%Z V) = Err KeyError /\ exists l, In l ls /\ dget l s0 = None).
  Proof.
    intros HR -> ->. destruct (fill_state r (bqm_variables b0) s0 (repeat 1%Z (length (b_linear b0)))) as [x|e] eqn:E.
    - left. exists x. split; [reflexivity|].
      assert (X : initial_spins g r b0 (Some s0) [] = Ok (x, [])) by (unfold initial_spins; rewrite E; reflexivity).
      destruct (initial_spec _ _ _ _ _ _ HR g HG _ _ _ _ X) as [HL HS]. rewrite (pr_n _ _ _ _ _ _ HR) in HL. auto.
    - right. assert (e = KeyError).
      { eapply fill_state_err; [|exact E]. intros v HV. apply (pr_in _ _ _ _ _ _ HR) in HV. destruct (In_nth_error _ _ HV) as [i Hi]. destruct (pr_maps _ _ _ _ _ _ HR) as (_ & HM & _).
        exists i. split; [apply HM; exact Hi|]. rewrite repeat_length, (pr_n _ _ _ _ _ _ HR). apply nth_error_Some. congruence. }
      subst e. split; [reflexivity|]. destruct (existsb (fun l => negb (dmem l s0)) ls) eqn:EX.
      + apply existsb_exists in EX. destruct EX as (l & HI & HD). exists l. split; auto. unfold dmem in HD. destruct (dget l s0); [discriminate|reflexivity].
      + exfalso. destruct (fill_state_total _ _ _ _ _ _ HR s0 (bqm_variables b0) (repeat 1%Z (length (b_linear b0)))) as [x X]; [apply repeat_length| |congruence].
        intros v HV. apply (pr_in _ _ _ _ _ _ HR) in HV. split; auto. destruct (dget v s0) as [z|] eqn:ED; [eauto|]. exfalso.
        assert (existsb (fun l => negb (dmem l s0)) ls = true) by (apply existsb_exists; exists v; split; auto; unfold dmem; rewrite ED; reflexivity). congruence.
  Qed.
  Lemma same_initial s0 tr : initial_spins g q b' s0 tr = initial_spins g p b s0 tr.
  Proof.
    unfold initial_spins. rewrite same_n. destruct s0 as [s0|]; [|reflexivity].
    destruct (fill_cases p _ _ s0 _ _ _ _ HP eq_refl eq_refl) as [(x & E & L & S)|(E & l & I & D)];
    destruct (fill_cases q _ _ s0 _ _ _ _ HQ eq_refl (eq_sym same_n)) as [(x' & E' & L' & S')|(E' & l' & I' & D')]; rewrite E, E'.
    - f_equal. f_equal. f_equal. apply nth_ext with (d := 0%Z) (d' := 0%Z); [congruence|]. intros i Hi.
      destruct (nth_error ls i) as [l|] eqn:EL; [|apply nth_error_None in EL; lia].
      destruct (S i l EL) as (z & Z1 & Z2). destruct (S' i l EL) as (z' & Z1' & Z2').
      rewrite (nth_error_nth _ _ _ Z2), (nth_error_nth _ _ _ Z2'). congruence.
    - exfalso. destruct (In_nth_error _ _ I') as [i Hi]. destruct (S i l' Hi) as (z & Z1 & _). congruence.
    - exfalso. destruct (In_nth_error _ _ I) as [i Hi]. destruct (S' i l Hi) as (z & Z1 & _). congruence.
    - reflexivity.
  Qed.
  Lemma same_sample x : make_sample q x = make_sample p x.
  Proof. unfold make_sample. destruct (pr_maps _ _ _ _ _ _ HP) as (_ & _ & ->). destruct (pr_maps _ _ _ _ _ _ HQ) as (_ & _ & ->). reflexivity. Qed.
  Lemma start_energy r lin0 adj0 b0 orig0 x : prepared r ls orig0 b0 lin0 adj0 -> length x = length ls ->
    bqm_energy b0 (make_sample r x) = Ok (- (vector_energy r x - qz 2 * p_offset r))%Qc.
  Proof.
    intros HR HL. pose proof (pr_maps _ _ _ _ _ _ HR) as HM. destruct (bqm_energy_total b0 (make_sample r x)) as [e0 HE].
    { apply (pr_wf _ _ _ _ _ _ HR). }
    { intros l HI. apply (pr_in _ _ _ _ _ _ HR) in HI. rewrite (make_sample_eq r ls HM) by auto. apply dget_some_in. unfold dkeys. rewrite map_fst_combine; auto. }
    rewrite HE. f_equal. apply bqm_energy_ok in HE. rewrite HE, (energy_bqm_ext b0 (value_of (make_sample r x)) (spins r x)) by (apply (value_of_spins r ls HM); auto).
    unfold vector_energy. rewrite <- (pr_energy _ _ _ _ _ _ HR). ring.
  Qed.
  Let sr (r : read) : read := mkRead (d_sample r) (d_energy r + c)%Qc (map (fun e => e + h)%Qc (d_ehist r)) (d_thist r) (d_ahist r).
  Lemma same_annealing s0 tr : (forall x, length x = length ls -> starts ls s0 x -> Forall spinz x) ->
    annealing w g o' q orig' b' lin' adj' s0 tr = on_ok (fun x => (sr (fst x), snd x)) (annealing w g o p orig b lin adj s0 tr).
  Proof.
    intros HS. destruct same_opts as (O1 & O2 & O3 & O4 & O5 & _). unfold annealing. rewrite same_n, same_initial, O1, O4, O5.
    destruct (initial_spins g p b s0 tr) as [[x0 tr0]|] eqn:EI; [|reflexivity]. cbn [rbind fst snd].
    destruct (initial_spec _ _ _ _ _ _ HP g HG _ _ _ _ EI) as [L0 S0]. pose proof (pr_n _ _ _ _ _ _ HP) as HN. assert (L1 : length x0 = length ls) by congruence.
    pose proof (HS x0 L1 S0) as F0.
    rewrite (start_energy _ _ _ _ _ _ HP L1), (start_energy _ _ _ _ _ _ HQ L1). cbn [rbind].
    match goal with |- rbind ?a _ = _ => destruct a as [[t0 tg]|]; [|reflexivity] end. cbn [rbind fst snd].
    destruct (_ <? 0)%Z; [reflexivity|].
    set (st0 := mkSweep (RRandom (Z.to_nat (o_sweeps o * Z.of_nat n)) :: tr0) (mkWalk x0 (- (1) * (- (vector_energy p x0 - qz 2 * p_offset p)))%Qc 0 0) t0
                 (match o_reverse o with RNone => false | _ => true end) tg [] [] []).
    match goal with |- rbind (sweeps _ _ _ _ _ _ _ ?s _) _ = _ => replace s with (ss st0) end.
    2: { unfold ss, st0, sk. cbn [s_trace s_walk s_temp s_reversing s_target s_ehist s_thist s_ahist k_x k_energy k_used k_acc map]. f_equal. f_equal.
         rewrite (same_vector x0 L1 F0). unfold h. ring. }
    match goal with |- rbind (sweeps _ _ _ _ _ _ ?rs _ ?l) _ = _ => destruct (same_sweeps rs l st0) as [-> _]; [split; [exact L0|exact F0]|] end.
    destruct (sweeps w g o lin adj n _ st0 _) as [st|]; [|reflexivity]. cbn [on_ok rbind fst snd]. f_equal. f_equal.
    unfold sr. cbn [d_sample d_energy d_ehist d_thist d_ahist]. unfold ss, sk. cbn [s_walk k_x k_energy s_ehist s_thist s_ahist s_trace].
    rewrite same_sample. f_equal. rewrite (pr_offset _ _ _ _ _ _ HP), (pr_offset _ _ _ _ _ _ HQ). unfold h. ring.
  Qed.
  Lemma same_reads l : (forall s0, In s0 l -> forall x, length x = length ls -> starts ls s0 x -> Forall spinz x) ->
    forall tr, reads w g o' q orig' b' lin' adj' l tr = on_ok (map sr) (reads w g o p orig b lin adj l tr).
  Proof.
    induction l as [|s0 l IH]; intros HS tr; [reflexivity|]. cbn [reads]. rewrite same_annealing by (apply HS; left; reflexivity).
    destruct (annealing w g o p orig b lin adj s0 tr) as [[r tr1]|]; [|reflexivity].
    cbn [on_ok rbind fst snd]. rewrite IH by (intros; eapply HS; [right; eauto| |]; auto). destruct (reads w g o p orig b lin adj l tr1); reflexivity.
  Qed.
End Same.

Definition shifted_read (c h : Qc) (r : read) : read :=
  mkRead (d_sample r) (d_energy r + c)%Qc (map (fun e => e + h)%Qc (d_ehist r)) (d_thist r) (d_ahist r).
Definition shifted_row (c : Qc) (r : srow) : srow := match r with (s, e, k) => (s, e + c, k)%Qc end.
Lemma shifted_aggregate c h l : aggregate (map (shifted_read c h) l) = map (shifted_row c) (aggregate l).
Proof.
  assert (A : forall s e l, aggregate_add s (e + c)%Qc (map (shifted_row c) l) = map (shifted_row c) (aggregate_add s e l)).
  { intros s e. induction l0 as [|[[s' e'] k] l0 IH]; [reflexivity|]. cbn [map aggregate_add shifted_row]. destruct (sample_eqb s' s); [reflexivity|]. rewrite IH. reflexivity. }
  unfold aggregate. change (@nil srow) with (map (shifted_row c) []) at 1. generalize (@nil srow). induction l as [|r l IH]; intros a; [reflexivity|].
  cbn [map fold_left]. rewrite <- IH. f_equal. apply A.
Qed.
Lemma prepared_of p ls orig : well_indexed p ls -> to_bqm 1 p = Ok orig -> exists lin adj,
  fill_linear p (b_linear (bqm_to_spin orig)) (repeat 0%Qc (length (b_linear (bqm_to_spin orig)))) = Ok lin /\
  fill_adj p (bqm_to_spin orig) (bqm_variables (bqm_to_spin orig)) (repeat [] (length (b_linear (bqm_to_spin orig)))) = Ok adj /\
  prepared p ls orig (bqm_to_spin orig) lin adj.
Proof.
  intros HW EB. pose proof (well_indexed_maps p ls HW) as HM. destruct HW as (ND & _ & _ & HO). destruct (to_bqm_spec _ _ _ EB) as (_ & W & HV & _).
  pose proof (to_spin_wf _ W) as WB. set (b := bqm_to_spin orig) in *.
  assert (VI : forall l, In l (bqm_variables b) <-> In l ls) by (intros l; unfold b; rewrite to_spin_vars, HO; apply HV).
  assert (HN : length (b_linear b) = length ls).
  { assert (length (bqm_variables b) = length (b_linear b)) by (unfold bqm_variables, dkeys; apply map_length). rewrite <- H. destruct WB as (W1 & _).
    apply Nat.le_antisymm; apply NoDup_incl_length; auto; intros l; apply VI. }
  destruct (fill_linear_total p ls HM (b_linear b) (repeat 0%Qc (length (b_linear b)))) as [lin EL]; [rewrite repeat_length; auto|intros l HI; apply VI; exact HI|].
  destruct (fill_adj_total p ls HM b (bqm_variables b) (repeat [] (length (b_linear b)))) as [adj EA]; [rewrite repeat_length; auto|intros l; apply VI| |].
  { intros l a HI. apply in_map_iff in HI. destruct HI as ([a' c] & <- & HI). apply adj_in in HI. destruct WB as (_ & _ & W3). apply VI.
    destruct HI as [HI|HI]; apply W3 in HI; tauto. }
  exists lin, adj. split; auto. split; auto. split; auto. intros l HI. apply HO. exact HI.
Qed.
Lemma empty_iff p ls : well_indexed p ls -> (Nat.eqb (length (p_linear p)) 0 && Nat.eqb (length (p_quad p)) 0 = true <-> ls = []).
Proof.
  intros (_ & _ & _ & HO). split.
  - intros E. apply andb_true_iff in E. destruct E as [E1 E2]. apply Nat.eqb_eq in E1, E2. apply length_zero_iff_nil in E1, E2. destruct ls as [|l ls]; auto.
    exfalso. destruct (proj1 (HO l) (or_introl eq_refl)) as [H|(a & b & H & _)]; [rewrite E1 in H|rewrite E2 in H]; destruct H.
  - intros ->. destruct (p_linear p) as [|[l c] r] eqn:E1.
    + destruct (p_quad p) as [|[[u v] c] r] eqn:E2; [reflexivity|]. exfalso. apply (proj2 (HO u)). right. exists u, v. rewrite E2. split; [left; reflexivity|auto].
    + exfalso. apply (proj2 (HO l)). left. rewrite E1. left. reflexivity.
Qed.
(** The general statement, with the initial states of the two calls given as spins. *)
Lemma landscape_solve w p q ls o o' c : world_ok w -> well_indexed p ls -> well_indexed q ls -> no_loops p -> no_loops q ->
  (forall s, spin s -> spin_energy q s = (spin_energy p s + c)%Qc) -> legal_states p o ->
  with_states None o' = with_states None o -> length (init_list o') = length (init_list o) -> start_states q o' = start_states p o ->
  match result w p o with
  | Err e => result w q o' = Err e
  | Ok u => exists u', result w q o' = Ok u' /\ out_reads u' = map (shifted_read c (c - qz 2 * (p_offset q - p_offset p))%Qc) (out_reads u) /\
      out_set u = sampleset (is_ising (p_mtype p)) (out_reads u) /\ out_set u' = sampleset (is_ising (p_mtype q)) (out_reads u')
  end.
Proof.
  intros (W1 & W2) WP WQ LP LQ EN LS HO HI HST. unfold result, solve.
  assert (CA : check_args q o' = check_args p o).
  { unfold check_args, has_init. rewrite HI. unfold with_states in HO. inversion HO.
    assert (EE : Nat.eqb (length (p_linear q)) 0 && Nat.eqb (length (p_quad q)) 0 = Nat.eqb (length (p_linear p)) 0 && Nat.eqb (length (p_quad p)) 0).
    { apply Bool.eq_true_iff_eq. rewrite (empty_iff p ls WP), (empty_iff q ls WQ). tauto. }
    rewrite EE. reflexivity. }
  assert (OS : o_seed o' = o_seed o) by (unfold with_states in HO; inversion HO; auto). rewrite CA, OS.
  destruct (check_args p o) as [[]|]; [|reflexivity]. destruct (pick_rng w (o_seed o)) as [g|] eqn:EG; [|reflexivity].
  assert (RG : rng_ok g).
  { unfold pick_rng in EG. destruct (o_seed o) as [z|]; [|inversion EG; subst; auto]. destruct (Z.eqb z 0); [inversion EG; subst; auto|]. destruct (z <? 0)%Z; inversion EG; subst; auto. }
  destruct (proj2 (proj1 (C37_succeeds_iff 1 p)) LP) as [orig EB]. destruct (proj2 (proj1 (C37_succeeds_iff 1 q)) LQ) as [orig' EB']. rewrite EB, EB'. cbn zeta.
  destruct (prepared_of _ _ _ WP EB) as (lin & adj & E1 & E2 & PP). destruct (prepared_of _ _ _ WQ EB') as (lin' & adj' & E1' & E2' & PQ).
  cbn [snd]. rewrite E1, E2, E1', E2'. cbn [rbind].
  assert (IN : forall r orig0 o0, to_bqm 1 r = Ok orig0 ->
    (if has_init o0 then map Some (match (if negb (b_spin orig0) && has_init o0 then Some (map to_spin_state (init_list o0)) else o_init o0) with Some l => l | None => [] end)
     else repeat None (Z.to_nat (o_reads o0))) = start_states r o0 /\ b_spin orig0 = is_ising (p_mtype r)).
  { intros r orig0 o0 EB0. destruct (to_bqm_spec _ _ _ EB0) as (_ & _ & _ & _ & _ & H6 & _). rewrite H6. split; [|destruct (p_mtype r); reflexivity].
    unfold start_states. destruct (has_init o0) eqn:EI; [|reflexivity]. rewrite andb_true_r. destruct (p_mtype r); cbn [negb]; [|reflexivity].
    unfold init_list. destruct (o_init o0); reflexivity. }
  destruct (IN _ _ o EB) as [I1 I2]. destruct (IN _ _ o' EB') as [I1' I2']. rewrite I1, I1', I2, I2', HST.
  rewrite (same_reads p q ls orig _ orig' _ lin lin' adj adj' c PP PQ EN w g o o' RG HO).
  - destruct (reads w g o p orig _ lin adj (start_states p o) []) as [l|]; [|reflexivity]. cbn [on_ok rbind].
    eexists. split; [reflexivity|]. cbn [out_reads out_set]. split; [reflexivity|]. split; reflexivity.
  - intros s0 HS x HL ST. apply (start_spins p ls o s0 x WP LS HS HL ST).
Qed.

(** ** C119 *)
Lemma spin_lawful t s : spin s -> lawful t (match t with Ising => s | Qubo => to_binary s end).
Proof.
  intros HS. destruct t; [exact HS|]. intros l. unfold to_binary. destruct (HS l) as [-> | ->]; [left|right]; apply Qc_is_canon; reflexivity.
Qed.
(** Two physical models of the same type with the same variables in the same index order. If the energy of every legal assignment
    differs by the constant [c], the solver returns the same samples with the same numbers of
    occurrences, the same temperature and acceptance histories, and energies that differ by [c]; and if it raises for one model, it raises the same exception
    for the other. Nothing else in the model matters. *)
Theorem C119_landscape : forall w p q ls o c, world_ok w -> well_indexed p ls -> well_indexed q ls -> no_loops p -> no_loops q ->
  p_mtype q = p_mtype p -> (forall a, lawful (p_mtype p) a -> energy_physical a q = (energy_physical a p + c)%Qc) -> legal_states p o ->
  match result w p o with
  | Err e => result w q o = Err e
  | Ok u => exists u', result w q o = Ok u' /\ outcome_shifted c (c - qz 2 * (p_offset q - p_offset p)) u u'
  end.
Proof.
  intros w p q ls o c WO WP WQ LP LQ ET EN LS.
  pose proof (landscape_solve w p q ls o o c WO WP WQ LP LQ) as H.
  destruct (result w p o) as [u|e]; [destruct H as (u' & E & R & S & S')|apply H]; auto.
  - intros s HS. unfold spin_energy. rewrite ET. pose proof (spin_lawful (p_mtype p) s HS) as L. destruct (p_mtype p); apply EN; exact L.
  - unfold start_states. rewrite ET. reflexivity.
  - exists u'. split; [exact E|]. unfold outcome_shifted. rewrite S', S, R, ET. split; [|rewrite !map_map; auto].
    unfold sampleset. rewrite shifted_aggregate, !map_map. apply map_ext. intros [[s e] k]. reflexivity.
  - intros s HS. unfold spin_energy. rewrite ET. pose proof (spin_lawful (p_mtype p) s HS) as L. destruct (p_mtype p); apply EN; exact L.
  - unfold start_states. rewrite ET. reflexivity.
Qed.
(** In particular two models that compare equal are solved identically. *)
Theorem C119_equal : forall w p q ls o, world_ok w -> well_indexed p ls -> well_indexed q ls -> no_loops p -> no_loops q ->
  proper_dicts p -> proper_dicts q -> physical_eqb p q = true -> legal_states p o -> result w q o = result w p o.
Proof.
  intros w p q ls o WO WP WQ LP LQ PP PQ E LS. pose proof (landscape_solve w p q ls o o 0 WO WP WQ LP LQ) as H.
  assert (EE : forall s, energy_physical s q = energy_physical s p) by (intros s; symmetry; apply C64_equal_energy; auto).
  pose proof (proj1 (C64_equal_iff p q PP PQ) E) as (ET & _ & _ & EO & _).
  assert (EN : forall s, spin s -> spin_energy q s = (spin_energy p s + 0)%Qc) by (intros s _; unfold spin_energy; rewrite <- ET; destruct (p_mtype p); rewrite EE; ring).
  assert (ST : start_states q o = start_states p o) by (unfold start_states; rewrite ET; reflexivity).
  specialize (H EN LS eq_refl eq_refl ST). destruct (result w p o) as [u|e]; [|exact H]. destruct H as (u' & E' & R & S & S'). rewrite E'. f_equal.
  assert (ER : out_reads u' = out_reads u).
  { rewrite R, EO. rewrite <- (map_id (out_reads u)) at 2. apply map_ext. intros [s e eh th ah]. unfold shifted_read. cbn. f_equal; [ring|].
    rewrite <- (map_id eh) at 2. apply map_ext. intros x. change (qz 2) with (1 + 1)%Qc. ring. }
  destruct u as [us ur], u' as [us' ur']. cbn [out_reads out_set] in *. rewrite S, S', ER, ET. reflexivity.
Qed.

(** ** C120 *)
(** A sample of a QUBO as a sample of spins. *)
Definition as_spins (s : dict string Z) : dict string Z := map (fun e => (fst e, 2 * snd e - 1)%Z) s.
(** The values of a state are all 0 or 1. *)
Definition bits (s : dict string Z) : Prop := Forall (fun e => snd e = 0%Z \/ snd e = 1%Z) s.
Lemma bits_spins s : bits s -> to_spin_state s = as_spins s.
Proof. intros B. apply map_ext_in. intros [l z] HI. unfold bits in B. rewrite Forall_forall in B. destruct (B _ HI) as [-> | ->]; reflexivity. Qed.
Lemma convert_as_spins s : Forall (fun e => spinz (snd e)) s -> as_spins (convert_sample false s) = s.
Proof.
  intros F. unfold as_spins, convert_sample. rewrite map_map. rewrite <- (map_id s) at 2. apply map_ext_in. intros [l z] HI.
  rewrite Forall_forall in F. destruct (F _ HI) as [H|H]; cbn [snd] in H; subst z; reflexivity.
Qed.
Lemma aggregate_samples (P : dict string Z -> Prop) l : Forall (fun r => P (d_sample r)) l -> Forall (fun r : srow => P (fst (fst r))) (aggregate l).
Proof.
  unfold aggregate. assert (H : Forall (fun r : srow => P (fst (fst r))) []) by constructor. revert H. generalize (@nil srow).
  induction l as [|r l IH]; intros a HA HL; cbn [fold_left]; [exact HA|]. inversion HL; subst. apply IH; auto. clear IH HL.
  induction a as [|[[s e] k] a IHa]; cbn [aggregate_add]; [repeat constructor; auto|]. inversion HA; subst.
  destruct (sample_eqb s (d_sample r)); constructor; auto.
Qed.
(** A QUBO [p] and an Ising model [q] with the same variables in the same index order. If the energies of corresponding assignments
    differ by the constant [c], the solver returns corresponding samples with the same
    numbers of occurrences, the same temperature and acceptance histories, and energies that differ by [c]; and if it raises for one, it raises the
    same exception for the other. Initial states are given to the Ising model as spins. *)
Theorem C120_types : forall w p q ls o c, world_ok w -> well_indexed p ls -> well_indexed q ls -> no_loops p -> no_loops q ->
  p_mtype p = Qubo -> p_mtype q = Ising -> (forall s, spin s -> energy_physical s q = (energy_physical (to_binary s) p + c)%Qc) ->
  (forall s, In s (init_list o) -> bits s) ->
  match result w p o with
  | Err e => result w q (with_states (option_map (map as_spins) (o_init o)) o) = Err e
  | Ok u => exists u', result w q (with_states (option_map (map as_spins) (o_init o)) o) = Ok u' /\
      out_set u' = map (fun r => match r with (s, e, k) => (as_spins s, e + c, k)%Qc end) (out_set u) /\
      map d_ahist (out_reads u') = map d_ahist (out_reads u) /\
      map d_thist (out_reads u') = map d_thist (out_reads u) /\
      map d_ehist (out_reads u') = map (map (fun e => e + (c - qz 2 * (p_offset q - p_offset p)))%Qc) (map d_ehist (out_reads u))
  end.
Proof.
  intros w p q ls o c WO WP WQ LP LQ TP TQ EN BT. set (o' := with_states (option_map (map as_spins) (o_init o)) o).
  assert (IL : init_list o' = map as_spins (init_list o)) by (unfold init_list, o', with_states; cbn; destruct (o_init o); reflexivity).
  assert (LS : legal_states p o).
  { intros s l z HI _ HD. rewrite TP. specialize (BT s HI). unfold bits in BT. rewrite Forall_forall in BT. apply dget_in in HD. exact (BT _ HD). }
  pose proof (landscape_solve w p q ls o o' c WO WP WQ LP LQ) as H.
  assert (H1 : forall s, spin s -> spin_energy q s = (spin_energy p s + c)%Qc) by (intros s HS; unfold spin_energy; rewrite TP, TQ; apply EN; exact HS).
  assert (H2 : length (init_list o') = length (init_list o)) by (rewrite IL, map_length; reflexivity).
  assert (H3 : start_states q o' = start_states p o).
  { unfold start_states, has_init. rewrite H2, TP, TQ, IL. destruct (negb _); [|reflexivity]. f_equal. apply map_ext_in. intros s HI. symmetry. apply bits_spins. auto. }
  specialize (H H1 LS eq_refl H2 H3). destruct (result w p o) as [u|e] eqn:ER; [|exact H]. destruct H as (u' & E & R & S & S'). exists u'. split; [exact E|].
  rewrite S', S, R, TP, TQ. split; [|rewrite !map_map; auto]. unfold sampleset. rewrite shifted_aggregate, !map_map. cbn [is_ising].
  assert (SP : Forall (fun r => Forall (fun e => spinz (snd e)) (d_sample r)) (out_reads u)).
  { destruct (solve_final w p ls o u WP WO LS ER) as (_ & xs & F1 & F2). clear - F1 F2. revert F2. induction F1 as [|r x l xs (HL & HD & _) F IH]; intros F2; constructor; inversion F2; subst; auto.
    rewrite HD. apply Forall_forall. intros [l0 z] HI. apply in_combine_r in HI. rewrite Forall_forall in H1. apply H1. exact HI. }
  apply aggregate_samples in SP. apply map_ext_in. intros [[s e] k] HI. rewrite Forall_forall in SP. specialize (SP _ HI). cbn [fst] in SP.
  cbn [shifted_row]. rewrite (convert_as_spins s SP). f_equal. f_equal. unfold convert_sample. rewrite <- (map_id s) at 2. apply map_ext. intros [l z]; reflexivity.
Qed.

(** ** From the logical model on *)
Lemma same_filter (l : list string) f g : (forall x, In x (filter f l) <-> In x (filter g l)) -> filter f l = filter g l.
Proof.
  intros H. assert (G : forall x, In x l -> f x = g x).
  { intros x HI. specialize (H x). rewrite !filter_In in H. destruct (f x), (g x); auto; exfalso; intuition discriminate. }
  clear H. induction l as [|x l IH]; cbn [filter]; [reflexivity|]. rewrite (G x (or_introl eq_refl)), IH; [reflexivity|]. intros y HI. apply G. right. exact HI.
Qed.
Lemma coefficients_occur p q l : same_coefficients p q -> occurs p l -> occurs q l.
Proof.
  intros [H1 H2] [H|(a & b & H & E)].
  - left. apply dget_some_in in H. destruct H as [v H]. rewrite H1 in H. apply dget_some_in. eauto.
  - right. exists a, b. split; [|exact E]. apply dget_some_in in H. destruct H as [v H]. rewrite H2 in H. apply dget_some_in. eauto.
Qed.
(** Two logical models of the same type that declare the same variables. If their objectives (interactions and
    penalties of the constraints) differ by a constant, whatever calls built them and in whatever order, the solver treats them alike: the same samples with the
    same numbers of occurrences, the same temperature and acceptance histories, and energies that differ by a constant. *)
Theorem C119_models : forall ev evs fd m1 n1 p ev' evs' fd' m2 n2 q k w o,
  reachable m1 -> m_len m1 = length (m_rows m1) -> Forall constr_ok (dvals (m_constrs m1)) -> NoDup (all_labels (m_vars m1)) ->
  to_physical ev evs fd m1 = (n1, Ok p) -> covered m1 p ->
  reachable m2 -> m_len m2 = length (m_rows m2) -> Forall constr_ok (dvals (m_constrs m2)) ->
  to_physical ev' evs' fd' m2 = (n2, Ok q) -> covered m2 q ->
  m_mtype m1 = m_mtype m2 -> all_labels (m_vars m1) = all_labels (m_vars m2) ->
  (forall a, lawful (m_mtype m1) a -> objective fd m1 a = (objective fd' m2 a + k)%Qc) ->
  world_ok w -> legal_states p o ->
  match result w p o with
  | Err e => result w q o = Err e
  | Ok u => exists u' c h, result w q o = Ok u' /\ outcome_shifted c h u u'
  end.
Proof.
  intros ev evs fd m1 n1 p ev' evs' fd' m2 n2 q k w o R1 L1 C1 ND E1 V1 R2 L2 C2 E2 V2 ET EV EO WO LS.
  pose proof (C105_objective _ _ _ _ _ _ _ _ _ _ _ _ k R1 L1 C1 E1 R2 L2 C2 E2 ET EO) as SC.
  destruct (phys_facts _ _ _ _ _ _ R1 L1 E1) as (T & N1 & N2 & _ & _ & O). destruct (phys_facts _ _ _ _ _ _ R2 L2 E2) as (T' & N1' & N2' & _ & _ & O').
  assert (SC' : same_coefficients q p) by (destruct SC; split; intros; symmetry; auto).
  assert (ND2 : NoDup (all_labels (m_vars m2))) by (rewrite <- EV; exact ND).
  destruct (C13_index_bijection _ _ _ _ _ _ L1 ND E1) as (ls & P1 & (f & P2) & _ & P4 & P5 & P6 & P7).
  destruct (C13_index_bijection _ _ _ _ _ _ L2 ND2 E2) as (ls' & Q1 & (f' & Q2) & _ & Q4 & Q5 & Q6 & Q7).
  assert (I1 : forall l, In l ls <-> occurs p l) by (intros l; rewrite P7; split; [tauto|]; intros OC; destruct (V1 l OC); auto).
  assert (I2 : forall l, In l ls' <-> occurs q l) by (intros l; rewrite Q7; split; [tauto|]; intros OC; destruct (V2 l OC); auto).
  assert (EL : ls = ls').
  { rewrite P2, Q2, <- EV. apply same_filter. intros x. rewrite EV at 2. rewrite <- P2, <- Q2, I1, I2. split; apply coefficients_occur; auto. }
  clear P2 Q2 P7 Q7. subst ls'.
  assert (WP : well_indexed p ls) by (split; auto; split; auto; split; [apply dvals_nth; auto|auto]).
  assert (WQ : well_indexed q ls) by (split; auto; split; auto; split; [apply dvals_nth; auto|auto]).
  assert (NLo : forall r, ordered_pairs r -> no_loops r).
  { intros r OR l HI. specialize (OR l l HI). rewrite TspProofs.label_irrefl in OR. discriminate. }
  pose proof (C119_landscape w p q ls o (p_offset q - p_offset p) WO WP WQ (NLo p O) (NLo q O')) as H.
  assert (TT : p_mtype q = p_mtype p) by congruence.
  assert (EN : forall a, lawful (p_mtype p) a -> energy_physical a q = (energy_physical a p + (p_offset q - p_offset p))%Qc).
  { intros a _. rewrite !energy_physical_dsum. destruct SC as [S1 S2].
    rewrite (dsum_same a (p_linear p) (p_linear q) N1 N1' S1). rewrite (dsum_same (fun ab => a (fst ab) * a (snd ab))%Qc (p_quad p) (p_quad q) N2 N2' (fun ab => match ab with (x, y) => S2 x y end)). ring. }
  specialize (H TT EN LS). destruct (result w p o) as [u|e]; [|exact H]. destruct H as (u' & E & S). eauto.
Qed.

(** ** The hypotheses can be met *)
(** The model [phys2], with everything listed in another order. *)
Definition phys2_reordered (t : mtype) : physical :=
  mkPhysical t [("b", qz (-2)); ("a", qz 1)] [(("a", "b"), qz 3)] (qz 5) ["b"; "a"] [("a", 0); ("b", 1)] [(0, "a"); (1, "b")].
(** The QUBO [phys2 Qubo] in terms of spins (the constant is left out). *)
Definition phys2_spins : physical :=
  mkPhysical Ising [("a", qfrac 5 4); ("b", qfrac (-1) 4)] [(("a", "b"), qfrac 3 4)] 0 ["a"; "b"] [("a", 0); ("b", 1)] [(0, "a"); (1, "b")].
Lemma two_indexed p : p_l2i p = [("a", 0); ("b", 1)] -> p_i2l p = [(0, "a"); (1, "b")] -> (forall l, occurs p l <-> l = "a" \/ l = "b") -> well_indexed p ["a"; "b"].
Proof.
  intros E1 E2 HO. destruct (phys2_indexed Ising) as (N & G & _). split; auto. rewrite E1, E2. split; [exact G|]. split; [reflexivity|].
  intros l. rewrite HO. simpl. intuition.
Qed.
Lemma step_ok : world_ok step_world.
Proof. split; [|intros z]; apply const_gen_ok. Qed.
Example C119_hyps : world_ok step_world /\ well_indexed (phys2 Ising) ["a"; "b"] /\ well_indexed (phys2_reordered Ising) ["a"; "b"] /\ no_loops (phys2 Ising) /\ no_loops (phys2_reordered Ising) /\ proper_dicts (phys2 Ising) /\ proper_dicts (phys2_reordered Ising) /\ physical_eqb (phys2 Ising) (phys2_reordered Ising) = true /\ phys2 Ising <> phys2_reordered Ising /\ legal_states (phys2 Ising) options0 /\ (forall a, lawful Ising a -> energy_physical a (phys2_reordered Ising) = (energy_physical a (phys2 Ising) + 0)%Qc) /\ okshape (result step_world (phys2 Ising) options0) = [(1, [2; 1; 1], 3); (1, [2; 1; 1], 3)].
Proof.
  split; [apply step_ok|]. split; [apply phys2_indexed|]. split.
  { apply two_indexed; auto. intros l. unfold occurs. cbn. split.
    - intros [[H|[H|[]]]|(a & b & [H|[]] & E)]; auto. inversion H; subst. auto.
    - intros [-> | ->]; auto. }
  split; [intros l [H|[]]; inversion H; subst; discriminate|]. split; [intros l [H|[]]; inversion H; subst; discriminate|].
  split; [unfold proper_dicts; cbn; repeat split; repeat constructor; simpl; intuition discriminate|]. split; [unfold proper_dicts; cbn; repeat split; repeat constructor; simpl; intuition discriminate|].
  split; [reflexivity|]. split; [discriminate|]. split; [apply legal0|]. split; [|vm_compute; reflexivity].
  intros a _. unfold energy_physical, phys2_reordered, phys2. cbn [p_linear p_quad p_offset map fst snd]. unfold qsum. cbn [fold_right]. ring.
Qed.
Example C120_hyps : world_ok step_world /\ well_indexed (phys2 Qubo) ["a"; "b"] /\ well_indexed phys2_spins ["a"; "b"] /\ no_loops (phys2 Qubo) /\ no_loops phys2_spins /\ p_mtype (phys2 Qubo) = Qubo /\ p_mtype phys2_spins = Ising /\ (forall s, spin s -> energy_physical s phys2_spins = (energy_physical (to_binary s) (phys2 Qubo) + qfrac (-19) 4)%Qc) /\ (forall s, In s (init_list options1) -> bits s) /\ okshape (result step_world (phys2 Qubo) options1) = okshape (result step_world phys2_spins (with_states (option_map (map as_spins) (o_init options1)) options1)) /\ length (okshape (result step_world (phys2 Qubo) options1)) = 1.
Proof.
  split; [apply step_ok|]. split; [apply phys2_indexed|]. split.
  { apply two_indexed; auto. intros l. unfold occurs. cbn. split.
    - intros [[H|[H|[]]]|(a & b & [H|[]] & E)]; auto. inversion H; subst. auto.
    - intros [-> | ->]; auto. }
  split; [intros l [H|[]]; inversion H; subst; discriminate|]. split; [intros l [H|[]]; inversion H; subst; discriminate|].
  split; [reflexivity|]. split; [reflexivity|]. split.
  { intros s HS. unfold energy_physical, phys2_spins, phys2, to_binary. cbn [p_linear p_quad p_offset map fst snd].
    destruct (HS "a") as [-> | ->], (HS "b") as [-> | ->]; apply Qc_is_canon; vm_compute; reflexivity. }
  split; [intros s [<-|[]]; constructor; [left; reflexivity|constructor; [right; reflexivity|constructor]]|]. split; vm_compute; reflexivity.
Qed.
Definition phys_of (m : lmodel) : physical :=
  match to_physical env0 evs0 [] m with (_, Ok p) => p | _ => phys2 Ising end.
Definition coveredb (m : lmodel) (p : physical) : bool :=
  forallb (fun l => existsb (String.eqb l) (all_labels (m_vars m)) && negb (existsb (String.eqb l) (dkeys (m_deleted m))))
    (dkeys (p_linear p) ++ map fst (dkeys (p_quad p)) ++ map snd (dkeys (p_quad p))).
Lemma coveredb_ok m p : coveredb m p = true -> covered m p.
Proof.
  unfold coveredb. rewrite forallb_forall. intros H l OC.
  assert (HI : In l (dkeys (p_linear p) ++ map fst (dkeys (p_quad p)) ++ map snd (dkeys (p_quad p)))).
  { destruct OC as [HI|(a & b & HI & [-> | ->])]; apply in_or_app; [left; exact HI| |]; right; apply in_or_app; [left|right]; [apply (in_map fst) in HI|apply (in_map snd) in HI]; exact HI. }
  specialize (H l HI). apply andb_true_iff in H. destruct H as [H1 H2]. split.
  - apply existsb_exists in H1. destruct H1 as (x & HX & E). apply String.eqb_eq in E. subst. exact HX.
  - intros HD. apply negb_true_iff in H2. assert (existsb (String.eqb l) (dkeys (m_deleted m)) = true) by (apply existsb_exists; exists l; split; [exact HD|apply String.eqb_refl]). congruence.
Qed.
(** The same objective, once with interactions and once with a constraint (the other hypotheses are met by [C105_hyps]). *)
Example C119_models_hyps : covered by_terms (phys_of by_terms) /\ covered by_constraint (phys_of by_constraint) /\
  NoDup (all_labels (m_vars by_terms)) /\ all_labels (m_vars by_terms) = all_labels (m_vars by_constraint) /\
  snd (to_physical env0 evs0 [] by_terms) = Ok (phys_of by_terms) /\ snd (to_physical env0 evs0 [] by_constraint) = Ok (phys_of by_constraint) /\
  legal_states (phys_of by_terms) options0 /\
  okshape (result step_world (phys_of by_terms) options0) = okshape (result step_world (phys_of by_constraint) options0) /\
  length (okshape (result step_world (phys_of by_terms) options0)) = 2.
Proof.
  split; [apply coveredb_ok; vm_compute; reflexivity|]. split; [apply coveredb_ok; vm_compute; reflexivity|].
  split; [apply nodupb_ok; vm_compute; reflexivity|]. split; [vm_compute; reflexivity|]. split; [vm_compute; reflexivity|]. split; [vm_compute; reflexivity|].
  split; [intros s l z []|]. split; vm_compute; reflexivity.
Qed.
Print Assumptions C119_landscape.
Print Assumptions C119_equal.
Print Assumptions C120_types.
Print Assumptions C119_models.
