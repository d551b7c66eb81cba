(** * PropsReads: C132 (more reads only add reads) and C133 (where a read starts and where a cold read ends). *)
From Verif Require Import PyBase PyLemmas Numbers Constraint LogicalModel Spec Physical BqmProofs Solver SolverSpec SolverProofs PropsSolver.
From Coq Require Import Permutation.
Open Scope string_scope.
Open Scope list_scope.

(** The same call with [k] reads (and the first [k] initial states, if there are any). *)
Definition fewer (k : nat) (o : options) : options :=
  mkOptions (Z.of_nat k) (o_sweeps o) (o_rate o) (o_temp o) (option_map (firstn k) (o_init o)) (o_reverse o) (o_pickup o) (o_seed o).

(** ** C132 *)
Lemma sweeps_fewer k w g o lin adj n rs ks : forall st, sweeps w g (fewer k o) lin adj n rs st ks = sweeps w g o lin adj n rs st ks.
Proof.
  induction ks as [|j ks IH]; intros st; cbn [sweeps]; auto.
  change (sweep_once w g (fewer k o) lin adj n rs st j) with (sweep_once w g o lin adj n rs st j).
  destruct (sweep_once w g o lin adj n rs st j); cbn [rbind]; auto.
Qed.
Lemma annealing_fewer k w g o p orig b lin adj s0 tr : annealing w g (fewer k o) p orig b lin adj s0 tr = annealing w g o p orig b lin adj s0 tr.
Proof.
  unfold annealing. destruct (initial_spins g p b s0 tr); cbn [rbind]; auto. destruct (bqm_energy _ _); cbn [rbind]; auto.
  change (o_reverse (fewer k o)) with (o_reverse o). change (o_temp (fewer k o)) with (o_temp o). change (o_sweeps (fewer k o)) with (o_sweeps o).
  destruct (if rev_truthy _ then _ else _); cbn [rbind]; auto. destruct (_ <? 0)%Z; auto. rewrite sweeps_fewer. auto.
Qed.
Lemma reads_fewer k w g o p orig b lin adj inits : forall tr, reads w g (fewer k o) p orig b lin adj inits tr = reads w g o p orig b lin adj inits tr.
Proof.
  induction inits as [|s0 r IH]; intros tr; cbn [reads]; auto. rewrite annealing_fewer. destruct (annealing _ _ _ _ _ _ _ _ _ _); cbn [rbind]; auto. rewrite IH. auto.
Qed.
Lemma reads_firstn w g o p orig b lin adj inits : forall k tr l, reads w g o p orig b lin adj inits tr = Ok l -> reads w g o p orig b lin adj (firstn k inits) tr = Ok (firstn k l).
Proof.
  induction inits as [|s0 r IH]; intros k tr l H.
  - cbn [reads] in H. inversion H; subst. rewrite !firstn_nil. reflexivity.
  - destruct k as [|k]; [reflexivity|]. cbn [firstn reads] in *. apply rbind_ok in H. destruct H as ([d tr'] & HA & H). rewrite HA. cbn [rbind snd fst] in *.
    apply rbind_ok in H. destruct H as (l' & HR & H). inversion H; subst. rewrite (IH k _ _ HR). reflexivity.
Qed.
(** Which reads a call makes. *)
Lemma result_reads w p o out : result w p o = Ok out <->
  check_args p o = Ok tt /\ exists g orig lin adj l, pick_rng w (o_seed o) = Ok g /\ to_bqm 1 p = Ok orig /\
    fill_linear p (b_linear (bqm_to_spin orig)) (repeat 0%Qc (length (b_linear (bqm_to_spin orig)))) = Ok lin /\
    fill_adj p (bqm_to_spin orig) (bqm_variables (bqm_to_spin orig)) (repeat [] (length (b_linear (bqm_to_spin orig)))) = Ok adj /\
    reads w g o p orig (bqm_to_spin orig) lin adj (start_states p o) [] = Ok l /\
    out = mkOutcome (sampleset (is_ising (p_mtype p)) l) l.
Proof.
  unfold result, solve. destruct (check_args p o) as [[]|] eqn:EC; [|split; [discriminate|intros [HX _]; discriminate]].
  destruct (pick_rng w (o_seed o)) as [g|] eqn:EG; [|split; [discriminate|intros (_ & g & orig & lin & adj & l & HX & _); discriminate]].
  destruct (to_bqm 1 p) as [orig|] eqn:EB; [|split; [discriminate|intros (_ & g' & orig & lin & adj & l & _ & HX & _); discriminate]].
  cbn [snd]. cbv zeta.
  assert (ET : b_spin orig = is_ising (p_mtype p)) by (destruct (to_bqm_spec _ _ _ EB) as (_ & _ & _ & _ & _ & H6 & _); exact H6).
  assert (EI : (if has_init o then map Some match (if negb (b_spin orig) && has_init o then Some (map to_spin_state (init_list o)) else o_init o) with Some l => l | None => [] end
                else repeat None (Z.to_nat (o_reads o))) = start_states p o).
  { unfold start_states. rewrite ET. destruct (has_init o); [|reflexivity]. rewrite andb_true_r. destruct (p_mtype p); cbn [is_ising negb]; [|reflexivity].
    unfold init_list. destruct (o_init o); reflexivity. }
  rewrite EI, ET. split.
  - intros H. apply rbind_ok in H. destruct H as (lin & HL & H). apply rbind_ok in H. destruct H as (adj & HA & H). apply rbind_ok in H. destruct H as (l & HR & H).
    inversion H; subst out. split; auto. exists g, orig, lin, adj, l. auto 10.
  - intros (_ & g' & orig' & lin & adj & l & HG & HB & HL & HA & HR & ->). inversion HG; inversion HB; subst g' orig'. rewrite HL. cbn [rbind]. rewrite HA. cbn [rbind]. rewrite HR. reflexivity.
Qed.
Lemma start_fewer k p o : check_args p o = Ok tt -> (Z.of_nat k <= o_reads o)%Z -> start_states p (fewer k o) = firstn k (start_states p o) /\ check_args p (fewer k o) = Ok tt.
Proof.
  intros HC HK. assert (EI : init_list (fewer k o) = firstn k (init_list o)) by (unfold init_list, fewer; cbn [o_init]; destruct (o_init o); cbn [option_map]; [reflexivity|rewrite firstn_nil; reflexivity]).
  assert (HN : has_init o = true -> Z.of_nat (length (init_list o)) = o_reads o).
  { intros HI. unfold check_args in HC. destruct (_ && _); [discriminate|]. rewrite HI in HC. cbn [andb] in HC. destruct (Z.eqb_spec (Z.of_nat (length (init_list o))) (o_reads o)); [auto|discriminate]. }
  split.
  - unfold start_states. unfold has_init in *. rewrite EI. destruct (init_list o) as [|s r] eqn:EL.
    + rewrite firstn_nil. cbn [length Nat.eqb negb fewer o_reads]. rewrite Nat2Z.id. replace (Z.to_nat (o_reads o)) with (k + (Z.to_nat (o_reads o) - k)) by lia.
      rewrite repeat_app, firstn_app, repeat_length, Nat.sub_diag, firstn_O, app_nil_r. symmetry. rewrite <- (repeat_length (@None (dict string Z)) k) at 1. apply firstn_all.
    + destruct k as [|k]; [reflexivity|]. cbn [length Nat.eqb negb]. change (length (firstn (S k) (s :: r))) with (S (length (firstn k r))). cbn [Nat.eqb negb].
      rewrite firstn_map. f_equal. destruct (p_mtype p); [reflexivity|]. rewrite firstn_map. reflexivity.
  - unfold check_args in *. destruct (_ && _); [discriminate|]. change (o_pickup (fewer k o)) with (o_pickup o). change (o_reverse (fewer k o)) with (o_reverse o).
    assert (E2 : has_init (fewer k o) && negb (Z.eqb (Z.of_nat (length (init_list (fewer k o)))) (o_reads (fewer k o))) = false).
    { unfold has_init in *. rewrite EI. destruct (init_list o) as [|s r] eqn:EL; [rewrite firstn_nil; reflexivity|]. specialize (HN eq_refl).
      rewrite firstn_length_le by lia. cbn [fewer o_reads]. rewrite Z.eqb_refl. apply andb_false_r. }
    rewrite E2. destruct (has_init o && _); [discriminate|]. exact HC.
Qed.
(** The reads of a call with fewer reads are the first reads of the call. *)
Theorem C132_prefix : forall w p o out k, result w p o = Ok out -> (Z.of_nat k <= o_reads o)%Z ->
  exists out', result w p (fewer k o) = Ok out' /\ out_reads out' = firstn k (out_reads out).
Proof.
  intros w p o out k H HK. apply result_reads in H. destruct H as (HC & g & orig & lin & adj & l & HG & HB & HL & HA & HR & ->).
  destruct (start_fewer k p o HC HK) as [ES EC]. exists (mkOutcome (sampleset (is_ising (p_mtype p)) (firstn k l)) (firstn k l)). split; [|reflexivity].
  apply result_reads. split; auto. exists g, orig, lin, adj, (firstn k l). repeat (split; auto). rewrite ES, reads_fewer. apply reads_firstn. auto.
Qed.
(** Rows are only added, at the end, and their counts only grow. *)
Definition grown (a b : srow) : Prop := fst a = fst b /\ snd a <= snd b.
Lemma aggregate_add_grown s e l : exists l1 l2, aggregate_add s e l = l1 ++ l2 /\ Forall2 grown l l1.
Proof.
  induction l as [|[[s' e'] c] r (l1 & l2 & E & F)]; [exists [], [(s, e, 1)]; split; auto|]. cbn [aggregate_add]. destruct (sample_eqb s' s).
  - exists ((s', e', S c) :: r), []. split; [rewrite app_nil_r; reflexivity|]. constructor; [split; cbn [fst snd]; auto|].
    clear. induction r; constructor; auto. split; auto.
  - exists ((s', e', c) :: l1), l2. split; [cbn [app]; rewrite E; reflexivity|]. constructor; auto. split; auto.
Qed.
Lemma aggregate_grown rs : forall l, exists l1 l2, fold_left (fun acc r => aggregate_add (d_sample r) (d_energy r) acc) rs l = l1 ++ l2 /\ Forall2 grown l l1.
Proof.
  induction rs as [|r rs IH]; intros l; cbn [fold_left].
  - exists l, []. split; [rewrite app_nil_r; reflexivity|]. induction l; constructor; auto. split; auto.
  - destruct (aggregate_add_grown (d_sample r) (d_energy r) l) as (a1 & a2 & EA & FA). destruct (IH (aggregate_add (d_sample r) (d_energy r) l)) as (b1 & b2 & EB & FB).
    rewrite EA in FB. apply Forall2_app_inv_l in FB. destruct FB as (c1 & c2 & FC & _ & EC). exists c1, (c2 ++ b2). split; [rewrite EB, EC, app_assoc; reflexivity|].
    clear - FA FC. revert c1 FC. induction FA as [|x y a b G F IH]; intros d1 HD; inversion HD; subst; constructor; auto. unfold grown in *. intuition (try congruence; lia).
Qed.
Theorem C132_set : forall w p o out out' k, result w p o = Ok out -> result w p (fewer k o) = Ok out' -> (Z.of_nat k <= o_reads o)%Z ->
  exists kept added, out_set out = kept ++ added /\
    Forall2 (fun r' r : srow => fst r' = fst r /\ snd r' <= snd r) (out_set out') kept.
Proof.
  intros w p o out out' k H H' HK. destruct (C132_prefix w p o out k H HK) as (out2 & H2 & ER). rewrite H' in H2. inversion H2; subst out2. clear H2.
  apply result_reads in H. destruct H as (_ & g & orig & lin & adj & l & _ & _ & _ & _ & _ & ->).
  apply result_reads in H'. destruct H' as (_ & g' & orig' & lin' & adj' & l' & _ & _ & _ & _ & _ & ->). cbn [out_reads out_set] in *. subst l'.
  unfold sampleset. destruct (aggregate_grown (skipn k l) (aggregate (firstn k l))) as (l1 & l2 & E & F).
  assert (EL : aggregate l = l1 ++ l2) by (rewrite <- E; unfold aggregate; rewrite <- fold_left_app, firstn_skipn; reflexivity).
  rewrite EL, map_app. eexists. eexists. split; [reflexivity|]. clear - F.
  induction F as [|[[s e] c] [[s' e'] c'] a b [G1 G2] F IH]; cbn [map]; constructor; auto. cbn [fst snd] in *. inversion G1; subst. auto.
Qed.
(** In particular the best energy does not get worse. *)
Theorem C132_best : forall w p o out out' k, result w p o = Ok out -> result w p (fewer k o) = Ok out' -> (Z.of_nat k <= o_reads o)%Z ->
  forall e, (forall s' e' c', In (s', e', c') (out_set out) -> (e <= e')%Qc) -> forall s' e' c', In (s', e', c') (out_set out') -> (e <= e')%Qc.
Proof.
  intros w p o out out' k H H' HK e HE s' e' c' HI. destruct (C132_set w p o out out' k H H' HK) as (kept & added & ES & F).
  destruct (Forall2_in_l _ _ _ _ F HI) as ([[s2 e2] c2] & HI2 & G1 & _). cbn [fst] in G1. inversion G1; subst. apply (HE s2 e2 c2). rewrite ES. apply in_or_app. auto.
Qed.
(** If the call with fewer reads raises, so does the call. *)
Theorem C132_raises : forall w p o k e, result w p (fewer k o) = Err e -> (Z.of_nat k <= o_reads o)%Z ->
  exists e', result w p o = Err e'.
Proof.
  intros w p o k e H HK. destruct (result w p o) as [out|e'] eqn:E; [|eauto]. destruct (C132_prefix w p o out k E HK) as (out' & H' & _). congruence.
Qed.

(** ** C133 *)
(** The read that starts from a given state. *)
Lemma given_read w p ls o out i r s : world_ok w -> well_indexed p ls -> legal_states p o -> result w p o = Ok out ->
  nth_error (init_list o) i = Some s -> nth_error (out_reads out) i = Some r ->
  exists x0 plan es x rs u, length x0 = length ls /\ Forall spinz x0 /\ length plan = Z.to_nat (o_sweeps o) /\
    Forall (fun v => (0 <= v)%Qc) rs /\ Forall (fun tp => Permutation (snd tp) (seq 0 (length ls))) plan /\ d_thist r = map fst plan /\
    annealed (vector_energy p) (w_boltz w) rs x0 0 plan es (d_ahist r) x u /\ d_sample r = combine ls x /\ d_energy r = vector_energy p x /\
    length x = length ls /\ Forall spinz x /\
    (forall l, In l ls -> value_of (convert_sample (is_ising (p_mtype p)) (combine ls x0)) l = value_of s l) /\
    vector_energy p x0 = energy_physical (value_of s) p.
Proof.
  intros WO HW HL H HI HR. destruct (solve_reads _ _ _ _ _ HW WO H) as (g & HG & HC & HF & _).
  assert (HST : nth_error (start_states p o) i = Some (Some (match p_mtype p with Ising => s | Qubo => to_spin_state s end))).
  { unfold start_states. assert (has_init o = true) as -> by (unfold has_init; destruct (init_list o); [destruct i; discriminate|reflexivity]).
    apply map_nth_error. destruct (p_mtype p); auto. apply map_nth_error. auto. }
  assert (HS : read_spec p ls w o (Some (match p_mtype p with Ising => s | Qubo => to_spin_state s end)) r).
  { clear - HF HST HR. revert i HST HR. induction HF; intros [|i] H1 H2; cbn [nth_error] in *; try discriminate; [inversion H1; inversion H2; subst; auto|eauto]. }
  destruct (rd_run _ _ _ _ _ _ HS) as (x0 & plan & es & acc & x & rs & u & A1 & A2 & A3 & A4 & A5 & A6 & A7 & A8 & AN & D1 & D2 & D3 & D4 & D5).
  assert (SX : Forall spinz x0) by (eapply start_spins with (s0 := Some _); eauto; eapply nth_error_In; eauto).
  assert (HV : forall l, In l ls -> value_of (convert_sample (is_ising (p_mtype p)) (combine ls x0)) l = value_of s l).
  { intros l OL. pose proof HW as (ND & _ & _ & HO). apply HO in OL as OC. rewrite convert_combine by auto. destruct (In_nth_error _ _ OL) as [j Hj]. destruct (A2 j l Hj) as (z & Z1 & Z2).
    rewrite (value_combine ls _ l j (spin_to (is_ising (p_mtype p)) z)); auto; [|rewrite map_length; auto|apply map_nth_error; auto].
    unfold value_of. destruct (p_mtype p) eqn:ET; cbn [is_ising spin_to].
    - rewrite Z1. auto.
    - unfold to_spin_state in Z1. rewrite (dget_map (fun v => if Z.eqb v 0 then (-1)%Z else v)) in Z1. destruct (dget l s) as [v|] eqn:EV; [|discriminate].
      cbn [option_map] in Z1. inversion Z1; subst z. specialize (HL s l v (nth_error_In _ _ HI) OC EV). rewrite ET in HL. destruct HL as [->| ->]; reflexivity. }
  exists x0, plan, es, x, rs, u. subst acc. destruct (annealed_facts _ _ _ _ _ _ _ _ _ _ AN) as (_ & _ & LX & _).
  split; auto. split; auto. split; [congruence|]. split; [eapply Forall_impl; [|exact A6]; intros v [Hv _]; exact Hv|]. split; auto. split; [congruence|]. split; auto. split; auto. split; auto.
  split; [congruence|]. split; [eapply annealed_entries; [apply spin_opp|exact AN|auto]|]. split; auto.
  rewrite (vector_sample p ls) by auto. apply energy_physical_ext. intros l OC. apply HV. apply HW. auto.
Qed.
(** Without sweeps the sample of a read is the given state, with its energy. *)
Theorem C133_no_sweeps : forall w p ls o out i r s,
  world_ok w -> well_indexed p ls -> legal_states p o -> result w p o = Ok out ->
  nth_error (init_list o) i = Some s -> nth_error (out_reads out) i = Some r -> o_sweeps o = 0%Z ->
  let s' := as_seen (p_mtype p) (d_sample r) in
  dkeys s' = ls /\ (forall l, In l ls -> value_of s' l = value_of s l) /\ d_energy r = energy_physical (value_of s) p.
Proof.
  intros w p ls o out i r s WO HW HL H HI HR HZ s'. destruct (given_read _ _ _ _ _ _ _ _ WO HW HL H HI HR) as (x0 & plan & es & x & rs & u & L0 & S0 & LP & R0 & PP & TH & AN & D1 & D2 & LX & SX & HV & HE).
  rewrite HZ in LP. destruct plan; [|discriminate]. inversion AN; subst. unfold s'. rewrite D1, as_seen_convert by exact SX. split; [|split; auto; congruence].
  rewrite convert_combine by auto. unfold dkeys. apply map_fst_combine. rewrite map_length. auto.
Qed.
(** A cold read (Boltzmann factors of 0) does not end above the state it was given. *)
Theorem C133_no_worse : forall w p ls o out i r s,
  world_ok w -> well_indexed p ls -> legal_states p o -> result w p o = Ok out ->
  nth_error (init_list o) i = Some s -> nth_error (out_reads out) i = Some r ->
  (forall d t pr, In t (d_thist r) -> w_boltz w d t = Ok pr -> (pr <= 0)%Qc) ->
  (d_energy r <= energy_physical (value_of s) p)%Qc.
Proof.
  intros w p ls o out i r s WO HW HL H HI HR HB. destruct (given_read _ _ _ _ _ _ _ _ WO HW HL H HI HR) as (x0 & plan & es & x & rs & u & L0 & S0 & LP & R0 & PP & TH & AN & D1 & D2 & LX & SX & HV & HE).
  rewrite D2, <- HE. rewrite TH in HB. clear - AN R0 HB.
  induction AN as [x u|x u t picks plan x1 u1 a es acc x' u' V AN IH]; [apply Qcle_refl|].
  apply Qcle_trans with (vector_energy p x1); [apply IH; auto; intros d t' pr HT; apply (HB d t' pr); simpl; auto|].
  eapply visits_greedy; eauto. intros d pr. apply HB. simpl. auto.
Qed.
(** A cold read that starts in a strict local minimum stays there. *)
Lemma visits_stuck E bz temp rs x u a picks x' u' a' : (forall d pr, bz d temp = Ok pr -> (pr <= 0)%Qc) -> Forall (fun v => (0 <= v)%Qc) rs ->
  visits E bz temp rs x u a picks x' u' a' -> (forall i, In i picks -> (E x < E (flipped i x))%Qc) -> x' = x /\ a' = a.
Proof.
  intros HB HR. induction 1; intros HM; auto.
  - exfalso. apply (Qclt_not_le _ _ (HM i (or_introl eq_refl))). auto.
  - exfalso. rewrite Forall_forall in HR. specialize (HR v (nth_error_In _ _ H1)). specialize (HB _ _ H0). apply (Qclt_not_le _ _ H2). eapply Qcle_trans; eauto.
  - apply IHvisits. intros j HJ. apply HM. simpl. auto.
Qed.
Lemma annealed_stuck E bz rs n x u plan es acc x' u' : Forall (fun v => (0 <= v)%Qc) rs -> Forall (fun tp => Permutation (snd tp) (seq 0 n)) plan ->
  (forall d t pr, In t (map fst plan) -> bz d t = Ok pr -> (pr <= 0)%Qc) -> (forall j, j < n -> (E x < E (flipped j x))%Qc) ->
  annealed E bz rs x u plan es acc x' u' -> x' = x /\ Forall (eq 0) acc.
Proof.
  intros R0 PP HB HM AN. induction AN as [x u|x u t picks plan x1 u1 a es acc x' u' V AN IH]; [auto|].
  inversion PP; subst. cbn [snd] in *. destruct (visits_stuck _ _ _ _ _ _ _ _ _ _ _ (fun d pr => HB d t pr (or_introl eq_refl)) R0 V) as [-> ->].
  - intros j HJ. apply HM. apply (Permutation_in j H1), in_seq in HJ. lia.
  - destruct IH as [-> F]; auto. intros d t' pr HT. apply (HB d t' pr). simpl. auto.
Qed.
Theorem C133_local_minimum : forall w p ls o out i r s,
  world_ok w -> well_indexed p ls -> legal_states p o -> result w p o = Ok out ->
  nth_error (init_list o) i = Some s -> nth_error (out_reads out) i = Some r ->
  (forall d t pr, In t (d_thist r) -> w_boltz w d t = Ok pr -> (pr <= 0)%Qc) ->
  (forall l, In l ls -> (energy_physical (value_of s) p < energy_physical (assign (value_of s) l (toggled (p_mtype p) (value_of s l))) p)%Qc) ->
  let s' := as_seen (p_mtype p) (d_sample r) in
  (forall l, In l ls -> value_of s' l = value_of s l) /\ d_energy r = energy_physical (value_of s) p /\ Forall (eq 0) (d_ahist r).
Proof.
  intros w p ls o out i r s WO HW HL H HI HR HB HM s'. destruct (given_read _ _ _ _ _ _ _ _ WO HW HL H HI HR) as (x0 & plan & es & x & rs & u & L0 & S0 & LP & R0 & PP & TH & AN & D1 & D2 & LX & SX & HV & HE).
  assert (HM0 : forall j, j < length ls -> (vector_energy p x0 < vector_energy p (flipped j x0))%Qc).
  { intros j LJ. destruct (nth_error ls j) as [l|] eqn:EL; [|apply nth_error_None in EL; lia]. rewrite (flipped_sample p ls x0 j l), HE by auto.
    assert (OL : In l ls) by (eapply nth_error_In; eauto). specialize (HM l OL). eapply Qclt_le_trans; [exact HM|]. match goal with |- (?a <= ?b)%Qc => replace b with a; [apply Qcle_refl|] end.
    apply energy_physical_ext. intros k OC. unfold assign. rewrite <- (HV l OL). destruct (String.eqb k l); auto. symmetry. apply HV. apply HW. auto. }
  assert (HS : x = x0 /\ Forall (eq 0) (d_ahist r)).
  { rewrite TH in HB. eapply (annealed_stuck _ _ _ (length ls)); eauto. }
  destruct HS as [-> F]. unfold s'. rewrite D1, D2, as_seen_convert by exact SX. split; auto.
Qed.

(** ** The hypotheses are met *)
(** Two reads of a QUBO model from given states; three reads from random states. *)
Definition states2 : list (dict string Z) := [[("a", 1%Z); ("b", 0%Z)]; [("a", 1%Z); ("b", 1%Z)]].
Definition options2 : options := mkOptions 2 3 (qfrac 1 2) (qz 10) (Some states2) RNone "sequential" (Some 3%Z).
Definition options3 : options := mkOptions 2 0 (qfrac 1 2) (qz 10) (Some states2) RNone "random" None.
Definition world_out (w : world) (t : mtype) (o : options) (f : outcome -> bool) : bool := match result w (phys2 t) o with Ok out => f out | Err _ => false end.
Example C132_hyps : exists out out', result world0 (phys2 Qubo) options2 = Ok out /\ result world0 (phys2 Qubo) (fewer 1 options2) = Ok out' /\
  length (out_reads out) = 2 /\ length (out_reads out') = 1.
Proof.
  assert (C : world_out world0 Qubo options2 (fun out => world_out world0 Qubo (fewer 1 options2) (fun out' =>
     Nat.eqb (length (out_reads out)) 2 && Nat.eqb (length (out_reads out')) 1)) = true) by (vm_compute; reflexivity).
  unfold world_out in C. destruct (result world0 (phys2 Qubo) options2) as [out|]; [|discriminate]. destruct (result world0 (phys2 Qubo) (fewer 1 options2)) as [out'|]; [|discriminate].
  apply andb_true_iff in C. destruct C as [C1 C2]. apply Nat.eqb_eq in C1. apply Nat.eqb_eq in C2. exists out, out'. auto.
Qed.
Lemma legal_two o : o_init o = Some states2 -> legal_states (phys2 Qubo) o.
Proof.
  intros HI s l z HS _ HD. unfold init_list in HS. rewrite HI in HS. destruct HS as [<-|[<-|[]]]; cbn [dget] in HD;
    repeat match type of HD with context [if ?b then _ else _] => destruct b end; inversion HD; subst; cbn; auto.
Qed.
Example C133_hyps : exists out r s, world_ok world0 /\ well_indexed (phys2 Qubo) ["a"; "b"] /\ legal_states (phys2 Qubo) options3 /\
  result world0 (phys2 Qubo) options3 = Ok out /\ nth_error (init_list options3) 1 = Some s /\ nth_error (out_reads out) 1 = Some r /\ o_sweeps options3 = 0%Z.
Proof.
  assert (C : world_out world0 Qubo options3 (fun out => Nat.eqb (length (out_reads out)) 2) = true) by (vm_compute; reflexivity).
  unfold world_out in C. destruct (result world0 (phys2 Qubo) options3) as [out|] eqn:E; [|discriminate]. apply Nat.eqb_eq in C.
  destruct (out_reads out) as [|r0 [|r [|r3 rr]]] eqn:ER; cbn [length] in C; [discriminate C|discriminate C| |discriminate C]. exists out, r, [("a", 1%Z); ("b", 1%Z)].
  split; [apply world0_ok|]. split; [apply phys2_indexed|]. split; [apply legal_two; reflexivity|]. rewrite ER. auto.
Qed.
(** A cold read: [a = 1], [b = 1] is a strict local minimum of phys2 as a QUBO (the energy is minus the model's terms). *)
Example C133_cold_hyps : exists out r s, result world0 (phys2 Qubo) options2 = Ok out /\ legal_states (phys2 Qubo) options2 /\
  nth_error (init_list options2) 1 = Some s /\ nth_error (out_reads out) 1 = Some r /\
  (forall d t pr, In t (d_thist r) -> w_boltz world0 d t = Ok pr -> (pr <= 0)%Qc) /\
  (forall l, In l ["a"; "b"] -> (energy_physical (value_of s) (phys2 Qubo) < energy_physical (assign (value_of s) l (toggled Qubo (value_of s l))) (phys2 Qubo))%Qc).
Proof.
  assert (C : world_out world0 Qubo options2 (fun out => Nat.eqb (length (out_reads out)) 2) = true) by (vm_compute; reflexivity).
  unfold world_out in C. destruct (result world0 (phys2 Qubo) options2) as [out|] eqn:E; [|discriminate]. apply Nat.eqb_eq in C.
  destruct (out_reads out) as [|r0 [|r [|r3 rr]]] eqn:ER; cbn [length] in C; [discriminate C|discriminate C| |discriminate C]. exists out, r, [("a", 1%Z); ("b", 1%Z)]. rewrite ER.
  split; auto. split; [apply legal_two; reflexivity|]. split; auto. split; auto. split.
  - intros d t pr _ H. inversion H. apply Qcle_refl.
  - intros l [<-|[<-|[]]]; reflexivity.
Qed.
Print Assumptions C132_prefix.
Print Assumptions C132_set.
Print Assumptions C132_best.
Print Assumptions C132_raises.
Print Assumptions C133_no_sweeps.
Print Assumptions C133_no_worse.
Print Assumptions C133_local_minimum.
