(** * PropsSolver: properties C39-C45, C65, C66 of SawatabiSolver.solve. *)
From Verif Require Import PyBase PyLemmas Numbers Constraint LogicalModel Spec PhysicalProofs Samples PropsPhysical
  ToPhysicalProofs Physical BqmProofs History PropsHistory PropsBqm Solver SolverSpec SolverProofs.
From Coq Require Import Permutation.
Open Scope string_scope.
Open Scope list_scope.

(** The caller's initial states give legal values to the variables of the model. *)
Definition legal_states (p : physical) (o : options) : Prop :=
  forall s l z, In s (init_list o) -> occurs p l -> dget l s = Some z -> legal (p_mtype p) z.
(** The result of a call. *)
Definition result (w : world) (p : physical) (o : options) : res outcome := snd (solve w (Some p) o).

Lemma Forall2_in_l {A B} (P : A -> B -> Prop) l m a : Forall2 P l m -> In a l -> exists b, In b m /\ P a b.
Proof. induction 1; intros []; subst; simpl; eauto. destruct IHForall2 as (b & ? & ?); eauto. Qed.
Lemma Forall2_in_r {A B} (P : A -> B -> Prop) l m b : Forall2 P l m -> In b m -> exists a, In a l /\ P a b.
Proof. induction 1; intros []; subst; simpl; eauto. destruct IHForall2 as (a & ? & ?); eauto. Qed.

Lemma Forall2_len {A B} (P : A -> B -> Prop) l m : Forall2 P l m -> length l = length m.
Proof. induction 1; simpl; auto. Qed.

(** ** From solve to its reads *)
Definition start_states (p : physical) (o : options) : list (option (dict string Z)) :=
  if has_init o
  then map Some (match p_mtype p with Ising => init_list o | Qubo => map to_spin_state (init_list o) end)
  else repeat None (Z.to_nat (o_reads o)).
Lemma well_indexed_maps p ls : well_indexed p ls -> index_maps p ls.
Proof. intros (A & B & C & _). split; auto. Qed.
Lemma solve_reads w p ls o out : well_indexed p ls -> world_ok w -> result w p o = Ok out ->
  exists g, rng_ok g /\ check_args p o = Ok tt /\
    Forall2 (read_spec p ls w o) (start_states p o) (out_reads out) /\
    out_set out = sampleset (match p_mtype p with Ising => true | Qubo => false end) (out_reads out).
Proof.
  intros HW (HF & HSD) H. unfold result, solve in H. destruct (check_args p o) as [[]|] eqn:EC; [|discriminate].
  destruct (pick_rng w (o_seed o)) as [g|] eqn:EG; [|discriminate].
  assert (RG : rng_ok g).
  { unfold pick_rng in EG. destruct (o_seed o) as [z|]; [|inversion EG; subst; auto].
    destruct (Z.eqb z 0); [inversion EG; subst; auto|]. destruct (z <? 0)%Z; inversion EG; subst; auto. }
  destruct (to_bqm 1 p) as [orig|] eqn:EB; [|discriminate]. cbn [snd] in H. cbv zeta in H. set (b := bqm_to_spin orig) in *.
  apply rbind_ok in H. destruct H as (lin & HL & H). apply rbind_ok in H. destruct H as (adj & HA & H). apply rbind_ok in H. destruct H as (l & HR & H).
  inversion H; subst out. cbn [out_reads out_set]. clear H.
  assert (HS : prepared p ls orig b lin adj).
  { split; auto; [apply well_indexed_maps; auto|]. destruct HW as (_ & _ & _ & HO). intros x. apply HO. }
  assert (ET : b_spin orig = match p_mtype p with Ising => true | Qubo => false end).
  { destruct (to_bqm_spec _ _ _ EB) as (_ & _ & _ & _ & _ & H6 & _). exact H6. }
  exists g. split; auto. split; auto. rewrite ET in *. split; auto.
  apply (reads_spec _ _ _ _ _ _ HS w g o RG) in HR. unfold start_states. destruct (has_init o) eqn:EI; [|exact HR].
  rewrite andb_true_r in HR. destruct (p_mtype p); cbn [negb] in HR; [|exact HR]. unfold init_list at 1. destruct (o_init o); exact HR.
Qed.
Lemma start_length p o : check_args p o = Ok tt -> length (start_states p o) = Z.to_nat (o_reads o).
Proof.
  unfold check_args, start_states. intros H. destruct (_ && _); [discriminate|]. destruct (has_init o); [|apply repeat_length].
  cbn [andb] in H. destruct (Z.eqb_spec (Z.of_nat (length (init_list o))) (o_reads o)) as [E|]; [|discriminate].
  rewrite map_length. destruct (p_mtype p); rewrite ?map_length; lia.
Qed.
Lemma dget_map {V W} (f : V -> W) (d : dict string V) l : dget l (map (fun kv => (fst kv, f (snd kv))) d) = option_map f (dget l d).
Proof. induction d as [|[k v] d IH]; simpl; auto. destruct (String.eqb l k); auto. Qed.
(** From legal initial states the spins are +1 or -1 throughout. *)
Lemma start_spins p ls o s0 x : well_indexed p ls -> legal_states p o -> In s0 (start_states p o) -> length x = length ls -> starts ls s0 x -> Forall spinz x.
Proof.
  intros (_ & _ & _ & HO) HL HI HX HS. unfold start_states in HI. destruct (has_init o).
  - apply in_map_iff in HI. destruct HI as (s & <- & HI). cbn [starts] in HS. apply Forall_forall. intros z HZ.
    destruct (In_nth_error _ _ HZ) as [i Hi]. destruct (nth_error ls i) as [l|] eqn:EL.
    2: { apply nth_error_None in EL. assert (i < length x) by (apply nth_error_Some; congruence). lia. }
    destruct (HS i l EL) as (z' & HD & HN). rewrite Hi in HN. inversion HN; subst z'.
    assert (OC : occurs p l) by (apply HO; eapply nth_error_In; eauto). destruct (p_mtype p) eqn:ET.
    + specialize (HL s l z HI OC HD). rewrite ET in HL. exact HL.
    + apply in_map_iff in HI. destruct HI as (s' & <- & HI). unfold to_spin_state in HD. rewrite (dget_map (fun v => if Z.eqb v 0 then (-1)%Z else v)) in HD.
      destruct (dget l s') as [v|] eqn:EV; [|discriminate]. specialize (HL s' l v HI OC EV). rewrite ET in HL. cbn [option_map] in HD. inversion HD.
      unfold spinz. destruct HL as [->| ->]; cbn; auto.
  - apply repeat_spec in HI. subst. exact HS.
Qed.
(** ** From spins to samples of the model's type *)
Lemma spin_to_legal t z : spinz z -> legal t (spin_to (match t with Ising => true | Qubo => false end) z).
Proof. destruct t; cbn [legal spin_to]; auto. intros [->| ->]; cbn; auto. Qed.
Lemma spin_to_binary z : spinz z -> qz (spin_to false z) = ((qz z + 1) / qz 2)%Qc.
Proof. intros [->| ->]; apply Qc_is_canon; reflexivity. Qed.
Lemma energy_physical_ext p s s' : (forall l, occurs p l -> s l = s' l) -> energy_physical s p = energy_physical s' p.
Proof.
  intros H. unfold energy_physical. f_equal. f_equal; [f_equal|]; apply qsum_map_ext.
  - intros [l c] HI. cbn [fst snd]. rewrite H; auto. left. apply (in_map fst) in HI. exact HI.
  - intros [[a b] c] HI. cbn [fst snd]. apply (in_map fst) in HI. rewrite !H; auto; right; exists a, b; auto.
Qed.
Definition is_ising (t : mtype) : bool := match t with Ising => true | Qubo => false end.
(** A sample of spins as the caller sees it: unchanged for an Ising model, -1 as 0 for a QUBO. *)
Definition as_seen (t : mtype) (s : dict string Z) : dict string Z :=
  match t with Ising => s | Qubo => map (fun e => (fst e, if Z.eqb (snd e) 1 then 1%Z else 0%Z)) s end.
Lemma as_seen_convert t ls x : Forall spinz x -> as_seen t (combine ls x) = convert_sample (is_ising t) (combine ls x).
Proof.
  unfold as_seen, convert_sample. revert x. induction ls as [|l ls IH]; intros x HX; [destruct t; reflexivity|]. destruct HX as [|z x HZ HX]; [destruct t; reflexivity|].
  specialize (IH x HX). cbn [combine map fst snd]. destruct t; cbn [is_ising spin_to] in *; [congruence|]. f_equal; auto. f_equal. destruct HZ as [-> | ->]; reflexivity.
Qed.
Lemma convert_combine sp ls x : length x = length ls -> convert_sample sp (combine ls x) = combine ls (map (spin_to sp) x).
Proof.
  unfold convert_sample. revert x. induction ls as [|l ls IH]; intros [|z x] HL; try discriminate; cbn [combine map fst snd]; auto.
  rewrite IH; auto.
Qed.
Lemma value_combine ls x l i z : NoDup ls -> length x = length ls -> nth_error ls i = Some l -> nth_error x i = Some z -> value_of (combine ls x) l = qz z.
Proof.
  intros ND HL H1 H2. unfold value_of. rewrite (in_dget l z); auto.
  - unfold dkeys. rewrite map_fst_combine; auto.
  - apply nth_error_In with i. rewrite nth_error_combine, H1, H2. auto.
Qed.
(** The energy of a spin vector is the energy of the sample it becomes. *)
Lemma vector_sample p ls x : well_indexed p ls -> length x = length ls -> Forall spinz x ->
  vector_energy p x = energy_physical (value_of (convert_sample (is_ising (p_mtype p)) (combine ls x))) p.
Proof.
  intros (ND & HM & _ & HO) HL HX. rewrite convert_combine by auto.
  assert (HV : forall l, occurs p l -> exists i z, nth_error ls i = Some l /\ nth_error x i = Some z /\ spinz z /\ spins p x l = qz z /\
     value_of (combine ls (map (spin_to (is_ising (p_mtype p))) x)) l = qz (spin_to (is_ising (p_mtype p)) z)).
  { intros l OC. apply HO in OC. destruct (In_nth_error _ _ OC) as [i Hi]. destruct (nth_error x i) as [z|] eqn:EZ.
    2: { apply nth_error_None in EZ. assert (i < length ls) by (apply nth_error_Some; congruence). lia. }
    exists i, z. split; auto. split; auto. split; [rewrite Forall_forall in HX; apply HX; eapply nth_error_In; eauto|]. split.
    - unfold spins. rewrite (proj2 (HM l i) Hi), EZ. reflexivity.
    - apply value_combine with i; auto; [rewrite map_length; auto|]. apply map_nth_error. auto. }
  unfold vector_energy, spin_energy. destruct (p_mtype p); apply energy_physical_ext; intros l OC; destruct (HV l OC) as (i & z & _ & _ & SZ & HS & ->); cbn [is_ising] in *.
  - exact HS.
  - unfold to_binary. rewrite HS. symmetry. apply spin_to_binary. auto.
Qed.

(** One read of a successful call, with its final spins. *)
Lemma solve_final w p ls o out : well_indexed p ls -> world_ok w -> legal_states p o -> result w p o = Ok out ->
  length (out_reads out) = Z.to_nat (o_reads o) /\
  exists xs, Forall2 (fun r x => length x = length ls /\ d_sample r = combine ls x /\ d_energy r = vector_energy p x) (out_reads out) xs /\
             Forall (Forall spinz) xs.
Proof.
  intros HW WO HL H. destruct (solve_reads _ _ _ _ _ HW WO H) as (g & HG & HC & HF & _). split.
  - rewrite <- (start_length p o HC). symmetry. apply (Forall2_len _ _ _ HF).
  - assert (HS : forall s0, In s0 (start_states p o) -> forall x, length x = length ls -> starts ls s0 x -> Forall spinz x).
    { intros s0 HI x HX HS. eapply start_spins; eauto. }
    clear HC H. induction HF as [|s0 d inits l HR HF IH]; [exists []; split; constructor|].
    destruct IH as (xs & X1 & X2); [intros; eapply HS; simpl; eauto|].
    destruct (rd_run _ _ _ _ _ _ HR) as (x0 & plan & es & acc & x & rs & u & A1 & A2 & A3 & _ & _ & _ & _ & _ & AN & D1 & D2 & _).
    exists (x :: xs). split; [constructor; auto|]. constructor; auto. eapply annealed_entries; [apply spin_opp|exact AN|].
    eapply HS; simpl; eauto.
Qed.
Lemma solve_rows w p ls o out : well_indexed p ls -> world_ok w -> legal_states p o -> result w p o = Ok out ->
  exists xs ys, length xs = Z.to_nat (o_reads o) /\ NoDup ys /\ Forall (fun y => length y = length ls /\ Forall spinz y) ys /\
    Forall2 (fun (r : srow) y => fst (fst r) = convert_sample (is_ising (p_mtype p)) (combine ls y) /\ snd (fst r) = vector_energy p y /\
                        snd r = count_occ (list_eq_dec Z.eq_dec) xs y /\ 0 < snd r) (out_set out) ys /\
    list_sum (map snd (out_set out)) = length xs /\
    Forall2 (fun r x => d_sample r = combine ls x /\ d_energy r = vector_energy p x) (out_reads out) xs /\ (forall x, In x xs -> In x ys).
Proof.
  intros HW WO HL H. destruct (solve_final _ _ _ _ _ HW WO HL H) as (LN & xs & X1 & X2). destruct (solve_reads _ _ _ _ _ HW WO H) as (g & _ & _ & _ & ES).
  pose proof HW as (ND & _). pose proof (aggregate_spec ls (vector_energy p) ND _ _ X1) as HA. pose proof (agg_total _ _ _ _ HA) as HT.
  destruct HA as (ys & N & F & C). exists xs, ys. split; [rewrite <- LN; symmetry; apply (Forall2_len _ _ _ X1)|]. split; auto.
  assert (HY : forall y, In y ys -> In y xs).
  { intros y HY. destruct (Forall2_in_r _ _ _ _ F HY) as (r & _ & _ & _ & _ & Q1 & Q2). apply (count_occ_In (list_eq_dec Z.eq_dec)). lia. }
  split; [apply Forall_forall; intros y Hy; split|].
  - destruct (Forall2_in_r _ _ _ _ F Hy) as (r & _ & A & _). auto.
  - rewrite Forall_forall in X2. apply X2. auto.
  - rewrite ES. unfold sampleset. change (match p_mtype p with Ising => true | Qubo => false end) with (is_ising (p_mtype p)). split; [|split; [|split; auto]].
    + clear - F. induction F as [|r y l ys (A & B & C0 & D & P) F IH]; cbn [map]; constructor; auto. destruct r as [[s e] c]. cbn [fst snd] in *. subst s. auto.
    + rewrite map_map, <- HT. f_equal. apply map_ext. intros [[s e] c]. reflexivity.
    + clear - X1. induction X1 as [|r x l xs (A & B & C0) F IH]; constructor; auto.
Qed.

(** ** C39 *)
Theorem C39_reported_energy : forall w p ls o out s e c,
  world_ok w -> well_indexed p ls -> legal_states p o ->
  result w p o = Ok out -> In (s, e, c) (out_set out) ->
  e = energy_physical (value_of s) p.
Proof.
  intros w p ls o out s e c WO HW HL H HI. destruct (solve_rows _ _ _ _ _ HW WO HL H) as (xs & ys & _ & _ & FY & F & _).
  destruct (Forall2_in_l _ _ _ _ F HI) as (y & Hy & A & B & _). cbn [fst snd] in *. rewrite Forall_forall in FY. destruct (FY y Hy) as [LY SY].
  subst. apply vector_sample; auto.
Qed.

(** ** C40 *)
Theorem C40_samples : forall w p ls o out,
  world_ok w -> well_indexed p ls -> legal_states p o -> result w p o = Ok out ->
  (forall s e c, In (s, e, c) (out_set out) -> dkeys s = ls /\ Forall (legal (p_mtype p)) (dvals s) /\ 0 < c) /\
  NoDup (map (fun r : srow => fst (fst r)) (out_set out)) /\
  list_sum (map snd (out_set out)) = Z.to_nat (o_reads o).
Proof.
  intros w p ls o out WO HW HL H. destruct (solve_rows _ _ _ _ _ HW WO HL H) as (xs & ys & LX & NY & FY & F & SM & _). rewrite Forall_forall in FY. split; [|split].
  - intros s e c HI. destruct (Forall2_in_l _ _ _ _ F HI) as (y & Hy & A & _ & _ & P). cbn [fst snd] in *. destruct (FY y Hy) as [LY SY]. subst s.
    rewrite convert_combine by auto. split; [unfold dkeys; apply map_fst_combine; rewrite map_length; auto|]. split; auto.
    unfold dvals. rewrite map_snd_combine by (rewrite map_length; auto). apply Forall_forall. intros z HZ. apply in_map_iff in HZ.
    destruct HZ as (z' & <- & HZ). rewrite Forall_forall in SY. apply spin_to_legal. auto.
  - assert (HE : map (fun r : srow => fst (fst r)) (out_set out) = map (fun y => convert_sample (is_ising (p_mtype p)) (combine ls y)) ys).
    { clear - F. induction F as [|r y l ys (A & _) F IH]; cbn [map]; auto. rewrite A, IH. auto. }
    rewrite HE. clear F HE SM LX. induction ys as [|y ys IH]; cbn [map]; constructor; inversion NY; subst.
    + intros HI. apply in_map_iff in HI. destruct HI as (y' & HE & HI). destruct (FY y) as [LY SY]; [simpl; auto|]. destruct (FY y') as [LY' SY']; [simpl; auto|].
      rewrite !convert_combine in HE by auto. apply (f_equal (map snd)) in HE. rewrite !map_snd_combine in HE by (rewrite map_length; auto).
      assert (y' = y); [|subst; contradiction]. clear - HE SY SY'. revert y' HE SY'. induction y as [|z y IH]; intros [|z' y'] HE SY'; try discriminate; auto.
      inversion SY; inversion SY'; subst. cbn [map] in HE. inversion HE. f_equal; [|apply IH; auto].
      destruct (is_ising (p_mtype p)); cbn [spin_to] in *; auto. destruct H1 as [->| ->], H5 as [->| ->]; auto; discriminate.
    + apply IH; auto. intros x Hx. apply FY. simpl; auto.
  - rewrite SM. auto.
Qed.
(** Each read is in the sample set, with its energy. *)
Theorem C40_no_read_lost : forall w p ls o out,
  world_ok w -> well_indexed p ls -> legal_states p o -> result w p o = Ok out ->
  length (out_reads out) = Z.to_nat (o_reads o) /\
  forall r, In r (out_reads out) ->
    exists c, In (as_seen (p_mtype p) (d_sample r), d_energy r, c) (out_set out).
Proof.
  intros w p ls o out WO HW HL H. split; [apply (solve_final _ _ _ _ _ HW WO HL H)|].
  destruct (solve_rows _ _ _ _ _ HW WO HL H) as (xs & ys & LX & NY & FY & F & SM & G & C). intros r HR.
  destruct (Forall2_in_l _ _ _ _ G HR) as (x & HX & D1 & D2). destruct (Forall2_in_r _ _ _ _ F (C x HX)) as ([[s e] c] & HI & A & B & _).
  cbn [fst snd] in *. exists c. rewrite Forall_forall in FY. destruct (FY x (C x HX)) as [_ SX]. rewrite D1, D2, as_seen_convert, <- A, <- B by exact SX. exact HI.
Qed.

(** ** C41 *)
Lemma Qc_pos_mul a b : (0 < a)%Qc -> (0 < b)%Qc -> (0 < a * b)%Qc.
Proof. intros HA HB. replace 0%Qc with (0 * b)%Qc by ring. apply Qcmult_lt_compat_r; auto. Qed.
Lemma Qc_pow_pos a k : (0 < a)%Qc -> (0 < a ^ k)%Qc.
Proof. intros H. induction k as [|k IH]; cbn [Qcpower]; [reflexivity|apply Qc_pos_mul; auto]. Qed.
Lemma Qc_pow_lt1 a k : (0 < a)%Qc -> (a < 1)%Qc -> (a ^ S k < 1)%Qc.
Proof.
  intros H0 H1. induction k as [|k IH]; [cbn [Qcpower]; rewrite Qcmult_1_r; auto|].
  change (a ^ S (S k))%Qc with (a * a ^ S k)%Qc. eapply Qclt_trans; [|exact IH].
  apply Qclt_minus_iff. replace (a ^ S k + - (a * a ^ S k))%Qc with ((1 - a) * a ^ S k)%Qc by ring.
  apply Qc_pos_mul; [|apply Qc_pow_pos; auto]. apply Qc_sub_lt0. auto.
Qed.
(** Every temperature of the schedule is positive. *)
Definition positive_schedule (o : options) : Prop :=
  (0 < o_rate o)%Qc /\
  match o_reverse o with
  | RDict d => (o_rate o < 1)%Qc /\ forall rt, dget "reverse_temperature" d = Some rt -> (0 < rt)%Qc
  | _ => (0 < o_temp o)%Qc
  end.
Lemma temp_positive o k : reverse_ok (o_reverse o) -> positive_schedule o -> (0 < temp_at o k)%Qc.
Proof.
  unfold positive_schedule, temp_at. intros HR [H1 H2]. destruct (o_reverse o) as [|d|]; [| |destruct HR].
  - apply Qc_pos_mul; auto. apply Qc_pow_pos; auto.
  - destruct HR as [[per ->] [rt HR]]. rewrite HR. destruct H2 as [H2 H3]. specialize (H3 rt HR).
    induction k as [|k IH]; [reflexivity|]. change (reverse_temp rt per (o_rate o) (S k)) with
      (if Qcle_bool per (qz (Z.of_nat k)) then (reverse_temp rt per (o_rate o) k * o_rate o)%Qc else (rt * (1 - o_rate o ^ S k))%Qc).
    destruct (Qcle_bool per (qz (Z.of_nat k))); apply Qc_pos_mul; auto. apply Qc_sub_lt0. apply Qc_pow_lt1; auto.
Qed.
(** Initial states, when given, are one per read and give a value to every variable. *)
Definition complete_states (ls : list string) (o : options) : Prop :=
  init_list o = [] \/ (Z.of_nat (length (init_list o)) = o_reads o /\
                       forall s l, In s (init_list o) -> In l ls -> exists z, dget l s = Some z).
Theorem C41_succeeds : forall w p ls o,
  world_ok w -> boltz_ok w -> well_indexed p ls -> ls <> [] -> (forall l, ~ In (l, l) (dkeys (p_quad p))) ->
  (0 <= o_sweeps o)%Z -> o_pickup o = "random" \/ o_pickup o = "sequential" ->
  (forall z, o_seed o = Some z -> (0 <= z)%Z) -> reverse_ok (o_reverse o) -> positive_schedule o -> complete_states ls o ->
  exists out, result w p o = Ok out.
Proof.
  intros w p ls o WO BO HW NE NL HZ HP HSD HR PS CS. unfold result, solve.
  assert (HC : check_args p o = Ok tt).
  { unfold check_args. destruct HW as (_ & _ & _ & HO). destruct ls as [|l0 ls0]; [congruence|].
    assert (OC : occurs p l0) by (apply HO; simpl; auto).
    assert (E1 : Nat.eqb (length (p_linear p)) 0 && Nat.eqb (length (p_quad p)) 0 = false).
    { apply andb_false_iff. destruct OC as [OC|(a & b & OC & _)]; [left; destruct (p_linear p)|right; destruct (p_quad p)]; simpl in *; auto; destruct OC. }
    rewrite E1. assert (E2 : has_init o && negb (Z.eqb (Z.of_nat (length (init_list o))) (o_reads o)) = false).
    { unfold has_init. destruct CS as [CS|[CS _]]; [rewrite CS; reflexivity|]. rewrite (proj2 (Z.eqb_eq _ _) CS). apply andb_false_r. }
    rewrite E2. assert (E3 : String.eqb (o_pickup o) "random" || String.eqb (o_pickup o) "sequential" = true) by (destruct HP as [->| ->]; reflexivity).
    rewrite E3. cbn [negb]. unfold check_reverse. destruct (o_reverse o) as [|d|]; [reflexivity| |destruct HR].
    destruct HR as [HR1 HR2]. rewrite (proj2 (dmem_in _ _) (proj1 (dget_some_in _ _) HR1)), (proj2 (dmem_in _ _) (proj1 (dget_some_in _ _) HR2)).
    destruct (rev_truthy _); reflexivity. }
  rewrite HC. assert (HG : exists g, pick_rng w (o_seed o) = Ok g /\ rng_ok g).
  { destruct WO as [W1 W2]. unfold pick_rng. destruct (o_seed o) as [z|]; [|eauto]. destruct (Z.eqb z 0); [eauto|].
    specialize (HSD z eq_refl). destruct (Z.ltb_spec z 0); [lia|eauto]. }
  destruct HG as (g & -> & HG). destruct (proj2 (proj1 (C37_succeeds_iff 1%Qc p)) NL) as [orig EB]. rewrite EB. cbn [snd]. cbv zeta.
  set (b := bqm_to_spin orig). pose proof (well_indexed_maps _ _ HW) as HM.
  assert (HV : forall l, In l (bqm_variables b) <-> In l ls).
  { intros l. unfold b. rewrite to_spin_vars. destruct (to_bqm_spec _ _ _ EB) as (_ & _ & HV & _). rewrite HV. destruct HW as (_ & _ & _ & HO). symmetry. apply HO. }
  assert (WB : wf_bqm b) by (apply to_spin_wf; apply (to_bqm_spec _ _ _ EB)).
  assert (HN : length (b_linear b) = length ls).
  { assert (E : length (bqm_variables b) = length (b_linear b)) by (unfold bqm_variables, dkeys; apply map_length). rewrite <- E.
    apply Nat.le_antisymm; apply NoDup_incl_length; [apply WB|intros l; apply HV|apply HM|intros l; apply HV]. }
  destruct (fill_linear_total p ls HM (b_linear b) (repeat 0%Qc (length (b_linear b)))) as [lin HL]; [rewrite repeat_length; auto|intros l; apply HV|].
  rewrite HL. cbn [rbind].
  destruct (fill_adj_total p ls HM b (bqm_variables b) (repeat [] (length (b_linear b)))) as [adj HA]; [rewrite repeat_length; auto|intros l; apply HV| |].
  { intros l a HI. apply in_map_iff in HI. destruct HI as ([a' c] & <- & HI). cbn [fst]. apply HV. destruct WB as (_ & _ & W3).
    apply adj_in in HI. destruct HI as [HI|HI]; apply W3 in HI; tauto. }
  rewrite HA. cbn [rbind].
  assert (HS : prepared p ls orig b lin adj) by (split; auto; intros l Hl; apply HW; auto).
  match goal with |- context [reads _ _ _ _ _ _ _ _ ?I _] => set (inits := I) end.
  destruct (reads_total _ _ _ _ _ _ HS w g o HG HZ HR) with (inits := inits) (tr := @nil request) as [l ->]; [| |cbn [rbind]; eauto].
  - intros d k HD. apply BO; auto. apply temp_positive; auto.
  - intros s HI l Hl. unfold inits in HI. destruct (has_init o) eqn:EI; [|apply repeat_spec in HI; discriminate].
    destruct CS as [CS|[_ CS]]; [unfold has_init in EI; rewrite CS in EI; discriminate|].
    rewrite andb_true_r in HI. apply in_map_iff in HI. destruct HI as (s' & E' & HI). inversion E'; subst s'.
    destruct (negb (b_spin orig)).
    + apply in_map_iff in HI. destruct HI as (s' & <- & HI). destruct (CS s' l HI Hl) as [z Hz].
      unfold to_spin_state. rewrite (dget_map (fun v => if Z.eqb v 0 then (-1)%Z else v)), Hz. cbn [option_map]. eauto.
    + apply (CS s l); auto.
Qed.
Theorem C41_histories : forall w p ls o out r,
  world_ok w -> well_indexed p ls -> result w p o = Ok out -> In r (out_reads out) ->
  length (d_ehist r) = Z.to_nat (o_sweeps o) /\ length (d_thist r) = Z.to_nat (o_sweeps o) /\
  length (d_ahist r) = Z.to_nat (o_sweeps o) /\ Forall (fun a => a <= length ls) (d_ahist r).
Proof.
  intros w p ls o out r WO HW H HR. destruct (solve_reads _ _ _ _ _ HW WO H) as (g & HG & HC & HF & _).
  destruct (Forall2_in_r _ _ _ _ HF HR) as (s0 & _ & HS).
  destruct (rd_run _ _ _ _ _ _ HS) as (x0 & plan & es & acc & x & rs & u & A1 & A2 & A3 & A4 & A5 & A6 & A7 & _ & AN & D1 & D2 & D3 & D4 & D5).
  destruct (annealed_facts _ _ _ _ _ _ _ _ _ _ AN) as (L1 & L2 & _ & _ & _ & L6). rewrite D3, D4, D5, !map_length. split; [congruence|]. split; [congruence|]. split; [congruence|].
  clear - L6 A7. induction L6; constructor; inversion A7; subst; auto. rewrite (Permutation_length H2), seq_length in H. auto.
Qed.

(** ** C42 *)
(** Every read is a Metropolis run: [plan] gives the temperature and the visited spins of each sweep. *)
Theorem C42_metropolis : forall w p ls o out r,
  world_ok w -> well_indexed p ls -> result w p o = Ok out -> In r (out_reads out) ->
  exists x0 plan es x rs used,
    length x0 = length ls /\ length x = length ls /\
    length rs = length plan * length ls /\ Forall (fun v => (0 <= v)%Qc /\ (v < 1)%Qc) rs /\ used <= length rs /\
    length plan = Z.to_nat (o_sweeps o) /\
    Forall (fun tp => Permutation (snd tp) (seq 0 (length ls))) plan /\
    (o_pickup o <> "random" -> Forall (fun tp => snd tp = seq 0 (length ls)) plan) /\
    annealed (vector_energy p) (w_boltz w) rs x0 0 plan es (d_ahist r) x used /\
    d_sample r = combine ls x /\ d_energy r = vector_energy p x /\ d_thist r = map fst plan.
Proof.
  intros w p ls o out r WO HW H HR. destruct (solve_reads _ _ _ _ _ HW WO H) as (g & HG & HC & HF & _).
  destruct (Forall2_in_r _ _ _ _ HF HR) as (s0 & _ & HS).
  destruct (rd_run _ _ _ _ _ _ HS) as (x0 & plan & es & acc & x & rs & u & A1 & A2 & A3 & A4 & A5 & A6 & A7 & A8 & AN & D1 & D2 & D3 & D4 & D5).
  exists x0, plan, es, x, rs, u. subst acc. destruct (annealed_facts _ _ _ _ _ _ _ _ _ _ AN) as (_ & _ & _ & L4 & _).
  repeat (split; auto). apply L4. lia.
Qed.
Lemma flipped_nth i x j : nth_error (flipped i x) j = if Nat.eqb j i then option_map Z.opp (nth_error x j) else nth_error x j.
Proof. unfold flipped. rewrite nth_upd. destruct (Nat.eqb j i); auto. Qed.
Lemma flipped_sample p ls x i l : well_indexed p ls -> length x = length ls -> Forall spinz x -> nth_error ls i = Some l ->
  let s := convert_sample (is_ising (p_mtype p)) (combine ls x) in
  vector_energy p (flipped i x) = energy_physical (assign (value_of s) l (toggled (p_mtype p) (value_of s l))) p.
Proof.
  intros HW HL HX HI s. assert (LF : length (flipped i x) = length ls) by (unfold flipped; rewrite upd_nth_length; auto).
  rewrite (vector_sample p ls); auto; [|apply flipped_entries; auto; apply spin_opp]. destruct HW as (ND & HM & _ & HO). unfold s. rewrite !convert_combine by auto.
  assert (HV : forall y, length y = length ls -> forall k j z, nth_error ls j = Some k -> nth_error y j = Some z ->
     value_of (combine ls (map (spin_to (is_ising (p_mtype p))) y)) k = qz (spin_to (is_ising (p_mtype p)) z)).
  { intros y HY k j z H1 H2. apply value_combine with j; auto; [rewrite map_length; auto|]. apply map_nth_error. auto. }
  assert (HE : forall k j, nth_error ls j = Some k -> exists z, nth_error x j = Some z /\ spinz z).
  { intros k j HJ. destruct (nth_error x j) as [z|] eqn:EZ; [|apply nth_error_None in EZ; assert (j < length ls) by (apply nth_error_Some; congruence); lia].
    exists z. split; auto. rewrite Forall_forall in HX. apply HX. eapply nth_error_In; eauto. }
  apply energy_physical_ext. intros k OC. apply HO in OC. destruct (In_nth_error _ _ OC) as [j Hj]. destruct (HE k j Hj) as (z & EZ & SZ).
  unfold assign. destruct (String.eqb_spec k l) as [->|NE].
  - assert (j = i) by (apply (proj1 (NoDup_nth_error ls) ND); [apply nth_error_Some; congruence|congruence]). subst j.
    rewrite (HV (flipped i x) LF l i (- z)%Z) by (auto; rewrite flipped_nth, Nat.eqb_refl, EZ; auto). rewrite (HV x HL l i z) by auto.
    destruct (p_mtype p); cbn [is_ising toggled spin_to]; [apply qz_opp|]. destruct SZ as [->| ->]; apply Qc_is_canon; reflexivity.
  - assert (j <> i) by (intros ->; congruence). rewrite (HV (flipped i x) LF k j z) by (auto; rewrite flipped_nth; rewrite (proj2 (Nat.eqb_neq j i)) by auto; auto).
    rewrite (HV x HL k j z); auto.
Qed.
(** If the last sweep of a read accepted nothing, changing any one variable of its sample raises the energy. *)
Theorem C42_local_minimum : forall w p ls o out r h,
  world_ok w -> well_indexed p ls -> legal_states p o -> result w p o = Ok out -> In r (out_reads out) ->
  d_ahist r = h ++ [0] ->
  let s := as_seen (p_mtype p) (d_sample r) in
  forall l, In l ls ->
  (energy_physical (value_of s) p < energy_physical (assign (value_of s) l (toggled (p_mtype p) (value_of s l))) p)%Qc.
Proof.
  intros w p ls o out r h WO HW HL H HR HA s l Hl. destruct (solve_reads _ _ _ _ _ HW WO H) as (g & HG & HC & HF & _).
  destruct (Forall2_in_r _ _ _ _ HF HR) as (s0 & I0 & HS).
  destruct (rd_run _ _ _ _ _ _ HS) as (x0 & plan & es & acc & x & rs & u & A1 & A2 & A3 & A4 & A5 & A6 & A7 & A8 & AN & D1 & D2 & D3 & D4 & D5).
  assert (SX : Forall spinz x) by (eapply annealed_entries; [apply spin_opp|exact AN|eapply start_spins; eauto]).
  destruct (In_nth_error _ _ Hl) as [i Hi]. unfold s. rewrite D1, as_seen_convert by exact SX. rewrite <- (flipped_sample p ls x i l), <- (vector_sample p ls x) by auto.
  rewrite HA in D5. subst acc. destruct plan as [|tp plan] using rev_ind; [inversion AN; subst; destruct h; discriminate|]. clear IHplan. destruct tp as [t picks].
  apply (annealed_last _ _ _ _ _ _ _ _ _ _ _ _ AN). apply Forall_app in A7. destruct A7 as [_ A7]. inversion A7; subst.
  apply (Permutation_in i (Permutation_sym H2)). apply in_seq. split; [lia|]. apply nth_error_Some. congruence.
Qed.
(** With Boltzmann factors of 0 (temperature 0) the energy never rises. *)
Definition falling (l : list Qc) : Prop :=
  forall i a b, nth_error l i = Some a -> nth_error l (S i) = Some b -> (b <= a)%Qc.
Lemma annealed_falling E bz rs x u plan es acc x' u' : Forall (fun v => (0 <= v)%Qc) rs ->
  (forall d t pr, In t (map fst plan) -> bz d t = Ok pr -> (pr <= 0)%Qc) ->
  annealed E bz rs x u plan es acc x' u' -> falling (es ++ [E x']) /\ (exists l, es ++ [E x'] = E x :: l).
Proof.
  intros HR HB H. induction H as [x u|x u t picks plan x1 u1 a es acc x' u' HV HA IH].
  - split; [|exists []; auto]. intros [|[|i]] a b H1 H2; discriminate.
  - assert (HG : (E x1 <= E x)%Qc) by (eapply visits_greedy; eauto; intros; eapply HB; eauto; simpl; auto).
    destruct IH as [IH (l & EL)]; [intros; eapply HB; eauto; simpl; auto|]. cbn [app]. split; [|eauto].
    intros [|i] a' b' H1 H2; cbn [nth_error] in *; [|eapply IH; eauto]. rewrite EL in H2. cbn [nth_error] in H2. inversion H1; inversion H2; subst. auto.
Qed.
Theorem C42_greedy : forall w p ls o out r,
  world_ok w -> well_indexed p ls -> result w p o = Ok out -> In r (out_reads out) ->
  (forall d t pr, In t (d_thist r) -> w_boltz w d t = Ok pr -> (pr <= 0)%Qc) ->
  falling (d_ehist r ++ [d_energy r - qz 2 * p_offset p]%Qc).
Proof.
  intros w p ls o out r WO HW H HR HB. destruct (solve_reads _ _ _ _ _ HW WO H) as (g & HG & HC & HF & _).
  destruct (Forall2_in_r _ _ _ _ HF HR) as (s0 & I0 & HS).
  destruct (rd_run _ _ _ _ _ _ HS) as (x0 & plan & es & acc & x & rs & u & A1 & A2 & A3 & A4 & A5 & A6 & A7 & A8 & AN & D1 & D2 & D3 & D4 & D5).
  rewrite D2, D3. apply annealed_falling in AN.
  - destruct AN as [HA _]. change [(vector_energy p x - qz 2 * p_offset p)%Qc] with (map (fun e => e - qz 2 * p_offset p)%Qc [vector_energy p x]).
    rewrite <- map_app. intros i a b H1 H2. rewrite nth_error_map in *. destruct (nth_error (es ++ _) i) as [a'|] eqn:E1; [|discriminate].
    destruct (nth_error (es ++ _) (S i)) as [b'|] eqn:E2; [|discriminate]. cbn [option_map] in *. inversion H1; inversion H2; subst.
    apply Qcplus_le_compat; [|apply Qcle_refl]. eapply HA; eauto.
  - eapply Forall_impl; [|exact A6]. intros v [Hv _]. exact Hv.
  - rewrite <- D4. exact HB.
Qed.

(** ** C43 *)
Theorem C43_forward : forall w p ls o out r,
  world_ok w -> well_indexed p ls -> result w p o = Ok out -> In r (out_reads out) -> o_reverse o = RNone ->
  d_thist r = map (fun k => o_temp o * o_rate o ^ k)%Qc (seq 0 (Z.to_nat (o_sweeps o))).
Proof.
  intros w p ls o out r WO HW H HR HN. destruct (solve_reads _ _ _ _ _ HW WO H) as (g & HG & HC & HF & _).
  destruct (Forall2_in_r _ _ _ _ HF HR) as (s0 & I0 & HS). rewrite (rd_temps _ _ _ _ _ _ HS); [|right; rewrite HN; exact I].
  unfold temp_at. rewrite HN. reflexivity.
Qed.
Lemma nth_temps o m k : k < m -> nth_error (map (temp_at o) (seq 0 m)) k = Some (temp_at o k).
Proof. intros H. rewrite nth_error_map. replace (nth_error (seq 0 m) k) with (Some k); auto. symmetry. rewrite (nth_error_nth' _ 0); [rewrite seq_nth; auto|rewrite seq_length; auto]. Qed.
(** Reverse annealing: 1e-9 first, then rising towards reverse_temperature while fewer than reverse_period
    sweeps are done, then geometric cooling. *)
Theorem C43_reverse : forall w p ls o out r d rt per,
  world_ok w -> well_indexed p ls -> result w p o = Ok out -> In r (out_reads out) ->
  o_reverse o = RDict d -> dget "reverse_temperature" d = Some rt -> dget "reverse_period" d = Some per ->
  let m := Z.to_nat (o_sweeps o) in let T k := nth_error (d_thist r) k in
  length (d_thist r) = m /\ (0 < m -> T 0 = Some (qfrac 1 1000000000)) /\
  (forall k, k < m -> 0 < k -> (qz (Z.of_nat k - 1) < per)%Qc -> T k = Some (rt * (1 - o_rate o ^ k))%Qc) /\
  (forall k j t, k + j < m -> (per <= qz (Z.of_nat k))%Qc -> T k = Some t -> T (k + j) = Some (t * o_rate o ^ j)%Qc).
Proof.
  intros w p ls o out r d rt per WO HW H HR HN D1 D2 m T. destruct (solve_reads _ _ _ _ _ HW WO H) as (g & HG & HC & HF & _).
  destruct (Forall2_in_r _ _ _ _ HF HR) as (s0 & I0 & HS).
  assert (RO : reverse_ok (o_reverse o)) by (rewrite HN; split; eauto). assert (ET := rd_temps _ _ _ _ _ _ HS (or_intror RO)).
  assert (TA : forall k, temp_at o k = reverse_temp rt per (o_rate o) k) by (intros k; unfold temp_at; rewrite HN, D1, D2; auto).
  unfold T. rewrite ET. split; [rewrite map_length, seq_length; auto|]. split; [intros; rewrite nth_temps by auto; rewrite TA; auto|]. split.
  - intros k HK H0 HP. rewrite nth_temps by auto. rewrite TA. destruct k as [|k]; [lia|]. cbn [reverse_temp].
    replace (Z.of_nat (S k) - 1)%Z with (Z.of_nat k) in HP by lia. rewrite (proj2 (Qcle_bool_false _ _) HP). reflexivity.
  - intros k j t HK HP HT. fold m in HT |- *. rewrite nth_temps in HT |- * by lia. rewrite TA in HT |- *. inversion HT; subst t. f_equal. clear HK HT. induction j as [|j IH].
    + rewrite Nat.add_0_r. cbn [Qcpower]. ring.
    + rewrite Nat.add_succ_r. cbn [reverse_temp]. rewrite (proj2 (Qcle_bool_iff _ _)); [rewrite IH; cbn [Qcpower]; ring|].
      eapply Qcle_trans; [exact HP|]. apply qz_le. lia.
Qed.

(** ** C44 *)
(** The argument combinations the documentation excludes. *)
Definition bad_args (p : physical) (o : options) : Prop :=
  (p_linear p = [] /\ p_quad p = []) \/
  (init_list o <> [] /\ Z.of_nat (length (init_list o)) <> o_reads o) \/
  (o_pickup o <> "random" /\ o_pickup o <> "sequential") \/
  (exists d, o_reverse o = RDict d /\ d <> [] /\ (dget "reverse_period" d = None \/ dget "reverse_temperature" d = None)) \/
  o_reverse o = ROther true.
(** They are rejected whatever the random source: nothing was sampled, nothing changed. *)
Theorem C44_rejects : forall p o, bad_args p o ->
  exists e, (e = ValueError \/ e = TypeError) /\ forall w, solve w (Some p) o = (o_init o, Err e).
Proof.
  intros p o HB. unfold solve. assert (HC : exists e, check_args p o = Err e /\ (e = ValueError \/ e = TypeError)).
  { unfold check_args. destruct (Nat.eqb (length (p_linear p)) 0 && Nat.eqb (length (p_quad p)) 0) eqn:E1; [eauto|].
    destruct (has_init o && _) eqn:E2; [eauto|]. destruct (String.eqb (o_pickup o) "random" || String.eqb (o_pickup o) "sequential") eqn:E3; cbn [negb]; [|eauto].
    unfold check_reverse. destruct HB as [[H1 H2]|[[H1 H2]|[[H1 H2]|[(d & H1 & H2 & H3)|H1]]]].
    - rewrite H1, H2 in E1. discriminate.
    - unfold has_init in E2. destruct (init_list o); [congruence|]. cbn [length Nat.eqb negb andb] in E2. apply negb_false_iff, Z.eqb_eq in E2. contradiction.
    - apply orb_true_iff in E3. rewrite !String.eqb_eq in E3. tauto.
    - rewrite H1. destruct d as [|kv d]; [congruence|]. cbn [rev_truthy length Nat.eqb negb].
      assert (HM : forall k, dget k (kv :: d) = None -> dmem k (kv :: d) = false) by (intros k Hk; unfold dmem; rewrite Hk; auto).
      destruct (dmem "reverse_period" (kv :: d)) eqn:EP; cbn [negb]; [|eauto].
      destruct (dmem "reverse_temperature" (kv :: d)) eqn:ER; cbn [negb]; [|eauto]. destruct H3 as [H3|H3]; apply HM in H3; congruence.
    - rewrite H1. cbn [rev_truthy]. eauto. }
  destruct HC as (e & -> & HE). eauto.
Qed.
Theorem C44_wrong_model : forall w o, solve w None o = (o_init o, Err TypeError).
Proof. reflexivity. Qed.

(** ** A world and models for the examples *)
Definition const_gen (b : bool) : generator :=
  mkGen (fun tr => match tr with RIntegers n :: _ => repeat b n | _ => [] end)
        (fun tr => match tr with RRandom n :: _ => repeat (qfrac 1 2) n | _ => [] end)
        (fun tr => match tr with RPermutation n :: _ => rev (seq 0 n) | _ => [] end).
Lemma const_gen_ok b : rng_ok (const_gen b).
Proof.
  split; intros n tr; cbn.
  - apply repeat_length.
  - split; [apply repeat_length|]. apply Forall_forall. intros v HV. apply repeat_spec in HV. subst. split; [intros H; discriminate|reflexivity].
  - symmetry. apply Permutation_rev.
Qed.
Definition world0 : world := mkWorld (fun z => const_gen (Z.even z)) (const_gen true) (fun d t => Ok 0%Qc).
Lemma world0_ok : world_ok world0.
Proof. split; [|intros z]; apply const_gen_ok. Qed.
Lemma boltz0_ok : boltz_ok world0.
Proof. intros d t _ _. exists 0%Qc. reflexivity. Qed.
Definition phys2 (t : mtype) : physical :=
  mkPhysical t [("a", qz 1); ("b", qz (-2))] [(("a", "b"), qz 3)] (qz 5) ["a"; "b"] [("a", 0); ("b", 1)] [(0, "a"); (1, "b")].
Lemma phys2_indexed t : well_indexed (phys2 t) ["a"; "b"].
Proof.
  split; [repeat constructor; simpl; intuition discriminate|]. split; [|split; [reflexivity|]].
  - intros l i. cbn [p_l2i phys2 dget]. destruct (eqb l "a") eqn:E1.
    + apply eqb_eq in E1. subst. split; [intros H; inversion H; reflexivity|]. destruct i as [|[|[|i]]]; cbn; intros H; inversion H; auto.
    + destruct (eqb l "b") eqn:E2.
      * apply eqb_eq in E2. subst. split; [intros H; inversion H; reflexivity|]. destruct i as [|[|[|i]]]; cbn; intros H; inversion H; auto.
      * split; [discriminate|]. destruct i as [|[|[|i]]]; cbn; intros H; inversion H; subst; rewrite ?eqb_refl in *; discriminate.
  - intros l. unfold occurs. cbn. split.
    + intros [<-|[<-|[]]]; left; auto.
    + intros [H|(a & b & [H|[]] & HL)]; [intuition|]. inversion H; subst. destruct HL; subst; auto.
Qed.
Definition options0 : options := mkOptions 2 3 (qfrac 1 2) (qz 10) None RNone "random" None.
Definition options1 : options := mkOptions 1 2 (qfrac 1 2) (qz 10) (Some [[("a", 0%Z); ("b", 1%Z)]]) (RDict [("reverse_period", qz 1); ("reverse_temperature", qz 4)]) "sequential" (Some 7%Z).
Lemma legal0 t : legal_states (phys2 t) options0.
Proof. intros s l z []. Qed.
Lemma legal1 : legal_states (phys2 Qubo) options1.
Proof.
  intros s l z [<-|[]] _ H. cbn in H. cbn [phys2 p_mtype legal]. destruct (String.eqb l "a"); [inversion H; auto|]. destruct (String.eqb l "b"); [inversion H; auto|discriminate].
Qed.
Lemma quad2_loop t : forall l, ~ In (l, l) (dkeys (p_quad (phys2 t))).
Proof. intros l [H|[]]. inversion H; subst. discriminate. Qed.

(** The hypotheses of the theorems above hold for a QUBO with reverse annealing from given states and an
    Ising model with random starts; the results are not trivial. *)
Definition okshape (r : res outcome) : list (nat * list nat * nat) :=
  match r with Ok o => map (fun d => (length (out_set o), d_ahist d, length (d_thist d))) (out_reads o) | Err _ => [] end.
Example C39_C43_hyps :
  world_ok world0 /\ boltz_ok world0 /\
  (well_indexed (phys2 Qubo) ["a"; "b"] /\ legal_states (phys2 Qubo) options1 /\ complete_states ["a"; "b"] options1 /\
   reverse_ok (o_reverse options1) /\ positive_schedule options1 /\ okshape (result world0 (phys2 Qubo) options1) = [(1, [1; 0], 2)]) /\
  (well_indexed (phys2 Ising) ["a"; "b"] /\ legal_states (phys2 Ising) options0 /\ complete_states ["a"; "b"] options0 /\
   positive_schedule options0 /\ okshape (result world0 (phys2 Ising) options0) = [(1, [0; 0; 0], 3); (1, [0; 0; 0], 3)]).
Proof.
  split; [apply world0_ok|]. split; [apply boltz0_ok|]. split.
  - split; [apply phys2_indexed|]. split; [apply legal1|]. split.
    { right. split; [reflexivity|]. intros s l [<-|[]] [<-|[<-|[]]]; eexists; reflexivity. }
    split; [split; eexists; reflexivity|]. split; [split; [reflexivity|split; [reflexivity|intros rt H; inversion H; reflexivity]]|].
    vm_compute. reflexivity.
  - split; [apply phys2_indexed|]. split; [apply legal0|]. split; [left; reflexivity|]. split; [split; reflexivity|]. vm_compute. reflexivity.
Qed.
(** reverse_options={} passes the checks and fails in the first sweep, with a KeyError. *)
Theorem C44_refuted : exists w p ls o,
  world_ok w /\ boltz_ok w /\ well_indexed p ls /\ complete_states ls o /\ ~ bad_args p o /\ positive_schedule (mkOptions 1 1 (o_rate o) (o_temp o) None RNone "random" None) /\
  o_reverse o = RDict [] /\ result w p o = Err KeyError.
Proof.
  exists world0, (phys2 Ising), ["a"; "b"], (mkOptions 1 1 (qfrac 1 2) (qz 10) None (RDict []) "random" None).
  split; [apply world0_ok|]. split; [apply boltz0_ok|]. split; [apply phys2_indexed|]. split; [left; reflexivity|]. split.
  - intros [[H _]|[[H _]|[[H _]|[(d & H & H2 & _)|H]]]]; cbn in *; try congruence.
  - split; [split; reflexivity|]. split; reflexivity.
Qed.
(** Everything else that is well-formed is accepted. *)
Theorem C44_accepts_partial : forall w p ls o,
  world_ok w -> boltz_ok w -> well_indexed p ls -> (forall l, ~ In (l, l) (dkeys (p_quad p))) ->
  (0 <= o_sweeps o)%Z -> (forall z, o_seed o = Some z -> (0 <= z)%Z) -> positive_schedule o ->
  (forall s l, In s (init_list o) -> In l ls -> exists z, dget l s = Some z) ->
  ~ bad_args p o -> o_reverse o <> RDict [] -> o_reverse o <> ROther false ->
  exists out, result w p o = Ok out.
Proof.
  intros w p ls o WO BO HW NL HZ HSD PS CS NB N1 N2. apply (C41_succeeds w p ls o); auto.
  - intros ->. destruct HW as (_ & _ & _ & HO). apply NB. left. split.
    + destruct (p_linear p) as [|[l c] d] eqn:E; auto. exfalso. apply (proj2 (HO l)). left. rewrite E. simpl; auto.
    + destruct (p_quad p) as [|[[u v] c] d] eqn:E; auto. exfalso. apply (proj2 (HO u)). right. exists u, v. rewrite E. simpl; auto.
  - destruct (string_dec (o_pickup o) "random"); auto. destruct (string_dec (o_pickup o) "sequential"); auto. exfalso. apply NB. unfold bad_args. auto.
  - destruct (o_reverse o) as [|d|[]] eqn:E; cbn [reverse_ok]; auto; try (exfalso; apply NB; unfold bad_args; tauto); try congruence.
    assert (HD : d <> []) by (intros ->; congruence). split.
    + destruct (dget "reverse_period" d) eqn:E2; eauto. exfalso. apply NB. unfold bad_args. right. right. right. left. exists d. auto.
    + destruct (dget "reverse_temperature" d) eqn:E2; eauto. exfalso. apply NB. unfold bad_args. right. right. right. left. exists d. auto.
  - unfold complete_states. destruct (init_list o) as [|s r] eqn:E; auto. right. split; auto.
    destruct (Z.eq_dec (Z.of_nat (length (s :: r))) (o_reads o)); auto. exfalso. apply NB. unfold bad_args. right. left. rewrite E. split; auto. discriminate.
Qed.
Example C44_hyps : ~ bad_args (phys2 Qubo) options1 /\ bad_args (phys2 Qubo) (mkOptions 2 1 (qz 1) (qz 1) (Some [[]]) RNone "random" None) /\
  bad_args (mkPhysical Ising [] [] (qz 3) [] [] []) options0 /\
  bad_args (phys2 Ising) (mkOptions 2 1 (qz 1) (qz 1) None (RDict [("reverse_period", qz 1)]) "random" None).
Proof.
  split; [|split; [|split]].
  - intros [[H _]|[[H H2]|[[H H2]|[(d & H & H2 & H3)|H]]]]; cbn in *; try congruence. inversion H; subst. destruct H3; discriminate.
  - right. left. split; discriminate.
  - left. auto.
  - right. right. right. left. eexists. split; [reflexivity|]. split; [discriminate|]. right. reflexivity.
Qed.

(** ** C45 *)
Lemma flips_boltz w1 w2 lin adj rs temp : w_boltz w1 = w_boltz w2 -> forall idxs k, flips w1 lin adj rs temp k idxs = flips w2 lin adj rs temp k idxs.
Proof.
  intros HB. induction idxs as [|i r IH]; intros k; cbn [flips]; auto. unfold flip, is_acceptable. rewrite HB.
  destruct (calc_energy_diff lin adj i (k_x k)) as [d|]; cbn [rbind]; auto. destruct (Qcle_bool d 0); cbn [rbind fst snd]; auto.
  destruct (w_boltz w2 d temp); cbn [rbind]; auto. destruct (item rs (k_used k)); cbn [rbind fst snd]; auto. destruct (Qclt_bool _ _); cbn [rbind]; auto.
Qed.
Lemma sweeps_boltz w1 w2 g o lin adj n rs : w_boltz w1 = w_boltz w2 -> forall ks st, sweeps w1 g o lin adj n rs st ks = sweeps w2 g o lin adj n rs st ks.
Proof.
  intros HB. induction ks as [|k ks IH]; intros st; cbn [sweeps]; auto.
  assert (HE : sweep_once w1 g o lin adj n rs st k = sweep_once w2 g o lin adj n rs st k).
  { unfold sweep_once. destruct (if s_reversing st then _ else _); cbn [rbind]; auto. destruct (pickups g (o_pickup o) n (s_trace st)).
    rewrite (flips_boltz w1 w2) by auto. auto. }
  rewrite HE. destruct (sweep_once w2 g o lin adj n rs st k); cbn [rbind]; auto.
Qed.
Lemma reads_boltz w1 w2 g o p orig b lin adj : w_boltz w1 = w_boltz w2 -> forall inits tr, reads w1 g o p orig b lin adj inits tr = reads w2 g o p orig b lin adj inits tr.
Proof.
  intros HB. induction inits as [|s0 r IH]; intros tr; cbn [reads]; auto.
  assert (HE : annealing w1 g o p orig b lin adj s0 tr = annealing w2 g o p orig b lin adj s0 tr).
  { unfold annealing. destruct (initial_spins g p b s0 tr); cbn [rbind]; auto. destruct (bqm_energy _ _); cbn [rbind]; auto.
    destruct (if rev_truthy _ then _ else _); cbn [rbind]; auto. destruct (_ <? 0)%Z; auto. rewrite (sweeps_boltz w1 w2) by auto. auto. }
  rewrite HE. destruct (annealing w2 g o p orig b lin adj s0 tr); cbn [rbind]; auto. rewrite IH. auto.
Qed.
(** Two runs with the same seed differ in nothing but what default_rng() without a seed would return. *)
Theorem C45_seeded_partial : forall seeded fresh1 fresh2 boltz mo o z,
  o_seed o = Some z -> z <> 0%Z ->
  solve (mkWorld seeded fresh1 boltz) mo o = solve (mkWorld seeded fresh2 boltz) mo o.
Proof.
  intros sd f1 f2 bz mo o z HZ NZ. unfold solve. destruct mo as [p|]; auto. destruct (check_args p o); auto.
  unfold pick_rng. rewrite HZ. destruct (Z.eqb_spec z 0); [contradiction|]. destruct (z <? 0)%Z; auto. destruct (to_bqm 1 p); auto.
  cbv zeta. cbn [w_seeded]. f_equal. destruct (fill_linear _ _ _); cbn [rbind]; auto. destruct (fill_adj _ _ _ _); cbn [rbind]; auto.
  rewrite (reads_boltz (mkWorld sd f1 bz) (mkWorld sd f2 bz)) by reflexivity. auto.
Qed.
(** Seed 0 is treated as no seed. *)
Theorem C45_refuted : exists seeded fresh1 fresh2 boltz p o,
  world_ok (mkWorld seeded fresh1 boltz) /\ world_ok (mkWorld seeded fresh2 boltz) /\ o_seed o = Some 0%Z /\
  exists out1 out2, result (mkWorld seeded fresh1 boltz) p o = Ok out1 /\ result (mkWorld seeded fresh2 boltz) p o = Ok out2 /\
    map (fun r : srow => fst (fst r)) (out_set out1) <> map (fun r : srow => fst (fst r)) (out_set out2).
Proof.
  exists (fun _ => const_gen true), (const_gen true), (const_gen false), (fun _ _ => Ok 0%Qc), (phys2 Ising), (mkOptions 1 0 (qz 1) (qz 1) None RNone "random" (Some 0%Z)).
  split; [split; intros; apply const_gen_ok|]. split; [split; intros; apply const_gen_ok|]. split; auto.
  eexists. eexists. split; [reflexivity|]. split; [reflexivity|]. discriminate.
Qed.
Example C45_hyps : exists out, result world0 (phys2 Qubo) options1 = Ok out /\ o_seed options1 = Some 7%Z.
Proof. destruct (result world0 (phys2 Qubo) options1) as [out|e] eqn:E; [eauto|vm_compute in E; discriminate]. Qed.

(** ** C65: the energy history *)
(** Entries are off by twice the offset: the energy of a legal sample minus 2 * offset. *)
Theorem C65_shift : forall w p ls o out r,
  world_ok w -> well_indexed p ls -> legal_states p o -> result w p o = Ok out -> In r (out_reads out) ->
  forall e, In e (d_ehist r) ->
  exists s, dkeys s = ls /\ Forall (legal (p_mtype p)) (dvals s) /\ e = (energy_physical (value_of s) p - qz 2 * p_offset p)%Qc.
Proof.
  intros w p ls o out r WO HW HL H HR e HE. destruct (solve_reads _ _ _ _ _ HW WO H) as (g & HG & HC & HF & _).
  destruct (Forall2_in_r _ _ _ _ HF HR) as (s0 & I0 & HS).
  destruct (rd_run _ _ _ _ _ _ HS) as (x0 & plan & es & acc & x & rs & u & A1 & A2 & A3 & A4 & A5 & A6 & A7 & A8 & AN & D1 & D2 & D3 & D4 & D5).
  rewrite D3 in HE. apply in_map_iff in HE. destruct HE as (e' & <- & HE).
  assert (SX : Forall spinz x0) by (eapply start_spins; eauto).
  assert (HY : exists y, length y = length ls /\ Forall spinz y /\ e' = vector_energy p y).
  { clear - AN HE SX A1. revert A1 SX HE. induction AN as [|x0 u t picks plan x1 u1 a es acc x' u' HV HA IH]; intros A1 SX HE; [destruct HE|]. destruct HE as [HE|HE].
    - exists x0. auto.
    - apply IH; auto; [apply visits_used in HV; destruct HV as (_ & _ & -> & _); auto|eapply visits_entries; [apply spin_opp|eauto|auto]]. }
  destruct HY as (y & LY & SY & ->). exists (convert_sample (is_ising (p_mtype p)) (combine ls y)).
  rewrite <- (vector_sample p ls y) by auto. rewrite convert_combine by auto.
  split; [unfold dkeys; apply map_fst_combine; rewrite map_length; auto|]. split; auto.
  unfold dvals. rewrite map_snd_combine by (rewrite map_length; auto). apply Forall_forall. intros z HZ. apply in_map_iff in HZ.
  destruct HZ as (z' & <- & HZ). rewrite Forall_forall in SY. apply spin_to_legal. auto.
Qed.
(** The first entry is the energy of the given initial state, minus 2 * offset. *)
Theorem C65_first : forall w p ls o out i r s e,
  world_ok w -> well_indexed p ls -> legal_states p o -> result w p o = Ok out ->
  nth_error (init_list o) i = Some s -> nth_error (out_reads out) i = Some r -> nth_error (d_ehist r) 0 = Some e ->
  e = (energy_physical (value_of s) p - qz 2 * p_offset p)%Qc.
Proof.
  intros w p ls o out i r s e WO HW HL H HI HR HE. destruct (solve_reads _ _ _ _ _ HW WO H) as (g & HG & HC & HF & _).
  assert (HST : nth_error (start_states p o) i = Some (Some (match p_mtype p with Ising => s | Qubo => to_spin_state s end))).
  { unfold start_states. assert (has_init o = true) as -> by (unfold has_init; destruct (init_list o); [destruct i; discriminate|reflexivity]).
    apply map_nth_error. destruct (p_mtype p); auto. apply map_nth_error. auto. }
  assert (HS : read_spec p ls w o (Some (match p_mtype p with Ising => s | Qubo => to_spin_state s end)) r).
  { clear - HF HST HR. revert i HST HR. induction HF; intros [|i] H1 H2; cbn [nth_error] in *; try discriminate; [inversion H1; inversion H2; subst; auto|eauto]. }
  destruct (rd_run _ _ _ _ _ _ HS) as (x0 & plan & es & acc & x & rs & u & A1 & A2 & A3 & A4 & A5 & A6 & A7 & A8 & AN & D1 & D2 & D3 & D4 & D5).
  rewrite D3 in HE. assert (EE : e = (vector_energy p x0 - qz 2 * p_offset p)%Qc) by (inversion AN; subst; cbn in HE; inversion HE; auto).
  rewrite EE. f_equal. assert (SX : Forall spinz x0).
  { eapply start_spins with (s0 := Some _); eauto. eapply nth_error_In; eauto. }
  rewrite (vector_sample p ls) by auto. rewrite convert_combine by auto. apply energy_physical_ext. intros l OC.
  pose proof HW as (ND & _ & _ & HO). apply HO in OC as OL. destruct (In_nth_error _ _ OL) as [j Hj]. destruct (A2 j l Hj) as (z & Z1 & Z2).
  rewrite (value_combine ls _ l j (spin_to (is_ising (p_mtype p)) z)); auto; [|rewrite map_length; auto|apply map_nth_error; auto].
  unfold value_of. destruct (p_mtype p) eqn:ET; cbn [is_ising spin_to].
  - rewrite Z1. auto.
  - unfold to_spin_state in Z1. rewrite (dget_map (fun v => if Z.eqb v 0 then (-1)%Z else v)) in Z1. destruct (dget l s) as [v|] eqn:EV; [|discriminate].
    cbn [option_map] in Z1. inversion Z1; subst z. specialize (HL s l v (nth_error_In _ _ HI) OC EV). rewrite ET in HL. destruct HL as [->| ->]; reflexivity.
Qed.
Theorem C65_exact_partial : forall w p ls o out i r s e,
  world_ok w -> well_indexed p ls -> legal_states p o -> result w p o = Ok out -> p_offset p = 0%Qc ->
  nth_error (init_list o) i = Some s -> nth_error (out_reads out) i = Some r -> nth_error (d_ehist r) 0 = Some e ->
  e = energy_physical (value_of s) p.
Proof. intros w p ls o out i r s e WO HW HL H HZ HI HR HE. rewrite (C65_first w p ls o out i r s e) by auto. rewrite HZ. ring. Qed.
Theorem C65_refuted : exists w p ls o out r s e,
  world_ok w /\ well_indexed p ls /\ legal_states p o /\ result w p o = Ok out /\
  init_list o = [s] /\ out_reads out = [r] /\ nth_error (d_ehist r) 0 = Some e /\ e <> energy_physical (value_of s) p.
Proof.
  assert (C : match result world0 (phys2 Qubo) options1 with
              | Ok out => match out_reads out with
                          | [r] => match d_ehist r with
                                   | e :: _ => negb (Qc_eqb e (energy_physical (value_of [("a", 0%Z); ("b", 1%Z)]) (phys2 Qubo)))
                                   | [] => false end
                          | _ => false end
              | Err _ => false end = true) by (vm_compute; reflexivity).
  destruct (result world0 (phys2 Qubo) options1) as [out|e] eqn:E; [|discriminate].
  destruct (out_reads out) as [|r [|]] eqn:ER; [discriminate| |discriminate].
  destruct (d_ehist r) as [|e h] eqn:EE; [discriminate|].
  exists world0, (phys2 Qubo), ["a"; "b"], options1, out, r, [("a", 0%Z); ("b", 1%Z)], e.
  split; [apply world0_ok|]. split; [apply phys2_indexed|]. split; [apply legal1|]. split; auto. split; auto. split; auto. rewrite EE. split; auto.
  intros H. apply negb_true_iff in C. rewrite (proj2 (Qc_eqb_eq _ _) H) in C. discriminate.
Qed.

(** ** C66: what solve does to its arguments *)
Definition with_init (o : options) (i : option (list (dict string Z))) : options :=
  mkOptions (o_reads o) (o_sweeps o) (o_rate o) (o_temp o) i (o_reverse o) (o_pickup o) (o_seed o).
(** No state is changed when the model is an Ising model or no value is 0. *)
Theorem C66_unchanged_partial : forall w p o,
  p_mtype p = Ising \/ (forall s l z, In s (init_list o) -> In (l, z) s -> z <> 0%Z) ->
  fst (solve w (Some p) o) = o_init o.
Proof.
  intros w p o HC. unfold solve. destruct (check_args p o); auto. destruct (pick_rng w (o_seed o)); auto.
  destruct (to_bqm 1 p) as [orig|] eqn:EB; auto. cbv zeta. cbn [fst].
  destruct (to_bqm_spec _ _ _ EB) as (_ & _ & _ & _ & _ & H6 & _). destruct HC as [HC|HC].
  - rewrite HC in H6. rewrite H6. reflexivity.
  - destruct (negb (b_spin orig) && has_init o) eqn:E; auto. apply andb_true_iff in E. destruct E as [_ E]. unfold has_init, init_list in *.
    destruct (o_init o) as [l|]; [|discriminate]. f_equal. rewrite <- (map_id l) at 2. apply map_ext_in. intros s HS.
    unfold to_spin_state. rewrite <- (map_id s) at 2. apply map_ext_in. intros [k z] HK. cbn [fst snd].
    destruct (Z.eqb_spec z 0); auto. exfalso. eapply HC; eauto.
Qed.
(** Otherwise each 0 becomes -1; a second call with the changed states gives the same result. *)
Theorem C66_exact_effect : forall w p o out, p_mtype p = Qubo -> o_init o <> None -> result w p o = Ok out ->
  fst (solve w (Some p) o) = option_map (map (map (fun kv => (fst kv, if Z.eqb (snd kv) 0 then (-1)%Z else snd kv)))) (o_init o).
Proof.
  intros w p o out HT HN H. unfold result, solve in *. destruct (check_args p o); [|discriminate]. destruct (pick_rng w (o_seed o)); [|discriminate].
  destruct (to_bqm 1 p) as [orig|] eqn:EB; [|discriminate]. cbv zeta. cbn [fst].
  destruct (to_bqm_spec _ _ _ EB) as (_ & _ & _ & _ & _ & H6 & _). rewrite HT in H6. rewrite H6. cbn [negb andb]. unfold has_init, init_list.
  destruct (o_init o) as [[|s l]|]; [reflexivity|reflexivity|congruence].
Qed.
Lemma to_spin_state_twice s : to_spin_state (to_spin_state s) = to_spin_state s.
Proof.
  unfold to_spin_state. rewrite map_map. apply map_ext. intros [k z]. cbn [fst snd]. destruct (Z.eqb_spec z 0); auto.
  destruct (Z.eqb_spec z 0); auto. contradiction.
Qed.
Theorem C66_repeatable : forall w p o,
  solve w (Some p) (with_init o (fst (solve w (Some p) o))) = solve w (Some p) o.
Proof.
  intros w p o. assert (HW : with_init o (o_init o) = o) by (destruct o; reflexivity).
  assert (HF : fst (solve w (Some p) o) = o_init o \/
    fst (solve w (Some p) o) = Some (map to_spin_state (init_list o)) /\ check_args p o = Ok tt /\ has_init o = true /\
    exists g orig, pick_rng w (o_seed o) = Ok g /\ to_bqm 1 p = Ok orig /\ negb (b_spin orig) = true).
  { unfold solve. destruct (check_args p o) as [[]|]; auto. destruct (pick_rng w (o_seed o)) as [g|]; auto. destruct (to_bqm 1 p) as [orig|]; auto.
    cbv zeta. cbn [fst]. destruct (negb (b_spin orig)) eqn:E1; destruct (has_init o) eqn:E2; cbn [andb]; auto. right. repeat split; auto. exists g, orig. auto. }
  destruct HF as [->|(-> & EC & E2 & g & orig & EG & EB & E1)]; [rewrite HW; auto|].
  set (o' := with_init o (Some (map to_spin_state (init_list o)))).
  assert (HI : init_list o' = map to_spin_state (init_list o)) by reflexivity.
  assert (HH : has_init o' = true) by (unfold has_init in *; rewrite HI, map_length; auto).
  assert (EC' : check_args p o' = Ok tt).
  { revert EC. unfold check_args. rewrite HI, map_length, HH, E2. destruct o; auto. }
  assert (HR : forall w g p orig b lin adj inits tr, reads w g o' p orig b lin adj inits tr = reads w g o p orig b lin adj inits tr).
  { assert (HS : forall w g lin adj n rs ks st, sweeps w g o' lin adj n rs st ks = sweeps w g o lin adj n rs st ks).
    { induction ks as [|k ks IH]; intros st; cbn [sweeps]; auto. change (sweep_once w0 g0 o' lin adj n rs st k) with (sweep_once w0 g0 o lin adj n rs st k).
      destruct (sweep_once w0 g0 o lin adj n rs st k); cbn [rbind]; auto. }
    induction inits as [|s0 r IH]; intros tr; cbn [reads]; auto.
    assert (HE : annealing w0 g0 o' p0 orig0 b lin adj s0 tr = annealing w0 g0 o p0 orig0 b lin adj s0 tr).
    { unfold annealing. destruct (initial_spins g0 p0 b s0 tr); cbn [rbind]; auto. destruct (bqm_energy _ _); cbn [rbind]; auto.
      change (o_reverse o') with (o_reverse o). change (o_temp o') with (o_temp o). change (o_sweeps o') with (o_sweeps o).
      destruct (if rev_truthy _ then _ else _); cbn [rbind]; auto. destruct (_ <? 0)%Z; auto. rewrite HS. auto. }
    rewrite HE. destruct (annealing w0 g0 o p0 orig0 b lin adj s0 tr); cbn [rbind]; auto. rewrite IH. auto. }
  unfold solve. rewrite EC, EC'. change (o_seed o') with (o_seed o). rewrite EG, EB. cbv zeta. rewrite HH, E2, E1. cbn [andb]. rewrite HI, map_map.
  rewrite (map_ext _ _ to_spin_state_twice). f_equal.
  destruct (fill_linear _ _ _); cbn [rbind]; auto. destruct (fill_adj _ _ _ _); cbn [rbind]; auto. rewrite HR. auto.
Qed.
Theorem C66_refuted : exists w p o out, world_ok w /\ well_indexed p ["a"; "b"] /\ legal_states p o /\
  result w p o = Ok out /\ fst (solve w (Some p) o) <> o_init o.
Proof.
  destruct (result world0 (phys2 Qubo) options1) as [out|e] eqn:E; [|vm_compute in E; discriminate].
  exists world0, (phys2 Qubo), options1, out. split; [apply world0_ok|]. split; [apply phys2_indexed|]. split; [apply legal1|]. split; auto.
  rewrite (C66_exact_effect _ _ _ out) by (auto; discriminate). discriminate.
Qed.
Example C66_hyps : fst (solve world0 (Some (phys2 Ising)) options0) = o_init options0 /\
  fst (solve world0 (Some (phys2 Qubo)) options1) = Some [[("a", (-1)%Z); ("b", 1%Z)]].
Proof. split; reflexivity. Qed.

(** ** C67: from a logical model to the reported energies *)
Lemma dvals_nth {V} (d : dict nat V) ls : dkeys d = seq 0 (length ls) ->
  (forall v i, dget i d = Some v <-> nth_error ls i = Some v) -> dvals d = ls.
Proof.
  intros HK HG. assert (LD : length d = length ls) by (rewrite <- (seq_length (length ls) 0), <- HK; unfold dkeys; rewrite map_length; auto).
  assert (HN : forall i, nth_error (dvals d) i = nth_error ls i).
  { intros i. unfold dvals. rewrite nth_error_map. destruct (nth_error d i) as [[k v]|] eqn:E.
    - cbn [option_map snd]. symmetry. apply HG. assert (EK : nth_error (dkeys d) i = Some k) by (unfold dkeys; rewrite nth_error_map, E; auto).
      rewrite HK in EK. assert (i < length ls) by (rewrite <- LD; apply nth_error_Some; congruence).
      rewrite (nth_error_nth' _ 0) in EK by (rewrite seq_length; auto). rewrite seq_nth in EK by auto. inversion EK; subst k.
      apply in_dget; [rewrite HK; apply seq_NoDup|]. eapply nth_error_In; eauto.
    - cbn [option_map]. symmetry. apply nth_error_None. apply nth_error_None in E. lia. }
  clear - HN LD. assert (LV : length (dvals d) = length ls) by (unfold dvals; rewrite map_length; auto). revert LV HN. generalize (dvals d). clear.
  intros l. revert ls. induction l as [|a l IH]; intros [|b ls] LV HN; try discriminate; auto. f_equal.
  - specialize (HN 0). inversion HN; auto.
  - apply IH; [inversion LV; auto|]. intros i. apply (HN (S i)).
Qed.
(** Every variable with a coefficient is a declared variable that is not deleted. *)
Definition covered (m : lmodel) (p : physical) : Prop :=
  forall l, occurs p l -> In l (all_labels (m_vars m)) /\ ~ In l (dkeys (m_deleted m)).
Theorem C67_indexed : forall ev evs fd m m' p,
  m_len m = length (m_rows m) -> NoDup (all_labels (m_vars m)) -> to_physical ev evs fd m = (m', Ok p) -> covered m p ->
  exists ls, well_indexed p ls.
Proof.
  intros ev evs fd m m' p HL HN E HC. destruct (C13_index_bijection _ _ _ _ _ _ HL HN E) as (ls & N & _ & _ & K2 & G1 & G2 & HI).
  exists ls. split; auto. split; auto. split; [apply dvals_nth; auto|]. intros l. rewrite HI. split; [tauto|]. intros HO. destruct (HC l HO). auto.
Qed.
Lemma value_binary s : Forall (legal Qubo) (dvals s) -> binary (value_of s).
Proof.
  intros HF l. unfold value_of. destruct (dget l s) as [z|] eqn:E; [|left; auto]. apply dget_in in E. apply (in_map snd) in E.
  rewrite Forall_forall in HF. destruct (HF _ E) as [H|H]; cbn [snd] in H; rewrite H; [left; apply qz_0|right; apply qz_1].
Qed.
Theorem C67_energy : forall ev evs fd m m' p w o out s e c,
  m_len m = length (m_rows m) -> NoDup (all_labels (m_vars m)) -> to_physical ev evs fd m = (m', Ok p) -> covered m p ->
  m_constrs m = [] -> world_ok w -> legal_states p o -> result w p o = Ok out -> In (s, e, c) (out_set out) ->
  e = energy fd (value_of s) m.
Proof.
  intros ev evs fd m m' p w o out s e c HL HN E HC HE WO LS H HI. destruct (C67_indexed _ _ _ _ _ _ HL HN E HC) as [ls HW].
  rewrite (C39_reported_energy w p ls o out s e c) by auto. eapply C09_no_constraints; eauto.
Qed.
Theorem C67_energy_qubo : forall ev evs fd m m' p w o out s e c,
  m_len m = length (m_rows m) -> NoDup (all_labels (m_vars m)) -> to_physical ev evs fd m = (m', Ok p) -> covered m p ->
  m_mtype m = Qubo -> Forall constr_ok (dvals (m_constrs m)) -> world_ok w -> legal_states p o -> result w p o = Ok out -> In (s, e, c) (out_set out) ->
  e = (energy fd (value_of s) m + penalties (value_of s) (dvals (m_constrs m)))%Qc.
Proof.
  intros ev evs fd m m' p w o out s e c HL HN E HC HT HO WO LS H HI. destruct (C67_indexed _ _ _ _ _ _ HL HN E HC) as [ls HW].
  rewrite (C39_reported_energy w p ls o out s e c) by auto. eapply C09_qubo; eauto. apply value_binary.
  destruct (to_physical_ok _ _ _ _ _ _ HL E) as (cms & _ & _ & EP).
  assert (PT : p_mtype p = Qubo) by (rewrite EP; unfold phys, build_physical; cbv zeta; destruct (index_labels _ _ _ _ _ _); exact HT).
  destruct (C40_samples w p ls o out WO HW LS H) as (HS & _). rewrite <- PT. apply (HS s e c HI).
Qed.
(** Ising: [a] gives the sample's variables their values, and -1 or +1 to the others. *)
Theorem C67_energy_ising : forall ev evs fd m m' p w o out s e c a,
  m_len m = length (m_rows m) -> NoDup (all_labels (m_vars m)) -> to_physical ev evs fd m = (m', Ok p) -> covered m p ->
  m_mtype m = Ising -> Forall constr_ok (dvals (m_constrs m)) -> world_ok w -> legal_states p o -> result w p o = Ok out -> In (s, e, c) (out_set out) ->
  spin a -> (forall l, In l (dkeys s) -> a l = value_of s l) ->
  e = (energy fd a m + penalties (to_binary a) (dvals (m_constrs m)) + qsum (map ising_shift (dvals (m_constrs m))))%Qc.
Proof.
  intros ev evs fd m m' p w o out s e c a HL HN E HC HT HO WO LS H HI SA HA. destruct (C67_indexed _ _ _ _ _ _ HL HN E HC) as [ls HW].
  rewrite <- (C09_ising _ _ _ _ _ _ a HL HT HO E SA). rewrite (C39_reported_energy w p ls o out s e c) by auto.
  destruct (C40_samples w p ls o out WO HW LS H) as (HS & _). destruct (HS s e c HI) as (HK & _).
  apply energy_physical_ext. intros l OC. symmetry. apply HA. rewrite HK. destruct HW as (_ & _ & _ & HO1). apply HO1, OC.
Qed.
(** The model of any history of API calls can be solved. *)
Theorem C67_solvable : forall ev evs fd m m' p w o,
  reachable m -> m_len m = length (m_rows m) -> NoDup (all_labels (m_vars m)) -> to_physical ev evs fd m = (m', Ok p) -> covered m p ->
  (exists l, occurs p l) -> world_ok w -> boltz_ok w ->
  (0 <= o_sweeps o)%Z -> o_pickup o = "random" \/ o_pickup o = "sequential" ->
  (forall z, o_seed o = Some z -> (0 <= z)%Z) -> reverse_ok (o_reverse o) -> positive_schedule o -> o_init o = None ->
  exists out, result w p o = Ok out.
Proof.
  intros ev evs fd m m' p w o HR HL HN E HC [l0 HX] WO BO HZ HP HS HRV PS HI. destruct (C67_indexed _ _ _ _ _ _ HL HN E HC) as [ls HW].
  apply (C41_succeeds w p ls o); auto.
  - intros ->. destruct HW as (_ & _ & _ & HO). apply (proj2 (HO l0) HX).
  - apply (C37_succeeds_iff 1%Qc p). eapply C37_from_logical; eauto.
  - left. unfold init_list. rewrite HI. auto.
Qed.
Example C67_hyps : exists m' p out, to_physical env0 evs0 feed0 qubo_model = (m', Ok p) /\ covered qubo_model p /\ m_len qubo_model = length (m_rows qubo_model) /\
  NoDup (all_labels (m_vars qubo_model)) /\ m_mtype qubo_model = Qubo /\ Forall constr_ok (dvals (m_constrs qubo_model)) /\
  legal_states p options0 /\ result world0 p options0 = Ok out /\ length (out_set out) = 1.
Proof.
  destruct C09_hyps_qubo as (m' & p & E & H1 & H2 & H3 & _). exists m', p.
  assert (HC : match to_physical env0 evs0 feed0 qubo_model with
               | (_, Ok q) => forallb (fun l => if in_dec string_dec l (all_labels (m_vars qubo_model)) then if in_dec string_dec l (dkeys (m_deleted qubo_model)) then false else true else false)
                    (dkeys (p_linear q) ++ map fst (dkeys (p_quad q)) ++ map snd (dkeys (p_quad q)))
                    && match result world0 q options0 with Ok o => Nat.eqb (length (out_set o)) 1 | _ => false end
               | _ => false end = true) by (vm_compute; reflexivity).
  rewrite E in HC. apply andb_true_iff in HC. destruct HC as [HC HR]. rewrite forallb_forall in HC.
  destruct (result world0 p options0) as [out|] eqn:EO; [|discriminate]. apply Nat.eqb_eq in HR. exists out. split; auto. split.
  - intros l HO. assert (HI : In l (dkeys (p_linear p) ++ map fst (dkeys (p_quad p)) ++ map snd (dkeys (p_quad p)))).
    { apply in_or_app. destruct HO as [HO|(a & b & HO & HL)]; [left; auto|right]. apply in_or_app.
      destruct HL as [->| ->]; [left; apply (in_map fst) in HO|right; apply (in_map snd) in HO]; exact HO. }
    apply HC in HI. destruct (in_dec string_dec l (all_labels _)); [|discriminate]. destruct (in_dec string_dec l (dkeys _)); [discriminate|]. auto.
  - split; auto. split; [apply nodupb_ok; reflexivity|]. split; auto. split; auto. split; [|auto]. intros s l z [].
Qed.
Example C67_ising_hyps : exists m' p out, to_physical env0 evs0 feed0 ising_con = (m', Ok p) /\ covered ising_con p /\ m_len ising_con = length (m_rows ising_con) /\
  NoDup (all_labels (m_vars ising_con)) /\ m_mtype ising_con = Ising /\ Forall constr_ok (dvals (m_constrs ising_con)) /\
  legal_states p options0 /\ result world0 p options0 = Ok out /\ length (out_set out) = 1 /\
  qsum (map ising_shift (dvals (m_constrs ising_con))) <> 0%Qc.
Proof.
  destruct C09_hyps_ising as (m' & p & E & H1 & H2 & H3). exists m', p.
  assert (HC : match to_physical env0 evs0 feed0 ising_con with
               | (_, Ok q) => forallb (fun l => if in_dec string_dec l (all_labels (m_vars ising_con)) then if in_dec string_dec l (dkeys (m_deleted ising_con)) then false else true else false)
                    (dkeys (p_linear q) ++ map fst (dkeys (p_quad q)) ++ map snd (dkeys (p_quad q)))
                    && match result world0 q options0 with Ok o => Nat.eqb (length (out_set o)) 1 | _ => false end
               | _ => false end = true) by (vm_compute; reflexivity).
  rewrite E in HC. apply andb_true_iff in HC. destruct HC as [HC HR]. rewrite forallb_forall in HC.
  destruct (result world0 p options0) as [out|] eqn:EO; [|discriminate]. apply Nat.eqb_eq in HR. exists out. split; auto. split.
  - intros l HO. assert (HI : In l (dkeys (p_linear p) ++ map fst (dkeys (p_quad p)) ++ map snd (dkeys (p_quad p)))).
    { apply in_or_app. destruct HO as [HO|(a & b & HO & HL)]; [left; auto|right]. apply in_or_app.
      destruct HL as [->| ->]; [left; apply (in_map fst) in HO|right; apply (in_map snd) in HO]; exact HO. }
    apply HC in HI. destruct (in_dec string_dec l (all_labels _)); [|discriminate]. destruct (in_dec string_dec l (dkeys _)); [discriminate|]. auto.
  - split; auto. split; [apply nodupb_ok; reflexivity|]. split; auto. split; auto. split; [intros s l z []|]. split; [auto|]. split; [auto|].
    intros X. apply (f_equal this) in X. vm_compute in X. discriminate.
Qed.
Print Assumptions C39_reported_energy.
Print Assumptions C40_samples.
Print Assumptions C40_no_read_lost.
Print Assumptions C41_succeeds.
Print Assumptions C41_histories.
Print Assumptions C42_metropolis.
Print Assumptions C42_local_minimum.
Print Assumptions C42_greedy.
Print Assumptions C43_forward.
Print Assumptions C43_reverse.
Print Assumptions C44_rejects.
Print Assumptions C44_wrong_model.
Print Assumptions C44_refuted.
Print Assumptions C44_accepts_partial.
Print Assumptions C45_seeded_partial.
Print Assumptions C45_refuted.
Print Assumptions C65_shift.
Print Assumptions C65_first.
Print Assumptions C65_exact_partial.
Print Assumptions C65_refuted.
Print Assumptions C66_unchanged_partial.
Print Assumptions C66_exact_effect.
Print Assumptions C66_repeatable.
Print Assumptions C66_refuted.
Print Assumptions C67_indexed.
Print Assumptions C67_energy.
Print Assumptions C67_energy_qubo.
Print Assumptions C67_energy_ising.
Print Assumptions C67_solvable.
