(** * PropsExactSolvers: exactly when a falsy reverse_options breaks a call
    (C44), what seed=0 does (C45), and which variables a sample has (C78). *)
From Verif Require Import PyBase PyLemmas Numbers Constraint LogicalModel Spec PhysicalProofs ToPhysicalProofs Physical Samples History
  PropsPhysical Solver SolverSpec SolverProofs PropsSolver Services PropsServices PropsSolvers.
Open Scope string_scope.
Open Scope list_scope.

Definition with_reverse (r : revarg) (o : options) : options :=
  mkOptions (o_reads o) (o_sweeps o) (o_rate o) (o_temp o) (o_init o) r (o_pickup o) (o_seed o).
Definition with_seed (z : option Z) (o : options) : options :=
  mkOptions (o_reads o) (o_sweeps o) (o_rate o) (o_temp o) (o_init o) (o_reverse o) (o_pickup o) z.

(** ** C44 *)
(** Values of reverse_options that are false in a test but not None: {} and, for
    instance, 0, "" or []. *)
Definition falsy (r : revarg) : Prop := r = RDict [] \/ r = ROther false.
Definition subscript_error (r : revarg) : exn := match r with RDict _ => KeyError | _ => TypeError end.

Section falsy.
  Context (w : world) (g : generator) (o : options) (p : physical) (orig b : bqm) (lin : list Qc) (adj : list (dict nat Qc)).
  Context (r : revarg) (Hr : falsy r).

  Lemma falsy_truthy : rev_truthy r = false.
  Proof. destruct Hr as [-> | ->]; reflexivity. Qed.
  Lemma falsy_get k : rev_get k r = Err (subscript_error r).
  Proof. destruct Hr as [-> | ->]; reflexivity. Qed.

  Lemma annealing_falsy s0 tr dt :
    annealing w g (with_reverse RNone o) p orig b lin adj s0 tr = Ok dt ->
    annealing w g (with_reverse r o) p orig b lin adj s0 tr =
      if (0 <? o_sweeps o)%Z then Err (subscript_error r) else Ok dt.
  Proof.
    unfold annealing. cbn [o_reverse o_temp o_sweeps o_rate o_pickup with_reverse rev_truthy].
    destruct (initial_spins g p b s0 tr) as [xt|e]; cbn [rbind]; [|discriminate].
    destruct (bqm_energy b (make_sample p (fst xt))) as [e0|e]; cbn [rbind]; [|discriminate].
    rewrite falsy_truthy. cbn [rbind]. destruct (_ <? 0)%Z; [discriminate|].
    destruct (Z.ltb_spec 0 (o_sweeps o)) as [L|L].
    - intros _. destruct (Z.to_nat (o_sweeps o)) as [|n] eqn:En; [exfalso; lia|].
      cbn [seq sweeps]. unfold sweep_once at 1. cbn [s_reversing].
      assert (En' : match r with RNone => false | _ => true end = true) by (destruct Hr as [-> | ->]; reflexivity).
      rewrite En'. cbn [o_reverse with_reverse]. rewrite falsy_get. reflexivity.
    - replace (Z.to_nat (o_sweeps o)) with 0 by lia. cbn [seq sweeps rbind]. intros E. exact E.
  Qed.
  Lemma reads_falsy inits tr l :
    reads w g (with_reverse RNone o) p orig b lin adj inits tr = Ok l ->
    reads w g (with_reverse r o) p orig b lin adj inits tr =
      if (0 <? Z.of_nat (length inits))%Z && (0 <? o_sweeps o)%Z then Err (subscript_error r) else Ok l.
  Proof.
    revert tr l. induction inits as [|s0 rest IH]; intros tr l; cbn [reads]; [intros E; exact E|].
    destruct (annealing w g (with_reverse RNone o) p orig b lin adj s0 tr) as [[d t1]|e] eqn:Ea; cbn [rbind]; [|discriminate].
    rewrite (annealing_falsy _ _ _ Ea). change (0 <? Z.of_nat (length (s0 :: rest)))%Z with true. cbn [andb].
    destruct (0 <? o_sweeps o)%Z eqn:L; [reflexivity|]. cbn [rbind fst snd].
    destruct (reads w g (with_reverse RNone o) p orig b lin adj rest t1) as [l'|e] eqn:Er; cbn [rbind]; [|discriminate].
    rewrite (IH _ _ Er), andb_false_r. cbn [rbind]. intros E; exact E.
  Qed.
End falsy.

(** Whenever the call works without reverse_options, the same call with a falsy
    value raises exactly if there is a sweep to do, and is the same otherwise. *)
Theorem C44_exact : forall w p o r out, falsy r ->
  result w p (with_reverse RNone o) = Ok out ->
  result w p (with_reverse r o) =
    if (0 <? o_reads o)%Z && (0 <? o_sweeps o)%Z then Err (subscript_error r) else Ok out.
Proof.
  intros w p o r out Hr. unfold result, solve.
  assert (HC : check_args p (with_reverse r o) = check_args p (with_reverse RNone o)).
  { unfold check_args, has_init, init_list, check_reverse. cbn [o_init o_reads o_pickup o_reverse with_reverse].
    rewrite (falsy_truthy r Hr). reflexivity. }
  rewrite HC. destruct (check_args p (with_reverse RNone o)) as [[]|e] eqn:EC; [|discriminate].
  cbn [o_seed with_reverse]. destruct (pick_rng w (o_seed o)) as [g|e]; [|discriminate].
  destruct (to_bqm 1 p) as [orig|e]; [|discriminate]. cbv zeta. cbn [snd].
  change (has_init (with_reverse r o)) with (has_init (with_reverse RNone o)).
  change (init_list (with_reverse r o)) with (init_list (with_reverse RNone o)).
  cbn [o_init o_reads with_reverse].
  destruct (fill_linear _ _ _) as [lin|e]; cbn [rbind]; [|discriminate].
  destruct (fill_adj _ _ _ _) as [adj|e]; cbn [rbind]; [|discriminate].
  match goal with |- context [reads _ _ _ _ _ _ _ _ ?I _] => set (inits := I) end.
  destruct (reads w g (with_reverse RNone o) p orig (bqm_to_spin orig) lin adj inits []) as [l|e] eqn:ER; cbn [rbind]; [|discriminate].
  intros E. rewrite (reads_falsy w g o p orig _ lin adj r Hr _ _ _ ER).
  assert (HN : (0 <? Z.of_nat (length inits))%Z = (0 <? o_reads o)%Z).
  { unfold check_args in EC. destruct (_ && _) in EC; [discriminate|].
    destruct (has_init (with_reverse RNone o)) eqn:EI; cbn [andb] in EC.
    - change (o_reads (with_reverse RNone o)) with (o_reads o) in EC.
      destruct (Z.eqb_spec (Z.of_nat (length (init_list (with_reverse RNone o)))) (o_reads o)) as [L|]; cbn [negb] in EC; [|discriminate].
      rewrite <- L. f_equal. f_equal. unfold inits. rewrite map_length.
      destruct (negb (b_spin orig)); cbn [andb]; [now rewrite map_length|].
      unfold init_list. cbn [o_init with_reverse]. reflexivity.
    - unfold inits. rewrite repeat_length. apply Bool.eq_iff_eq_true. rewrite !Z.ltb_lt. lia. }
  rewrite HN. destruct ((0 <? o_reads o)%Z && (0 <? o_sweeps o)%Z); [reflexivity|]. cbn [rbind]. exact E.
Qed.

(** ** C45: seed=0 is no seed *)
Lemma sweeps_seed w g o z1 z2 lin adj n rs ks : forall st,
  sweeps w g (with_seed z1 o) lin adj n rs st ks = sweeps w g (with_seed z2 o) lin adj n rs st ks.
Proof.
  induction ks as [|k ks IH]; intros st; [reflexivity|]. cbn [sweeps].
  change (sweep_once w g (with_seed z1 o) lin adj n rs st k) with (sweep_once w g (with_seed z2 o) lin adj n rs st k).
  destruct (sweep_once w g (with_seed z2 o) lin adj n rs st k); cbn [rbind]; auto.
Qed.
Lemma reads_seed w g o z1 z2 p orig b lin adj inits : forall tr,
  reads w g (with_seed z1 o) p orig b lin adj inits tr = reads w g (with_seed z2 o) p orig b lin adj inits tr.
Proof.
  induction inits as [|s0 r IH]; intros tr; [reflexivity|]. cbn [reads].
  assert (E : annealing w g (with_seed z1 o) p orig b lin adj s0 tr = annealing w g (with_seed z2 o) p orig b lin adj s0 tr).
  { unfold annealing. cbn [o_reverse o_temp o_sweeps with_seed].
    destruct (initial_spins _ _ _ _ _); cbn [rbind]; [|reflexivity]. destruct (bqm_energy _ _); cbn [rbind]; [|reflexivity].
    destruct (if rev_truthy _ then _ else _); cbn [rbind]; [|reflexivity]. destruct (_ <? 0)%Z; [reflexivity|].
    now rewrite (sweeps_seed w g o z1 z2). }
  rewrite E. destruct (annealing w g (with_seed z2 o) p orig b lin adj s0 tr) as [[d t]|e]; cbn [rbind]; [|reflexivity].
  cbn [snd]. now rewrite IH.
Qed.
Theorem C45_exact : forall w mo o, solve w mo (with_seed (Some 0%Z) o) = solve w mo (with_seed None o).
Proof.
  intros w [p|] o; [|reflexivity]. unfold solve.
  change (check_args p (with_seed (Some 0%Z) o)) with (check_args p (with_seed None o)).
  destruct (check_args p (with_seed None o)); [|reflexivity]. cbn [o_seed with_seed pick_rng Z.eqb].
  destruct (to_bqm 1 p) as [orig|e]; [|reflexivity]. cbv zeta. f_equal.
  change (has_init (with_seed (Some 0%Z) o)) with (has_init (with_seed None o)).
  change (init_list (with_seed (Some 0%Z) o)) with (init_list (with_seed None o)).
  cbn [o_init o_reads with_seed].
  destruct (fill_linear _ _ _) as [lin|e]; cbn [rbind]; [|reflexivity].
  destruct (fill_adj _ _ _ _) as [adj|e]; cbn [rbind]; [|reflexivity].
  now rewrite (reads_seed w (w_fresh w) o (Some 0%Z) None).
Qed.

(** ** C78: the variables of a sample are exactly those with a coefficient *)
Theorem C78_iff : forall ev evs fd m m' p rows s e c,
  m_len m = length (m_rows m) -> to_physical ev evs fd m = (m', Ok p) -> reports p rows -> In (s, e, c) rows ->
  exists cms, cmodels evs 0 (m_mtype m) (dvals (m_constrs m)) = Ok cms /\
    let all := m_rows m ++ flat_map m_rows cms in
    forall l, (exists z, dget l s = Some z) <->
      (lin_total fd all l <> 0%Qc \/ exists k, quad_total fd all l k <> 0%Qc \/ quad_total fd all k l <> 0%Qc).
Proof.
  intros ev evs fd m m' p rows s e c HL E HR HI.
  destruct (C10_coefficients _ _ _ _ _ _ HL E) as (cms & HC & H). cbv zeta in H.
  destruct H as (_ & _ & Z1 & H1 & Z2 & H2). exists cms. split; [exact HC|]. cbv zeta. intros l.
  destruct (HR _ _ _ HI) as (_ & _ & HK & _). rewrite dget_some_in, HK.
  set (all := m_rows m ++ flat_map m_rows cms) in *. unfold occurs. split.
  - intros [O|(a & b & O & D)].
    + left. intros Z. apply Z1 in Z. apply dget_some_in in O as [v O]. congruence.
    + right. apply dget_some_in in O as [v O].
      assert (N : quad_total fd all a b <> 0%Qc) by (intros Z; apply Z2 in Z; congruence).
      destruct D as [-> | ->]; [exists b; now left | exists a; now right].
  - intros [T|(k & [T|T])].
    + left. apply dget_some_in. eauto.
    + right. exists l, k. split; [|auto]. apply dget_some_in. eauto.
    + right. exists k, l. split; [|auto]. apply dget_some_in. eauto.
Qed.

Example C44_exact_hyps : exists out,
  result world0 (phys2 Ising) (with_reverse RNone options0) = Ok out /\ falsy (RDict []) /\ falsy (ROther false) /\
  (0 <? o_reads options0)%Z && (0 <? o_sweeps options0)%Z = true /\
  result world0 (phys2 Ising) (with_reverse (RDict []) (mkOptions 2 0 (qfrac 1 2) (qz 10) None RNone "random" None)) <> Err KeyError.
Proof.
  destruct (result world0 (phys2 Ising) (with_reverse RNone options0)) as [out|e] eqn:E; [|vm_compute in E; discriminate].
  exists out. split; [reflexivity|]. split; [now left|]. split; [now right|]. split; [reflexivity|].
  vm_compute. discriminate.
Qed.
Print Assumptions C44_exact.
Print Assumptions C45_exact.
Print Assumptions C78_iff.
