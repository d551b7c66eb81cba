(** * PropsNppPartial: C101, number partitioning on a stream with the partial algorithm
    (sample/algorithm/npp_partial.py). *)
From Coq Require Import Sorted Permutation.
From Verif Require Import PyBase PyLemmas Numbers Constraint LogicalModel Spec LogicalProofs EnergyProofs ConvertProofs ConstraintProofs MergeProofs
  PhysicalProofs ToPhysicalProofs PropsPhysical PropsInteractions PropsState PropsVariables Samples
  Solver SolverSpec SolverProofs Services Stream StreamSpec PropsStream NppStream NppStreamSpec PropsNppStream PropsNppSolve.
Local Open Scope string_scope.
Local Open Scope list_scope.

(** ** Specification *)

(** sum over the given pairs of n_i n_j s_i s_j *)
Definition pairs_energy (s : assignment) (l : list (num_el * num_el)) : Qc :=
  qsum (map (fun p => el_val (fst p) * el_val (snd p) * (s (spin_of (fst p)) * s (spin_of (snd p))))%Qc l).

(** The previous numbers that are earlier than every current one: those of which the
    partial algorithm says that they leave. *)
Definition leaving (prev cur : list num_el) : list num_el :=
  filter (fun p => forallb (fun c => Qclt_bool (el_ts p) (el_ts c)) cur) prev.
Definition among (l : list num_el) (e : num_el) : bool := existsb (fun x => Nat.eqb (el_idx x) (el_idx e)) l.

(** The pairs with a number that is not in the window any more and of which nobody
    said that it leaves: those there were, and those of the previous window of which
    the filter dropped one number, unless one of the two numbers leaves now. *)
Definition ghosts_after (keep : num_el -> bool) (ghosts : list (num_el * num_el)) (prev cur : list num_el) : list (num_el * num_el) :=
  filter (fun p => negb (among (leaving prev cur) (fst p)) && negb (among (leaving prev cur) (snd p)))
    (ghosts ++ filter (fun p => negb (keep (fst p) && keep (snd p))) (pairs prev)).

(** The physical model has no linear term, and its quadratic terms are between the two
    numbers of one of the pairs, none of them zero. *)
Definition only_these (l : list (num_el * num_el)) (p : physical) : Prop :=
  p_linear p = [] /\
  forall a b, In (a, b) (dkeys (p_quad p)) ->
    exists x y, (In (x, y) l \/ In (y, x) l) /\ el_val x <> 0%Qc /\ el_val y <> 0%Qc /\ a = spin_of x /\ b = spin_of y.

(** What the windows put out: the model of the solver is the one of the numbers of the
    window (the kept ones and the received ones), plus the ghosts. *)
Fixpoint haunted (keep : num_el -> bool) (prev : list num_el) (ghosts : list (num_el * num_el))
    (ws : list (win Qc * surroundings)) (outs : list (list (output npp_answer))) : Prop :=
  match ws, outs with
  | [], [] => True
  | (w, u) :: r, out :: os =>
      exists p els, let g := ghosts_after keep ghosts prev els in
        chronological els /\ Permutation els (filter keep prev ++ wn_els w) /\ p_mtype p = Ising /\
        (forall s, energy_physical s p = pair_energy s els + pairs_energy s g)%Qc /\
        only_these (pairs els ++ g) p /\
        out = [match su_solver u p with
               | Err e => SolveFailed e
               | Ok ss => match npp_unmapping ss els with Ok r => Solved r | Err e => UnmapFailed e end
               end] /\
        haunted keep els g r os
  | _, _ => False
  end.

(** What they should put out. *)
Fixpoint answers_kept (keep : num_el -> bool) (prev : list num_el)
    (ws : list (win Qc * surroundings)) (outs : list (list (output npp_answer))) : Prop :=
  match ws, outs with
  | [], [] => True
  | (w, u) :: r, out :: os =>
      answers u (filter keep prev ++ wn_els w) out /\ answers_kept keep (filter keep prev ++ wn_els w) r os
  | _, _ => False
  end.
(** The numbers of each window. *)
Fixpoint kept_windows (keep : num_el -> bool) (prev : list num_el) (ws : list (list num_el)) : list (list num_el) :=
  match ws with
  | [] => []
  | w :: r => (filter keep prev ++ w) :: kept_windows keep (filter keep prev ++ w) r
  end.
(** In no window the filter drops a number that is later than one it keeps. *)
Definition oldest_dropped (keep : num_el -> bool) (els : list num_el) : Prop :=
  forall d e, In d els -> In e els -> keep d = false -> keep e = true -> (el_ts d < el_ts e)%Qc.

(** ** Models of an arbitrary list of pairs *)
Definition inv_l (m : lmodel) (L : list (num_el * num_el)) (n : nat) : Prop :=
  shape_ok m n /\ vars_ok m n /\ (forall p, In p L -> el_idx (fst p) < n /\ el_idx (snd p) < n /\ el_idx (fst p) <> el_idx (snd p)) /\
  Permutation (map rdata (live m)) (map pdata L).

Lemma mapping_l text clock m L n els kept inc out :
  inv_l m L n -> els = kept ++ inc -> asc els -> els <> [] -> (forall e, In e kept -> el_idx e < n) -> (forall e, In e inc -> n <= el_idx e) ->
  (forall o, In o out -> el_idx o < n) -> (forall a, In a els -> ~ In (el_idx a) (map el_idx out)) ->
  exists m', npp_mapping text clock els inc out m = (m', Ok tt) /\
    inv_l m' (filter (fun p => untouched out (pdata p)) L ++ flat_map (pairs_with els) inc) (next_size n inc).
Proof.
  intros ((S1 & S2 & S3 & S4 & S5 & S6) & HV & HB & HP) EE HA' HN HK HI HO HOK.
  destruct (variables_step m n inc) as (m1 & x & E1 & HX & HV1 & vs & Em1); auto.
  { intros ->. rewrite app_nil_r in EE. subst els. destruct kept as [|k kept]; [congruence|]. assert (el_idx k < n) by (apply HK; now left). lia. }
  set (n' := next_size n inc) in *.
  destruct (next_size_le n inc HI) as [Ln Hinc]. fold n' in Ln, Hinc.
  assert (Hels : forall e, In e els -> el_idx e < n').
  { intros e He. subst els. apply in_app_iff in He as [He|He]; auto. specialize (HK e He). lia. }
  assert (Hsub : forall e, In e inc -> In e els) by (intros e He; subst els; apply in_app_iff; now right).
  assert (A1 : aligned m1) by (subst m1; exact S4).
  assert (En1 : names m1 = names m) by (subst m1; reflexivity).
  assert (Hord : forall p, In p (flat_map (pairs_with els) inc) -> In (fst p) inc /\ In (snd p) els /\ (el_ts (snd p) < el_ts (fst p))%Qc).
  { intros p Hp. apply in_flat_map in Hp as (i & Hi & Hp). apply in_map_iff in Hp as (j & <- & Hj). apply filter_In in Hj as [Hj Ht].
    apply Qclt_bool_iff in Ht. auto. }
  assert (ND : NoDup (names m1 ++ map pair_name (flat_map (pairs_with els) inc))).
  { rewrite En1. apply NoDup_app_iff. split; [apply S5|]. split.
    - apply NoDup_map_inj.
      + intros [a b] [c d] H1 H2 E. apply Hord in H1 as (A & B & C), H2 as (D & F & G). cbn [fst snd] in *.
        unfold pair_name in E. cbn [fst snd] in E. apply pname_inj in E as [[X1 X2]|[X1 X2]].
        * apply (asc_in _ _ _ HA') in X1, X2; auto. congruence.
        * apply (asc_ts _ _ _ HA') in C, G; auto. lia.
      + apply NoDup_flat_map.
        * subst els. apply asc_app in HA'. apply asc_nodup; tauto.
        * intros i _. apply FinFun.Injective_map_NoDup; [intros u v Q; congruence|]. apply NoDup_filter, asc_nodup; auto.
        * intros i i' p Hi Hi' Hp Hp'. apply in_map_iff in Hp as (j & <- & _), Hp' as (j' & Q & _). congruence.
    - intros nm H1 H2. unfold names in H1. apply in_map_iff in H1 as (r & <- & Hr). unfold named_pairs in S6. rewrite Forall_forall in S6.
      destruct (S6 r Hr) as (a & b & La & Lb & E & _). rewrite E in H2. apply in_map_iff in H2 as (p & E' & Hp). apply Hord in Hp as (A & B & C).
      specialize (HI _ A). unfold pair_name in E'. apply pname_inj in E' as [[X1 X2]|[X1 X2]]; lia. }
  assert (HNE : forall i j, In i inc -> In j els -> (el_ts j < el_ts i)%Qc -> el_idx j <> el_idx i).
  { intros i j Hi Hj Ht C. apply (asc_ts _ _ _ HA') in Ht; auto. lia. }
  destruct (add_outer text clock x n' els HX Hels inc Hinc) with (m := m1) as (m2 & E2 & G2); auto.
  pose proof G2 as ((R1 & R2 & R3 & R4 & R5 & R6 & R7) & AL & new & ER & F2).
  assert (Em : m_mtype m1 = m_mtype m /\ m_offset m1 = m_offset m /\ m_constrs m1 = m_constrs m /\ m_rows m1 = m_rows m) by (subst m1; auto).
  destruct Em as (M1 & M2 & M3 & M4).
  assert (SH : shape_ok m2 n').
  { split; [congruence|]. split; [congruence|]. split; [congruence|]. split; [auto|]. split; [split|].
    - unfold names_unique. rewrite (grown_names _ _ _ G2).
      exact ND.
    - rewrite ER, M4. apply Forall_app. split; [apply S5|]. clear -F2. induction F2 as [|r p l l' H F IH]; constructor; auto. apply H.
    - rewrite ER, M4. apply Forall_app. split; [now apply (named_mono n)|].
      assert (HQ : Forall (fun p => el_idx (fst p) < n' /\ el_idx (snd p) < n') (flat_map (pairs_with els) inc)).
      { apply Forall_forall. intros p Hp. apply Hord in Hp as (A & B & _). auto. }
      clear -F2 HQ. induction F2 as [|r p l l' (K & N & _) F IH]; constructor; inversion HQ; subst; auto.
      exists (el_idx (fst p)), (el_idx (snd p)). tauto. }
  destruct (delete_loop x n' out HX) with (m := m2) as (m3 & E3 & SH3 & V3 & L3); auto.
  { intros o Ho. specialize (HO o Ho). lia. }
  exists m3. split.
  { unfold npp_mapping. unfold bind at 1. rewrite E1. unfold bind at 1. rewrite E2. exact E3. }
  split; [auto|]. split; [|split].
  { unfold vars_ok in *. rewrite V3, R2. exact HV1. }
  { intros p Hp. apply in_app_iff in Hp as [Hp|Hp].
    - apply filter_In in Hp as [Hp _]. destruct (HB p Hp) as (X & Y & Z). lia.
    - apply Hord in Hp as (X & Y & Z). split; auto. split; auto. intros C. apply (HNE (fst p) (snd p)); auto. }
  rewrite L3. unfold live at 1. rewrite ER, M4, filter_app, map_app, filter_app, (rows_for_data _ _ F2), map_app.
  apply Permutation_app.
  - rewrite <- filter_pdata. apply filter_perm, HP.
  - rewrite filter_all; [apply Permutation_refl|]. intros k Hk. apply in_map_iff in Hk as (p & <- & Hp). apply Hord in Hp as (A & B & _).
    apply untouched_pdata. split; apply HOK; auto.
Qed.

Lemma energy_l m L n fd s : inv_l m L n -> energy fd s m = pairs_energy s L.
Proof.
  intros ((_ & S2 & _) & _ & _ & P). unfold energy. rewrite S2, live_sum.
  fold (live m). rewrite (qsum_perm _ _ (Permutation_map _ P)). rewrite map_map. unfold pairs_energy, value. cbn [ceval pdata_s fst snd].
  set (f := fun p : num_el * num_el => _). set (g := fun p : num_el * num_el => _).
  assert (HFG : forall p, f p = (- (1) * g p)%Qc).
  { intros p. unfold f, g, pkey, plain. destruct (String.ltb _ _); cbn [monomial]; unfold spin_of, lab; ring. }
  rewrite (map_ext _ _ HFG), qsum_map_mul. ring.
Qed.
Lemma resolved_l m L n : inv_l m L n -> resolved [] m.
Proof.
  intros ((_ & S2 & _) & _ & _ & P). split; [|rewrite S2; discriminate].
  intros r Hr HA. assert (HI : In (rdata r) (map rdata (live m))).
  { apply in_map. apply filter_In. split; auto. rewrite HA. reflexivity. }
  apply (Permutation_in _ P), in_map_iff in HI as (p & E & _). unfold rdata, pdata_s in E. injection E as _ E1 E2.
  rewrite <- E1, <- E2. split; discriminate.
Qed.
Lemma live_l m L n r : inv_l m L n -> In r (m_rows m) -> r_removed r = false ->
  exists x y, (In (x, y) L \/ In (y, x) L) /\ r_key r = K2 (spin_of x) (spin_of y) /\
    exists q, forall fd, coefv fd r = (el_val x * el_val y * q)%Qc.
Proof.
  intros (_ & _ & _ & P) Hr HA. assert (HI : In (rdata r) (map rdata (live m))).
  { apply in_map. apply filter_In. split; auto. rewrite HA. reflexivity. }
  apply (Permutation_in _ P), in_map_iff in HI as ([x y] & E' & HI). unfold rdata, pdata_s in E'. injection E' as E' EC ES.
  cbn [fst snd] in E', EC.
  rewrite <- E'. unfold pkey. destruct (String.ltb _ _); [exists x, y | exists y, x]; (split; [auto|split; [reflexivity|]]);
    exists (- (1))%Qc; intros fd; unfold coefv, value; rewrite <- EC, <- ES; cbn [ceval]; unfold plain; ring.
Qed.
Lemma lin_none_l m L n fd l : inv_l m L n -> lin_total fd (m_rows m) l = 0%Qc.
Proof.
  intros HI. pose proof (fun r => live_l m L n r HI) as H. clear HI. unfold lin_total.
  induction (m_rows m) as [|r rows IH]; auto. cbn [map]. rewrite qsum_first, IH by (intros; apply H; auto; now right).
  destruct (r_removed r) eqn:E; [ring|]. destruct (H r (or_introl eq_refl) E) as (x & y & _ & -> & _). ring.
Qed.
Lemma quad_only_l m L n fd a b : inv_l m L n ->
  quad_total fd (m_rows m) a b = 0%Qc \/
  exists x y, (In (x, y) L \/ In (y, x) L) /\ el_val x <> 0%Qc /\ el_val y <> 0%Qc /\ a = spin_of x /\ b = spin_of y.
Proof.
  intros HI. pose proof (fun r => live_l m L n r HI) as H. clear HI. unfold quad_total.
  induction (m_rows m) as [|r rows IH]; auto. cbn [map]. rewrite qsum_first.
  destruct IH as [-> | IH]; [intros; apply H; auto; now right | | now right].
  destruct (r_removed r) eqn:E; [left; ring|]. destruct (H r (or_introl eq_refl) E) as (x & y & H1 & -> & q & H4).
  destruct (String.eqb_spec a (spin_of x)) as [->|_]; [|left; cbn [andb]; ring].
  destruct (String.eqb_spec b (spin_of y)) as [->|_]; [|left; cbn [andb]; ring]. cbn [andb]. rewrite H4.
  destruct (Qc_eq_dec (el_val x) 0) as [-> |]; [left; ring|]. destruct (Qc_eq_dec (el_val y) 0) as [-> |]; [left; ring|]. right. exists x, y. repeat split; auto.
Qed.
Lemma solving_l ev evs m L n : inv_l m L n ->
  exists m' p, to_physical ev evs [] m = (m', Ok p) /\ inv_l m' L n /\ p_mtype p = Ising /\ only_these L p /\
    forall s, energy_physical s p = pairs_energy s L.
Proof.
  intros HI. pose proof HI as ((S1 & S2 & S3 & S4 & [S5 S5'] & S6) & HV & HB & HP).
  assert (HC : cmodels evs 0 (m_mtype m) (dvals (m_constrs m)) = Ok []) by (rewrite S3; reflexivity).
  assert (HX : forall r cm, In r (m_rows m) -> r_removed r = true -> In cm [] -> ~ In (r_name r) (names cm)) by (intros ? ? _ _ []).
  destruct (C09_to_physical_succeeds ev evs [] m [] S4 S5 (resolved_l _ _ _ HI) HC HX) as (m' & p & E).
  exists m', p. split; auto. 
  destruct (C11_frame _ _ _ _ _ _ _ S4 S5 HC HX E) as (F1 & F2 & F3 & _ & _ & F6 & _ & _ & F9 & _ & F11 & F12).
  assert (HL : m_len m = length (m_rows m)) by apply S4.
  split; [|split; [|split]].
  - split; [|split; [unfold vars_ok in *; rewrite F2; auto | split; auto]].
    + split; [congruence|]. split; [congruence|]. split; [congruence|]. split; auto. split; [split; auto|].
      * rewrite F9. apply Forall_forall. intros r Hr. apply in_map_iff in Hr as (r0 & <- & Hr). apply filter_In in Hr as [Hr _].
        rewrite Forall_forall in S5'. apply (S5' r0 Hr).
      * rewrite F9. apply Forall_forall. intros r Hr. apply in_map_iff in Hr as (r0 & <- & Hr). apply filter_In in Hr as [Hr _].
        unfold named_pairs in S6. rewrite Forall_forall in S6. apply (S6 r0 Hr).
    + eapply perm_trans; [|exact HP]. unfold live. rewrite F9.
      assert (EQ : map rdata (filter (fun r => negb (r_removed r)) (map (set_dirty false) (filter (fun r => negb (r_removed r)) (m_rows m)))) =
                   map rdata (filter (fun r => negb (r_removed r)) (m_rows m))); [|rewrite EQ; reflexivity].
      clear. induction (m_rows m) as [|r l IH]; auto. cbn [filter]. destruct (r_removed r) eqn:E; cbn [negb]; auto.
      cbn [map filter]. change (r_removed (set_dirty false r)) with (r_removed r). rewrite E. cbn [negb map]. f_equal; auto.
  - destruct (to_physical_ok _ _ _ _ _ _ HL E) as (cms & _ & _ & ->). rewrite <- S1. unfold phys, build_physical. destruct (index_labels _ _ _ _ _ _); reflexivity.
  - destruct (C10_coefficients _ _ _ _ _ _ HL E) as (cms & HC' & _ & _ & L0 & _ & Q0 & _). rewrite HC in HC'. injection HC' as <-.
    cbn [flat_map] in L0, Q0. rewrite app_nil_r in L0, Q0. split.
    + destruct (p_linear p) as [|[l q] d]; auto. specialize (L0 l (lin_none_l m L n [] l HI)). apply dget_none in L0.
      exfalso. apply L0. now left.
    + intros a b HK. destruct (quad_only_l m L n [] a b HI) as [Z|H]; auto. apply Q0, dget_none in Z. contradiction.
  - intros s. rewrite (C09_no_constraints _ _ _ _ _ _ HL S3 E). apply (energy_l _ _ n); auto.
Qed.

Lemma inv_l_perm m L L' n : Permutation L L' -> inv_l m L n -> inv_l m L' n.
Proof.
  intros P (S & V & B & H). split; auto. split; auto. split.
  - intros p Hp. apply B. now apply (Permutation_in _ (Permutation_sym P)).
  - eapply perm_trans; [exact H|]. now apply Permutation_map.
Qed.
Lemma pairs_energy_app s a b : pairs_energy s (a ++ b) = (pairs_energy s a + pairs_energy s b)%Qc.
Proof. unfold pairs_energy. now rewrite map_app, qsum_app. Qed.
Lemma among_iff l e : among l e = true <-> In (el_idx e) (map el_idx l).
Proof.
  unfold among. rewrite existsb_exists, in_map_iff. split.
  - intros (x & H & E). apply Nat.eqb_eq in E. eauto.
  - intros (x & E & H). exists x. split; auto. now apply Nat.eqb_eq.
Qed.
Lemma untouched_among ds p : untouched ds (pdata p) = negb (among ds (fst p)) && negb (among ds (snd p)).
Proof.
  apply bool_eq. rewrite untouched_pdata, andb_true_iff, !negb_true_iff.
  destruct (among ds (fst p)) eqn:E1, (among ds (snd p)) eqn:E2;
    rewrite <- ?not_true_iff_false in *; rewrite ?among_iff in *; intuition congruence.
Qed.
Lemma split_perm {A} (f : A -> bool) l : Permutation l (filter f l ++ filter (fun a => negb (f a)) l).
Proof.
  induction l as [|x l IH]; cbn [filter]; auto. destruct (f x); cbn [negb app]; [now constructor|]. now apply Permutation_cons_app.
Qed.
Lemma pairs_filter {A} (f : A -> bool) l : pairs (filter f l) = filter (fun p => f (fst p) && f (snd p)) (pairs l).
Proof.
  induction l as [|x l IH]; auto. cbn [pairs filter]. rewrite filter_app, <- IH.
  assert (E : filter (fun p : A * A => f (fst p) && f (snd p)) (map (fun y => (y, x)) l) = if f x then map (fun y => (y, x)) (filter f l) else []).
  { clear IH. induction l as [|y l IH]; [now destruct (f x)|]. cbn [map filter fst snd]. rewrite IH. destruct (f x), (f y); reflexivity. }
  rewrite E. destruct (f x); reflexivity.
Qed.

Lemma leaving_out prev els : chronological prev -> chronological els -> els <> [] ->
  resolve_outgoing prev els = Ok (leaving prev els).
Proof.
  intros HP HE HN. destruct els as [|c cur]; [congruence|].
  assert (EL : leaving prev (c :: cur) = filter (older (el_ts c)) prev).
  { unfold leaving. apply filter_ext. intros p. unfold older. cbn [forallb]. destruct (Qclt_bool (el_ts p) (el_ts c)) eqn:E; auto.
    apply Qclt_bool_iff in E. apply forallb_forall. intros x Hx. inversion HE as [|? ? _ F]; subst. rewrite Forall_forall in F.
    specialize (F _ Hx). apply before_ts in F. apply Qclt_bool_iff. qord. }
  rewrite EL. rewrite (chrono_split (el_ts c) prev HP) at 1. apply outgoing_cut.
  - apply Forall_forall. intros e He. apply filter_In in He as [_ He]. now apply older_true in He.
  - destruct (filter (fun e => negb (older (el_ts c) e)) prev) as [|k l] eqn:E; auto.
    assert (H : In k (filter (fun e => negb (older (el_ts c) e)) prev)) by (rewrite E; now left).
    apply filter_In in H as [_ H]. now apply negb_true_iff, older_false in H.
Qed.
Lemma incoming_new (prev kept inc : list num_el) : chronological prev -> incl kept prev ->
  (forall p e, In p prev -> In e inc -> (el_ts p < el_ts e)%Qc) -> resolve_incoming prev (kept ++ inc) = inc.
Proof.
  intros HC HK HI. destruct prev as [|p prev _] using rev_ind.
  - destruct kept as [|k kept]; [reflexivity|]. destruct (HK k). now left.
  - apply incoming_cut.
    + apply Forall_forall. intros e He. apply HI; auto. apply in_app_iff. right. now left.
    + destruct (rev kept) as [|k rk] eqn:Er; auto.
      assert (Hk : In k kept) by (apply in_rev; rewrite Er; now left). apply HK, in_app_iff in Hk as [Hk|[-> |[]]]; [|apply Qcle_refl].
      apply chrono_app in HC as (_ & _ & HC). apply before_ts, HC; [exact Hk | now left].
Qed.

Lemma step_pairs keep prev G inc : asc (filter keep prev ++ inc) -> asc prev -> (forall p e, In p prev -> In e inc -> el_idx p <> el_idx e) ->
  let els := filter keep prev ++ inc in
  Permutation (filter (fun p => untouched (leaving prev els) (pdata p)) (pairs prev ++ G) ++ flat_map (pairs_with els) inc)
              (pairs els ++ ghosts_after keep G prev els).
Proof.
  intros HA HP HD els. rewrite filter_app.
  set (P := fun p => untouched (leaving prev els) (pdata p)).
  assert (EG : ghosts_after keep G prev els = filter P G ++ filter P (filter (fun p => negb (keep (fst p) && keep (snd p))) (pairs prev))).
  { unfold ghosts_after. rewrite <- filter_app. apply filter_ext. intros p. symmetry. apply untouched_among. }
  rewrite EG.
  assert (EP : Permutation (filter P (pairs prev)) (pairs (filter keep prev) ++ filter P (filter (fun p => negb (keep (fst p) && keep (snd p))) (pairs prev)))).
  { eapply perm_trans; [apply filter_perm, (split_perm (fun p => keep (fst p) && keep (snd p)))|]. rewrite filter_app. apply Permutation_app_tail.
    rewrite <- pairs_filter. rewrite filter_all; [reflexivity|]. intros [a b] Hp. apply pairs_in in Hp as [Ha Hb].
    assert (N : forall x, In x (filter keep prev) -> among (leaving prev els) x = false).
    { intros x Hx. destruct (among (leaving prev els) x) eqn:E; auto. apply among_iff, in_map_iff in E as (y & E & Hy).
      unfold leaving in Hy. apply filter_In in Hy as [Hy HF]. rewrite forallb_forall in HF.
      assert (y = x) as ->. { apply (asc_in prev); auto. now apply filter_In in Hx. }
      specialize (HF x). assert (In x els) by (apply in_app_iff; now left). specialize (HF H). apply Qclt_bool_iff in HF. qord. }
    unfold P. rewrite untouched_among. cbn [fst snd]. now rewrite !N. }
  set (X := filter P (filter _ (pairs prev))) in *.
  eapply perm_trans; [apply Permutation_app_tail, Permutation_app_tail, EP|].
  eapply perm_trans; [|apply Permutation_app_tail; symmetry; apply pairs_grow; exact HA].
  fold els. rewrite <- !app_assoc. apply Permutation_app_head.
  rewrite app_assoc. eapply perm_trans; [apply Permutation_app_comm|]. apply Permutation_app_head. apply Permutation_app_comm.
Qed.

Lemma step_partial o f keep w u (b : bags Qc (list srow)) n G :
  ao_filter o = Some f -> (forall e, f e = Ok (keep e)) ->
  current w b -> wn_els w <> [] -> asc (prev_els b) -> asc (prev_els b ++ sorted (wn_els w)) ->
  inv_l (stored_model Ising b) (pairs (prev_els b) ++ G) n ->
  (forall e, In e (prev_els b) -> el_idx e < n) -> (forall e, In e (wn_els w) -> n <= el_idx e) ->
  let els := filter keep (prev_els b) ++ sorted (wn_els w) in
  let g := ghosts_after keep G (prev_els b) els in
  exists b' p, process Partial o (npp_callbacks u) Ising w b = (b', Ok [match su_solver u p with
               | Err e => SolveFailed e
               | Ok ss => match npp_unmapping ss els with Ok r => Solved r | Err e => UnmapFailed e end
               end]) /\
    p_mtype p = Ising /\ (forall s, energy_physical s p = pair_energy s els + pairs_energy s g)%Qc /\
    only_these (pairs els ++ g) p /\
    prev_els b' = els /\ b_ts b' = [wn_ts w] /\ inv_l (stored_model Ising b') (pairs els ++ g) (next_size n (sorted (wn_els w))).
Proof.
  intros Hf Hk Hc HN HA1 HA HI Hp Hn els g. unfold process. apply current_test in Hc. rewrite Hc.
  change (last_or [] (b_els b)) with (prev_els b).
  set (prev := prev_els b) in *. set (inc := sorted (wn_els w)) in *.
  assert (SP : Permutation (wn_els w) inc) by apply sorted_perm.
  assert (HAe : asc els).
  { apply asc_app in HA as (_ & A2 & A3). apply asc_app. split; [|split; auto].
    - clear - HA1. induction HA1 as [|x l H IH F]; cbn [filter]; [constructor|]. destruct (keep x); auto. constructor; auto.
      rewrite Forall_forall in *. intros y Hy. apply filter_In in Hy as [Hy _]. auto.
    - intros x y Hx Hy. apply filter_In in Hx as [Hx _]. auto. }
  assert (HAlt : forall p e, In p prev -> In e inc -> later_el p e) by (apply asc_app in HA as (_ & _ & A3); auto).
  assert (HNe : els <> []).
  { intros C. apply app_eq_nil in C as [_ C]. apply HN, Permutation_nil. rewrite <- C. now symmetry. }
  assert (Hw : window_elements Partial o prev (wn_els w) = Ok els).
  { cbn [window_elements]. rewrite Hf, (rfilter_total f keep) by auto. cbn [rbind]. f_equal. apply sorted_unique.
    - now apply asc_chrono.
    - reflexivity.
    - clear - HAe. fold inc. fold els. induction HAe as [|x l HA IH F]; cbn [map]; constructor; auto.
      intros C. apply in_map_iff in C as (y & E & Hy). rewrite Forall_forall in F. destruct (F y Hy). lia. }
  rewrite Hw, (leaving_out prev els) by (auto using asc_chrono).
  assert (Hi : resolve_incoming prev els = inc).
  { apply incoming_new; [now apply asc_chrono | intros x Hx; now apply filter_In in Hx |]. intros p e Hp' He. now apply HAlt. }
  rewrite Hi.
  change (last_or (new_model Ising) (b_model b)) with (stored_model Ising b).
  destruct (mapping_l (su_text u) (su_clock u) (stored_model Ising b) (pairs prev ++ G) n els (filter keep prev) inc (leaving prev els)) as (m1 & E1 & I1); auto.
  { intros e He. apply filter_In in He as [He _]. auto. }
  { intros e He. apply Hn. now apply (Permutation_in _ (Permutation_sym SP)). }
  { intros e He. apply filter_In in He as [He _]. auto. }
  { intros a Ha C. apply in_map_iff in C as (y & E & Hy). unfold leaving in Hy. apply filter_In in Hy as [Hy HF]. rewrite forallb_forall in HF.
    specialize (HF a Ha). apply Qclt_bool_iff in HF. unfold els in Ha. apply in_app_iff in Ha as [Ha|Ha].
    - apply filter_In in Ha as [Ha _]. assert (y = a) as -> by (apply (asc_in prev); auto). qord.
    - destruct (HAlt y a); auto. lia. }
  assert (I1' : inv_l m1 (pairs els ++ g) (next_size n inc)).
  { eapply inv_l_perm; [|exact I1]. apply step_pairs; auto. intros p e Hp' He. destruct (HAlt p e); auto. lia. }
  destruct (solving_l (su_env u) (su_envs u) m1 _ _ I1') as (m2 & p & E2 & I2 & T2 & OT & EN).
  cbn [npp_callbacks cb_map cb_solve cb_unmap]. rewrite E1. unfold npp_solving. rewrite E2.
  assert (EN' : forall s, (energy_physical s p = pair_energy s els + pairs_energy s g)%Qc) by (intros s; rewrite EN; apply pairs_energy_app).
  destruct (su_solver u p) as [ss|e] eqn:ES.
  - eexists. exists p. rewrite ES. split; [reflexivity|]. split; auto.
  - eexists. exists p. rewrite ES. split; [reflexivity|]. split; auto.
Qed.

Lemma history_partial o f keep : ao_filter o = Some f -> (forall e, f e = Ok (keep e)) ->
  forall ws (b : bags Qc (list srow)) seen n G,
  incl (prev_els b) seen -> asc (prev_els b) -> inv_l (stored_model Ising b) (pairs (prev_els b) ++ G) n ->
  (forall e, In e (prev_els b) -> el_idx e < n) ->
  (forall k, (forall e, In e seen -> el_idx e < k) -> n <= k) ->
  in_time (last (b_ts b) (- (1))%Qc) (map fst ws) -> arriving seen (map fst ws) ->
  in_order (seen ++ concat (map (fun wu => wn_els (fst wu)) ws)) -> (forall wu, In wu ws -> wn_els (fst wu) <> []) ->
  exists b' outs, npp_stream Partial o ws b = (b', Ok outs) /\ haunted keep (prev_els b) G ws outs.
Proof.
  intros Hf Hk. induction ws as [|[w u] ws IH]; intros b seen n G HS HA HI Hb Hn Hit Har HO HN.
  - exists b, []. split; [reflexivity | exact Logic.I].
  - cbn [map concat fst arriving in_time] in *. destruct Hit as [Lt Hit]. destruct Har as [Hl Har].
    set (prev := prev_els b) in *. set (inc := sorted (wn_els w)).
    assert (SP : Permutation (wn_els w) inc) by apply sorted_perm.
    rewrite app_assoc in HO. pose proof (in_order_sub _ _ HO) as HO1.
    assert (Hl' : forall p e, In p seen -> In e inc -> (el_ts p < el_ts e)%Qc).
    { intros p e Hp He. apply Hl; auto. now apply (Permutation_in _ (Permutation_sym SP)). }
    assert (HIn : forall e, In e inc -> In e (seen ++ wn_els w)) by (intros e He; apply in_app_iff; right; now apply (Permutation_in _ (Permutation_sym SP))).
    assert (HAi : asc inc).
    { apply (chrono_asc (seen ++ wn_els w)); auto; [|apply sorted_chronological].
      apply (idx_perm (wn_els w)); auto. destruct HO1 as [HO1 _]. rewrite map_app in HO1. now apply NoDup_app_iff in HO1. }
    assert (HAA : asc (prev ++ inc)).
    { apply asc_app. split; auto. split; auto. intros x y Hx Hy. assert (L : (el_ts x < el_ts y)%Qc) by (apply Hl'; auto). split; auto.
      apply HO1; auto. apply in_app_iff. left. auto. }
    assert (Hinc : forall e, In e (wn_els w) -> n <= el_idx e).
    { intros e He. apply Hn. intros p Hp. apply HO1; [apply in_app_iff; now left | apply in_app_iff; now right|]. now apply Hl. }
    destruct (step_partial o f keep w u b n G) as (b1 & p & P1 & T & EN & OT & P2 & T1 & I1); auto.
    { intros t' <-. exact Lt. } { apply (HN (w, u)). now left. }
    fold prev inc in P1, EN, OT, P2, I1. set (els := filter keep prev ++ inc) in *. set (g := ghosts_after keep G prev els) in *.
    assert (HAe : asc els).
    { apply asc_app in HAA as (_ & A2 & A3). apply asc_app. split; [|split; auto].
      - clear - HA. induction HA as [|x l H IH F]; cbn [filter]; [constructor|]. destruct (keep x); auto. constructor; auto.
        rewrite Forall_forall in *. intros y Hy. apply filter_In in Hy as [Hy _]. auto.
      - intros x y Hx Hy. apply filter_In in Hx as [Hx _]. auto. }
    destruct (next_size_le n inc) as [N1 N2]. { intros e He. apply Hinc. now apply (Permutation_in _ (Permutation_sym SP)). }
    destruct (IH b1 (seen ++ wn_els w) (next_size n inc) g) as (b' & outs & R1 & R2); auto.
    { rewrite P2. intros x Hx. unfold els in Hx. apply in_app_iff in Hx as [Hx|Hx]; auto. apply filter_In in Hx as [Hx _]. apply in_app_iff; auto. }
    { now rewrite P2. }
    { now rewrite P2. }
    { rewrite P2. intros e He. unfold els in He. apply in_app_iff in He as [He|He]; auto. apply filter_In in He as [He _]. specialize (Hb e He). lia. }
    { intros k Hk'. apply next_size_bound.
      - apply Hn. intros e He. apply Hk', in_app_iff. now left.
      - intros e He. apply Hk'; auto. }
    { rewrite T1. exact Hit. }
    { intros wu Hwu. apply HN. now right. }
    eexists b', (_ :: outs). split.
    + cbn [npp_stream]. unfold bind at 1. rewrite P1. unfold bind at 1. rewrite R1. reflexivity.
    + cbn [haunted]. exists p, els. cbv zeta. fold g. split; [now apply asc_chrono|]. split; [|split; [auto|split; [auto|split; [auto|split; [reflexivity|]]]]].
      * apply Permutation_app_head. now symmetry.
      * now rewrite <- P2.
Qed.

(** What the sample does: a number that the filter drops while an earlier one is kept
    stays in the model with its pairs. *)
Theorem C101_exact o f keep ws :
  ao_filter o = Some f -> (forall e, f e = Ok (keep e)) ->
  in_time (- (1))%Qc (map fst ws) -> arriving [] (map fst ws) -> in_order (concat (map (fun wu => wn_els (fst wu)) ws)) ->
  (forall wu, In wu ws -> wn_els (fst wu) <> []) ->
  exists b outs, npp_stream Partial o ws no_bags = (b, Ok outs) /\ haunted keep [] [] ws outs.
Proof.
  intros Hf Hk Hit Har HO HN.
  destruct (history_partial o f keep Hf Hk ws no_bags [] 0 []) as (b & outs & H1 & H2); auto.
  - intros e [].
  - constructor.
  - destruct inv_new as (A & B & C & D). split; [auto|]. split; [auto|]. split; [intros ? []|exact D].
  - intros e [].
  - lia.
  - exists b, outs. auto.
Qed.

(** ** When there are no ghosts *)
Lemma ghosts_none keep prev els : oldest_dropped keep prev ->
  (forall e, In e els -> (In e prev /\ keep e = true) \/ forall p, In p prev -> (el_ts p < el_ts e)%Qc) ->
  ghosts_after keep [] prev els = [].
Proof.
  intros HD HE. unfold ghosts_after. cbn [app]. apply filter_none. intros [a b] Hp. apply filter_In in Hp as [Hp Hk].
  apply pairs_in in Hp as [Ha Hb]. cbn [fst snd] in *. apply negb_true_iff, andb_false_iff in Hk.
  assert (HL : forall x, In x prev -> keep x = false -> among (leaving prev els) x = true).
  { intros x Hx K. apply among_iff, in_map. apply filter_In. split; auto. apply forallb_forall. intros c Hc. apply Qclt_bool_iff.
    destruct (HE c Hc) as [[H1 H2]|H]; auto. }
  destruct Hk as [K|K]; [rewrite (HL a Ha K); reflexivity|]. rewrite (HL b Hb K). apply andb_false_r.
Qed.
Lemma removelast_perm keep l : forall a b, Permutation a b ->
  Forall (oldest_dropped keep) (removelast (kept_windows keep a l)) -> Forall (oldest_dropped keep) (removelast (kept_windows keep b l)).
Proof.
  induction l as [|v [|v' l] IH]; intros a b P H; [constructor | constructor |].
  cbn [kept_windows] in *. set (A := filter keep a ++ v) in *. set (B := filter keep b ++ v).
  assert (P' : Permutation A B) by now apply Permutation_app_tail, filter_perm.
  change (removelast (A :: (filter keep A ++ v') :: kept_windows keep (filter keep A ++ v') l))
    with (A :: removelast ((filter keep A ++ v') :: kept_windows keep (filter keep A ++ v') l)) in H.
  change (removelast (B :: (filter keep B ++ v') :: kept_windows keep (filter keep B ++ v') l))
    with (B :: removelast ((filter keep B ++ v') :: kept_windows keep (filter keep B ++ v') l)).
  inversion H as [|? ? H1 H2]; subst. constructor; [|apply (IH A B P' H2)].
  intros d e Hd He. apply H1; now apply (Permutation_in _ (Permutation_sym P')).
Qed.
Lemma answers_kept_perm keep ws : forall a b outs, Permutation a b -> answers_kept keep a ws outs -> answers_kept keep b ws outs.
Proof.
  induction ws as [|[w u] ws IH]; intros a b [|out outs] P; cbn [answers_kept]; auto. intros [H1 H2].
  assert (P' : Permutation (filter keep a ++ wn_els w) (filter keep b ++ wn_els w)) by now apply Permutation_app_tail, filter_perm.
  split; [eapply answers_perm; eauto | eapply IH; eauto].
Qed.
Lemma haunted_answers keep ws : forall prev seen outs,
  incl prev seen -> NoDup (map el_idx prev) -> arriving seen (map fst ws) -> NoDup (map el_idx (seen ++ concat (map (fun wu => wn_els (fst wu)) ws))) ->
  oldest_dropped keep prev -> Forall (oldest_dropped keep) (removelast (kept_windows keep prev (map (fun wu => wn_els (fst wu)) ws))) ->
  haunted keep prev [] ws outs -> answers_kept keep prev ws outs.
Proof.
  induction ws as [|[w u] ws IH]; intros prev seen [|out outs] HS HNp Har HN HD HF; cbn [haunted answers_kept]; auto.
  cbn [map fst concat arriving] in *. destruct Har as [Hl Har].
  intros (p & els & HC & HP & HT & HE & HO & Hout & HR).
  assert (HG : ghosts_after keep [] prev els = []).
  { apply ghosts_none; auto. intros e He. apply (Permutation_in _ HP), in_app_iff in He as [He|He].
    - left. now apply filter_In in He.
    - right. intros x Hx. apply Hl; auto. }
  rewrite HG in *. rewrite app_nil_r in HO.
  assert (HNe : NoDup (map el_idx (filter keep prev ++ wn_els w))).
  { rewrite map_app. rewrite !map_app in HN. apply NoDup_app_iff in HN as (_ & N2 & N3). apply NoDup_app_iff in N2 as (N2 & _ & _).
    apply NoDup_app_iff. split; [now apply idx_filter|]. split; auto. intros i H1 H2. apply (N3 i); [|apply in_app_iff; now left].
    apply in_map_iff in H1 as (x & <- & Hx). apply filter_In in Hx as [Hx _]. now apply in_map, HS. }
  split.
  - exists p, els. split; auto. split; auto. split; auto. split; [|split; auto].
    + intros s. rewrite HE. unfold pairs_energy. cbn [map qsum fold_right]. rewrite <- (pair_energy_perm s _ _ HP). ring.
    + apply (only_pairs_perm els); auto. destruct HO as [O1 O2]. split; auto. intros a b HI. destruct (O2 a b HI) as (x & y & HL & V1 & V2 & E1 & E2).
      assert (ND : forall a b, In (a, b) (pairs els) -> el_idx a <> el_idx b).
      { apply (idx_perm _ els) in HNe; [|now symmetry]. clear - HNe. intros a b HI EQ. induction els as [|z els IH]; [destruct HI|].
        cbn [pairs] in HI. inversion HNe as [|? ? N1 N2]; subst. apply in_app_iff in HI as [HI|HI]; auto.
        apply in_map_iff in HI as (v & E & HI). injection E as -> ->. apply N1. rewrite <- EQ. now apply in_map. }
      exists x, y. destruct HL as [HL|HL]; pose proof (ND _ _ HL); apply pairs_in in HL; repeat split; try tauto. intros C. apply H. now symmetry.
  - apply (answers_kept_perm _ _ els); auto. destruct ws as [|wu ws].
    { destruct outs; cbn [haunted answers_kept] in *; auto. }
    change (removelast ((filter keep prev ++ wn_els w) :: kept_windows keep (filter keep prev ++ wn_els w) (map (fun wu => wn_els (fst wu)) (wu :: ws))))
      with ((filter keep prev ++ wn_els w) :: removelast (kept_windows keep (filter keep prev ++ wn_els w) (map (fun wu => wn_els (fst wu)) (wu :: ws)))) in HF.
    inversion HF as [|? ? F1 F2]; subst.
    apply (IH els (seen ++ wn_els w)); auto.
    + intros x Hx. apply (Permutation_in _ HP), in_app_iff in Hx as [Hx|Hx]; apply in_app_iff; auto. apply filter_In in Hx as [Hx _]. auto.
    + apply (idx_perm _ els) in HNe; auto. now symmetry.
    + now rewrite <- app_assoc.
    + intros d e Hd He. apply F1; now apply (Permutation_in _ HP).
    + eapply removelast_perm; [symmetry; exact HP | exact F2].
Qed.

(** What is missing: streams where the filter drops a number later than one it keeps,
    see C101_refuted and C101_exact. *)
Theorem C101_answers_partial o f keep ws :
  ao_filter o = Some f -> (forall e, f e = Ok (keep e)) ->
  in_time (- (1))%Qc (map fst ws) -> arriving [] (map fst ws) -> in_order (concat (map (fun wu => wn_els (fst wu)) ws)) ->
  (forall wu, In wu ws -> wn_els (fst wu) <> []) ->
  Forall (oldest_dropped keep) (removelast (kept_windows keep [] (map (fun wu => wn_els (fst wu)) ws))) ->
  exists b outs, npp_stream Partial o ws no_bags = (b, Ok outs) /\ answers_kept keep [] ws outs.
Proof.
  intros Hf Hk Hit Har HO HN HD. destruct (C101_exact o f keep ws Hf Hk Hit Har HO HN) as (b & outs & H1 & H2).
  exists b, outs. split; auto. apply (haunted_answers keep ws [] []); auto.
  - apply incl_refl.
  - constructor.
  - apply HO.
  - intros d e [].
Qed.

Lemma kept_best keep ws neal : forall prev outs seen,
  incl prev seen -> NoDup (map el_idx prev) -> NoDup (map el_idx (seen ++ concat (map (fun wu => wn_els (fst wu)) ws))) ->
  (forall wu, In wu ws -> forall p, su_solver (snd wu) p = local_solve true neal (Some p)) ->
  (forall wu, In wu ws -> 2 <= length (wn_els (fst wu))) ->
  (forall e, In e (seen ++ concat (map (fun wu => wn_els (fst wu)) ws)) -> el_val e <> 0%Qc) ->
  answers_kept keep prev ws outs ->
  Forall2 (fun els out => exists ans, out = [Solved ans] /\ best_partition els ans) (kept_windows keep prev (map (fun wu => wn_els (fst wu)) ws)) outs.
Proof.
  induction ws as [|[w u] ws IH]; intros prev [|out outs] seen HS HP HN HU HL HV; cbn [answers_kept map kept_windows fst]; try contradiction; [constructor|].
  intros [H1 H2]. cbn [map concat fst] in HN, HV.
  assert (HNe : NoDup (map el_idx (filter keep prev ++ wn_els w))).
  { rewrite map_app. rewrite !map_app in HN. apply NoDup_app_iff in HN as (_ & N2 & N3). apply NoDup_app_iff in N2 as (N2 & _ & _).
    apply NoDup_app_iff. split; [now apply idx_filter|]. split; auto. intros i K1 K2. apply (N3 i); [|apply in_app_iff; now left].
    apply in_map_iff in K1 as (x & <- & Hx). apply filter_In in Hx as [Hx _]. now apply in_map, HS. }
  assert (HI : incl (filter keep prev ++ wn_els w) (seen ++ wn_els w)).
  { intros x Hx. apply in_app_iff in Hx as [Hx|Hx]; apply in_app_iff; auto. apply filter_In in Hx as [Hx _]. auto. }
  constructor.
  - apply (C79_optimal u _ _ neal); auto.
    + intros p. apply (HU (w, u)). now left.
    + rewrite app_length. specialize (HL (w, u) (or_introl eq_refl)). cbn [fst] in HL. lia.
    + intros e He. apply HV. rewrite app_assoc. apply in_app_iff. left. auto.
  - apply (IH _ _ (seen ++ wn_els w)); auto.
    + now rewrite <- app_assoc.
    + intros wu Hwu. apply HU. now right.
    + intros wu Hwu. apply HL. now right.
    + intros e He. apply HV. now rewrite app_assoc.
Qed.

(** With the exact local solver each answer is then a best partition of the numbers of
    its window. *)
Theorem C101_best_partial o f keep ws neal :
  ao_filter o = Some f -> (forall e, f e = Ok (keep e)) ->
  in_time (- (1))%Qc (map fst ws) -> arriving [] (map fst ws) -> in_order (concat (map (fun wu => wn_els (fst wu)) ws)) ->
  (forall wu, In wu ws -> 2 <= length (wn_els (fst wu))) ->
  (forall wu, In wu ws -> forall p, su_solver (snd wu) p = local_solve true neal (Some p)) ->
  (forall wu e, In wu ws -> In e (wn_els (fst wu)) -> el_val e <> 0%Qc) ->
  Forall (oldest_dropped keep) (removelast (kept_windows keep [] (map (fun wu => wn_els (fst wu)) ws))) ->
  exists b outs, npp_stream Partial o ws no_bags = (b, Ok outs) /\
    Forall2 (fun els out => exists ans, out = [Solved ans] /\ best_partition els ans)
            (kept_windows keep [] (map (fun wu => wn_els (fst wu)) ws)) outs.
Proof.
  intros Hf Hk Hit Har HO HL HU HV HD.
  destruct (C101_answers_partial o f keep ws Hf Hk Hit Har HO) as (b & outs & H1 & H2); auto.
  { intros wu Hwu C. specialize (HL wu Hwu). rewrite C in HL. cbn in HL. lia. }
  exists b, outs. split; auto. apply (kept_best keep ws neal [] outs []); auto.
  - apply incl_refl.
  - constructor.
  - apply HO.
  - intros e He. cbn [app] in He. apply in_concat in He as (l & Hl & He). apply in_map_iff in Hl as (wu & <- & Hwu). eauto.
Qed.

(** ** Cases *)
(** The filter of npp_partial.py (35-40): numbers greater than 90 stay. *)
Definition over_90 (e : num_el) : bool := Qclt_bool (qz 90) (el_val e).
Definition partial_options : aoptions Qc := mkAo (Some (fun e => Ok (over_90 e))) None None.
(** 95, 91, 90, 90 and 6 in the first window, 4 in the second: the numbers of the
    second window are 95, 91 and 4. *)
Definition haunted_ws : list (win Qc * surroundings) :=
  [(mkWin (qz 10) [num_ 1 0 95; num_ 2 1 91; num_ 3 2 90; num_ 4 3 90; num_ 5 4 6] true env0 (fun _ => env0), exact_sur);
   (mkWin (qz 20) [num_ 11 5 4] true env0 (fun _ => env0), exact_sur)].

(** The answer of the second window is 4 against 95 and 91, although 95 against 91 and
    4 is balanced: the model of the solver still has the pairs of 90, 90 and 6. *)
Theorem C101_refuted :
  in_time (- (1))%Qc (map fst haunted_ws) /\ arriving [] (map fst haunted_ws) /\
  in_order (concat (map (fun wu => wn_els (fst wu)) haunted_ws)) /\
  kept_windows over_90 [] (map (fun wu => wn_els (fst wu)) haunted_ws) =
    [[num_ 1 0 95; num_ 2 1 91; num_ 3 2 90; num_ 4 3 90; num_ 5 4 6]; [num_ 1 0 95; num_ 2 1 91; num_ 11 5 4]] /\
  exists b first ans, npp_stream Partial partial_options haunted_ws no_bags = (b, Ok [first; [Solved ans]]) /\
    an_plus ans = [qz 4] /\ an_minus ans = [qz 95; qz 91] /\ an_diff ans = qz 182 /\
    ~ best_partition [num_ 1 0 95; num_ 2 1 91; num_ 11 5 4] ans.
Proof.
  split; [cbn; repeat split; now vm_compute|]. split; [|split; [|split]].
  - cbn [haunted_ws map fst arriving app wn_els]. split; [intros ? ? []|]. split; [|exact Logic.I].
    intros p e Hp [<-|[]]. cbn [In] in Hp. destruct Hp as [<-|[<-|[<-|[<-|[<-|[]]]]]]; now vm_compute.
  - split; [repeat (constructor; [cbn; intuition lia|]); constructor|].
    intros a b Ha Hb. cbn [haunted_ws map fst concat app wn_els] in Ha, Hb. 
    destruct Ha as [<-|[<-|[<-|[<-|[<-|[<-|[]]]]]]], Hb as [<-|[<-|[<-|[<-|[<-|[<-|[]]]]]]]; cbn [el_idx num_];
      (split; [intros H; try lia; exfalso; now vm_compute in H | intros H; try lia; now vm_compute]).
  - vm_compute. reflexivity.
  - destruct (npp_stream Partial partial_options haunted_ws no_bags) as [b r] eqn:E.
    exists b, [Solved (mkAns [qz 95; qz 91; qz 90; qz 90; qz 6] [qz 90; qz 90; qz 6] [qz 95; qz 91] (qz 0))],
      (mkAns [qz 95; qz 91; qz 4] [qz 4] [qz 95; qz 91] (qz 182)).
    split; [f_equal; change r with (snd (b, r)); rewrite <- E; vm_compute; reflexivity|].
    split; [reflexivity|]. split; [reflexivity|]. split; [reflexivity|].
    intros [_ H]. specialize (H [qz 95] [qz 91; qz 4] (Permutation_refl _)). vm_compute in H. now apply H.
Qed.

(** A stream whose kept number is the latest of its window. *)
Definition kept_ws : list (win Qc * surroundings) :=
  [(mkWin (qz 10) [num_ 1 0 50; num_ 2 1 40; num_ 3 2 95] true env0 (fun _ => env0), exact_sur);
   (mkWin (qz 20) [num_ 12 4 60; num_ 11 3 40] true env0 (fun _ => env0), exact_sur)].
Example C101_hyps :
  ao_filter partial_options = Some (fun e => Ok (over_90 e)) /\
  in_time (- (1))%Qc (map fst kept_ws) /\ arriving [] (map fst kept_ws) /\
  in_order (concat (map (fun wu => wn_els (fst wu)) kept_ws)) /\
  (forall wu, In wu kept_ws -> 2 <= length (wn_els (fst wu))) /\
  (forall wu, In wu kept_ws -> forall p, su_solver (snd wu) p = local_solve true (fun _ => Err ValueError) (Some p)) /\
  (forall wu e, In wu kept_ws -> In e (wn_els (fst wu)) -> el_val e <> 0%Qc) /\
  Forall (oldest_dropped over_90) (removelast (kept_windows over_90 [] (map (fun wu => wn_els (fst wu)) kept_ws))) /\
  nth 1 (kept_windows over_90 [] (map (fun wu => wn_els (fst wu)) kept_ws)) [] = [num_ 3 2 95; num_ 12 4 60; num_ 11 3 40].
Proof.
  split; [reflexivity|]. split; [cbn; repeat split; now vm_compute|]. split; [|split; [|split; [|split; [|split; [|split]]]]].
  - cbn [kept_ws map fst arriving app wn_els]. split; [intros ? ? []|]. split; [|exact Logic.I].
    intros p e Hp He. cbn [In] in Hp, He. destruct Hp as [<-|[<-|[<-|[]]]], He as [<-|[<-|[]]]; now vm_compute.
  - split; [repeat (constructor; [cbn; intuition lia|]); constructor|].
    intros a b Ha Hb. cbn [kept_ws map fst concat app wn_els] in Ha, Hb.
    destruct Ha as [<-|[<-|[<-|[<-|[<-|[]]]]]], Hb as [<-|[<-|[<-|[<-|[<-|[]]]]]]; cbn [el_idx num_];
      (split; [intros H; try lia; exfalso; now vm_compute in H | intros H; try lia; now vm_compute]).
  - intros wu [<-|[<-|[]]]; cbn; lia.
  - intros wu [<-|[<-|[]]] p; reflexivity.
  - intros wu e [<-|[<-|[]]]; cbn [fst wn_els In]; intros H; repeat (destruct H as [<-|H]; [discriminate|]); destruct H.
  - cbn [kept_ws map fst wn_els kept_windows filter app]. constructor; [|constructor].
    intros d e [<-|[<-|[<-|[]]]] [<-|[<-|[<-|[]]]]; intros K1 K2; try (now vm_compute in K1); try (now vm_compute in K2); now vm_compute.
  - vm_compute. reflexivity.
Qed.
Print Assumptions C101_exact.
Print Assumptions C101_answers_partial.
Print Assumptions C101_best_partial.
Print Assumptions C101_refuted.
