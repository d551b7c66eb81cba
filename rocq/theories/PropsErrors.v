(** * PropsErrors: C139 the class of the exception tells which argument was wrong. *)
From Verif Require Import PyBase PyLemmas Numbers Constraint LogicalModel Physical Solver Spec LogicalProofs EnergyProofs InteractionProofs Samples
  PropsInteractions PropsDeclare PropsSolver.
Local Open Scope string_scope.
Local Open Scope list_scope.

(** ** Specification *)

(** A list of things that can be wrong with a call, in the order in which they are
    looked for, each with its exception: the first that is the case decides. *)
Inductive verdict : list (Prop * exn) -> option exn -> Prop :=
| verdict_fine : verdict [] None
| verdict_here (P : Prop) e l : P -> verdict ((P, e) :: l) (Some e)
| verdict_next (P : Prop) e l o : ~ P -> verdict l o -> verdict ((P, e) :: l) o.

(** What a call came to: the exception it raised, if any. *)
Definition raised {S A} (r : S * res A) : option exn := match snd r with Ok _ => None | Err e => Some e end.

(** Arguments that count as not given. *)
Definition no_target (t : target) : Prop := t = TNone \/ t = TTuple [] \/ t = TOther false.
Definition no_name (n : narg) : Prop := n = NStr "" \/ n = NOther false.
(** Targets: a variable, or a pair of variables; the pair must be of different variables. *)
Definition is_target (t : target) : Prop := (exists v, t = TVar v) \/ exists x y, t = TTuple [EVar x; EVar y].
Definition twice (t : target) : Prop := exists x y, t = TTuple [EVar x; EVar y] /\ v_label x = v_label y.
Definition plain_number (c : carg) : Prop := exists q, c = AC (CNum q).

(** add_interaction. *)
Definition add_problems (t : target) (n : narg) (co sc : carg) (a : attrarg) (ts : tsarg) (m : lmodel) : list (Prop * exn) :=
  [ (no_target t, ValueError);
    (co = ABad, TypeError);
    (sc = ABad, TypeError);
    (a = AtBad, TypeError);
    (ts = TsBad, TypeError);
    (~ is_target t, TypeError);
    (twice t, ValueError);
    (~ no_name n /\ (forall s, n <> NStr s), TypeError);
    ((exists i dn nm, denotes t i dn /\ stored_name n dn nm /\ In nm (names m)), ValueError) ].

(** The interaction a valid call of update_interaction refers to was removed and not yet purged. *)
Definition pending (t : target) (n : narg) (m : lmodel) : Prop :=
  exists nm l1 x l2, refers t n nm /\ m_rows m = l1 ++ x :: l2 /\ r_name x = nm /\ ~ In nm (map r_name l1) /\ r_removed x = true.
(** update_interaction. *)
Definition update_problems (t : target) (n : narg) (co sc : option carg) (a : attrarg) (ts : tsarg) (m : lmodel) : list (Prop * exn) :=
  [ (no_target t /\ no_name n, ValueError);
    (~ no_target t /\ ~ no_name n, ValueError);
    ((exists c, co = Some c /\ ~ plain_number c), TypeError);
    ((exists c, sc = Some c /\ ~ plain_number c), TypeError);
    (a = AtBad, TypeError);
    (ts = TsBad, TypeError);
    (t <> TNone /\ ~ is_target t, TypeError);
    (twice t, ValueError);
    (~ no_name n /\ (forall nm, In nm (names m) -> n <> NStr nm), KeyError);
    (pending t n m, ValueError) ].

(** remove_interaction. *)
Definition remove_problems (t : target) (n : narg) (m : lmodel) : list (Prop * exn) :=
  [ (no_target t /\ no_name n, ValueError);
    (~ no_target t /\ ~ no_name n, ValueError);
    (t <> TNone /\ ~ is_target t, TypeError);
    (twice t, ValueError);
    (n = NOther true, TypeError);
    ((forall nm, refers t n nm -> ~ In nm (names m)), KeyError) ].

(** delete_variable and fix_variable, as far as the arguments are concerned. *)
Definition variable_problems (t : target) : list (Prop * exn) :=
  [ (no_target t, ValueError); ((forall v, t <> TVar v), TypeError) ].
Definition fix_problems (t : target) (q : Qc) (m : lmodel) : list (Prop * exn) :=
  variable_problems t ++
  [ (match m_mtype m with Ising => q <> 1%Qc /\ q <> (- (1))%Qc | Qubo => q <> 1%Qc /\ q <> 0%Qc end, ValueError) ].

(** variables, with a name and a shape. *)
Definition variables_problems (s : string) (sh : sharg) : list (Prop * exn) :=
  [ ((forall d, sh <> ShTuple (map ShInt d)) \/ sh = ShTuple [], TypeError);
    (has_char "*" s = true, AssertionError);
    ((exists z d, sh = ShTuple (map ShInt d) /\ In z d /\ (z <= 0)%Z), ValueError) ].
(** variables, with an array. *)
Definition array_problems (a : array) (m : lmodel) : list (Prop * exn) :=
  [ (a_bits a = [], IndexError);
    ((exists v l, a_bits a = v :: l /\ v_type v <> match m_mtype m with Ising => Spin | Qubo => Binary end), TypeError);
    ((exists v l, a_bits a = v :: l /\ has_char "[" (v_label v) = false), ValueError) ].

(** LocalSolver.solve, given something that may not be a physical model. *)
Definition needs (k : string) (r : revarg) : Prop := exists d, r = RDict d /\ d <> [] /\ dget k d = None.
Definition solve_problems (mo : option physical) (o : options) : list (Prop * exn) :=
  [ (mo = None, TypeError);
    ((exists p, mo = Some p /\ p_linear p = [] /\ p_quad p = []), ValueError);
    (init_list o <> [] /\ Z.of_nat (length (init_list o)) <> o_reads o, ValueError);
    (o_pickup o <> "random" /\ o_pickup o <> "sequential", ValueError);
    (o_reverse o = ROther true, TypeError);
    (needs "reverse_period" (o_reverse o), ValueError);
    (needs "reverse_temperature" (o_reverse o), ValueError) ].

(** ** Proofs *)
Lemma verdict_fun l o o' : verdict l o -> verdict l o' -> o = o'.
Proof. intros H. revert o'. induction H; intros o' H'; inversion H'; subst; auto; contradiction. Qed.
Lemma verdict_decides l x : verdict l x -> forall o, verdict l o <-> x = o.
Proof. intros H o. split; [intros H'; eapply verdict_fun; eauto|intros <-; auto]. Qed.
Ltac here := apply verdict_here.
Ltac next := apply verdict_next.

Lemma target_dec t : (no_target t /\ t_truthy t = false) \/ (~ no_target t /\ t_truthy t = true).
Proof. unfold no_target. destruct t as [|v|[|? ?]|[]]; cbn [t_truthy]; (left; split; [tauto|reflexivity]) || (right; split; [intros [?|[?|?]]; discriminate|reflexivity]). Qed.
Lemma name_dec n : (no_name n /\ n_truthy n = false) \/ (~ no_name n /\ n_truthy n = true).
Proof.
  unfold no_name. destruct n as [s| |[]]; cbn [n_truthy].
  - destruct (String.eqb_spec s ""); subst; [left|right]; split; auto. intros [H|H]; congruence.
  - right; split; auto. intros [H|H]; discriminate.
  - right; split; auto. intros [H|H]; discriminate.
  - left; split; auto.
Qed.
Lemma info_dec t :
  (~ is_target t /\ interaction_info t = Err TypeError) \/ (is_target t /\ twice t /\ interaction_info t = Err ValueError) \/
  (is_target t /\ ~ twice t /\ exists i, interaction_info t = Ok i /\ denotes t (in_inter i) (in_name i)).
Proof.
  assert (HB : forall t e, interaction_info t = Err e -> e = TypeError -> ~ is_target t).
  { intros t0 e E ->. intros [[v ->]|(x & y & ->)]; cbn in E; [discriminate|]. destruct (String.eqb _ _); [discriminate|]. destruct (String.ltb _ _); discriminate. }
  destruct t as [|v|l|b]; try (left; split; [eapply HB; reflexivity|reflexivity]).
  - right; right. split; [left; eauto|]. split; [intros (x & y & E & _); discriminate|]. eexists; split; [reflexivity|constructor].
  - destruct l as [|x [|y [|z l]]]; try (left; split; [eapply HB; [destruct x; reflexivity|reflexivity]|destruct x; reflexivity]); try (left; split; [eapply HB; reflexivity|reflexivity]).
    + destruct x as [x|]; [destruct y as [y|]|]; try (left; split; [eapply HB; reflexivity|reflexivity]).
      right. assert (HT : is_target (TTuple [EVar x; EVar y])) by (right; eauto).
      cbn [interaction_info]. destruct (String.eqb_spec (v_label x) (v_label y)) as [HE|HE].
      * left. split; auto. split; [|reflexivity]. exists x, y; auto.
      * right. split; auto. split; [intros (x' & y' & EE & HL); injection EE as <- <-; contradiction|].
        assert (HI : exists i, interaction_info (TTuple [EVar x; EVar y]) = Ok i).
        { cbn [interaction_info]. destruct (String.eqb_spec (v_label x) (v_label y)); [contradiction|]. destruct (String.ltb _ _); eauto. }
        destruct HI as [i HI]. exists i. split; [|now apply info_denotes].
        cbn [interaction_info] in HI. destruct (String.eqb_spec (v_label x) (v_label y)); [contradiction|auto].
Qed.

Lemma number_dec co : (exists c, co = Some c /\ ~ plain_number c) /\ check_opt_num co = Err TypeError \/
  ~ (exists c, co = Some c /\ ~ plain_number c) /\ exists c, check_opt_num co = Ok c.
Proof.
  destruct co as [[[q| | |]|]|]; cbn [check_opt_num check_num];
    try (left; split; [|reflexivity]; eexists; (split; [reflexivity|]); intros [q' E]; discriminate).
  - right. split; [|eauto]. intros (c & E & H). injection E as <-. apply H. exists q. reflexivity.
  - right. split; [|eauto]. intros (c & E & _). discriminate.
Qed.

(** add_interaction: the exception, or its absence, is decided by the list. *)
Theorem C139_add : forall ev t n co sc a ts m, aligned m -> attrs_wf a -> forall o,
  verdict (add_problems t n co sc a ts m) o <-> raised (add_interaction ev t n co sc a ts m) = o.
Proof.
  intros ev t n co sc a ts m HA HW. apply verdict_decides.
  destruct (target_dec t) as [[HT ET]|[HT ET]].
  { unfold raised, add_interaction. cbv [bind guard lift ret raise]. rewrite ET. cbn [snd]. now here. }
  next; [exact HT|]. destruct co as [c|].
  2:{ unfold raised, add_interaction. cbv [bind guard lift ret raise]. rewrite ET. cbn [check_coef snd]. now here. }
  next; [discriminate|]. destruct sc as [s|].
  2:{ unfold raised, add_interaction. cbv [bind guard lift ret raise]. rewrite ET. cbn [check_coef snd]. now here. }
  next; [discriminate|]. destruct (check_attrs a) as [d|e] eqn:EA.
  2:{ unfold raised, add_interaction. cbv [bind guard lift ret raise]. rewrite ET. cbn [check_coef]. rewrite EA. cbn [snd]. destruct a; try discriminate. injection EA as <-. now here. }
  next; [intros ->; discriminate|].
  destruct (check_ts (match ts with TsNone => TsNum (e_now ev) | _ => ts end)) as [q|e] eqn:EQ.
  2:{ unfold raised, add_interaction. cbv [bind guard lift ret raise]. rewrite ET. cbn [check_coef]. rewrite EA, EQ. cbn [snd]. destruct ts; try discriminate. injection EQ as <-. now here. }
  next; [intros ->; discriminate|].
  destruct (info_dec t) as [[H1 EI]|[(H1 & H2 & EI)|(H1 & H2 & inf & EI & HD)]].
  { unfold raised, add_interaction. cbv [bind guard lift ret raise]. rewrite ET. cbn [check_coef]. rewrite EA, EQ, EI. cbn [snd]. now here. }
  { unfold raised, add_interaction. cbv [bind guard lift ret raise]. rewrite ET. cbn [check_coef]. rewrite EA, EQ, EI. cbn [snd]. next; [tauto|]. now here. }
  next; [tauto|]. next; [tauto|].
  destruct (add_name n (in_name inf)) as [nm|e] eqn:EN.
  2:{ unfold raised, add_interaction. cbv [bind guard lift ret raise]. rewrite ET. cbn [check_coef]. rewrite EA, EQ, EI, EN. cbn [snd].
      unfold add_name in EN. destruct (name_dec n) as [[HN E]|[HN E]]; rewrite E in EN; [discriminate|]. destruct n; try discriminate; injection EN as <-; here; (split; [auto|discriminate]). }
  assert (HS : stored_name n (in_name inf) nm) by now apply add_name_spec.
  next.
  { intros [HN HF]. destruct HS as [[HS _]|[-> _]]; [|now apply (HF nm)]. destruct (name_dec n) as [[? ?]|[? ?]]; [contradiction|congruence]. }
  destruct (has_name m nm) eqn:EH.
  - unfold raised, add_interaction. cbv [bind guard lift ret raise get]. rewrite ET. cbn [check_coef]. rewrite EA, EQ, EI, EN, EH. cbn [snd negb]. here.
    exists (in_inter inf), (in_name inf), nm. repeat split; auto. now apply mem_in.
  - assert (HF : ~ In nm (names m)) by now apply mem_nin.
    destruct (proj2 (C03_succeeds_iff ev t n (AC c) (AC s) a ts m HA HW)) as [m' E].
    { exists c, s, (in_inter inf), (in_name inf), nm. repeat split; auto; intros ->; discriminate. }
    rewrite E. unfold raised. cbn [snd]. next; [|constructor].
    intros (i & dn & nm' & HD' & HS' & HI). apply denotes_info in HD'. rewrite EI in HD'. injection HD' as ->. cbn [in_name] in *.
    apply add_name_spec in HS'. rewrite EN in HS'. injection HS' as <-. contradiction.
Qed.

(** update_interaction. *)
Theorem C139_update : forall ev t n co sc a ts m, aligned m -> attrs_wf a -> forall o,
  verdict (update_problems t n co sc a ts m) o <-> raised (update_interaction ev t n co sc a ts m) = o.
Proof.
  intros ev t n co sc a ts m HA HW. apply verdict_decides.
  destruct (target_dec t) as [[HT ET]|[HT ET]], (name_dec n) as [[HN EN]|[HN EN]];
    try (unfold raised, update_interaction; cbv [bind guard lift ret raise]; rewrite ET, EN; cbn [orb andb negb snd]; now (here; split)).
  3:{ unfold raised, update_interaction; cbv [bind guard lift ret raise]; rewrite ET, EN; cbn [orb andb negb snd]. next; [tauto|]. now (here; split). }
  (* by name *)
  - next; [tauto|]. next; [tauto|].
    destruct (number_dec co) as [[H E]|[H [c EC]]]; [unfold raised, update_interaction; cbv [bind guard lift ret raise]; rewrite ET, EN, E; cbn; now here|]. next; [auto|].
    destruct (number_dec sc) as [[H' E]|[H' [s ES]]]; [unfold raised, update_interaction; cbv [bind guard lift ret raise]; rewrite ET, EN, EC, E; cbn; now here|]. next; [auto|].
    destruct (check_opt_attrs a) as [d|e] eqn:EA.
    2:{ unfold raised, update_interaction; cbv [bind guard lift ret raise]; rewrite ET, EN, EC, ES, EA; cbn [orb andb negb snd]. destruct a; try discriminate. injection EA as <-. now here. }
    next; [intros ->; discriminate|]. destruct (check_opt_ts ts) as [q|e] eqn:EQ.
    2:{ unfold raised, update_interaction; cbv [bind guard lift ret raise]; rewrite ET, EN, EC, ES, EA, EQ; cbn [orb andb negb snd]. destruct ts; try discriminate. injection EQ as <-. now here. }
    next; [intros ->; discriminate|].
    assert (HNT : ~ is_target t) by (intros [[v ->]|(x & y & ->)]; cbn in ET; discriminate).
    destruct (t_is_none t) eqn:EO.
    2:{ assert (EI : opt_info t = Err TypeError) by (unfold opt_info; rewrite EO; destruct (info_dec t) as [[_ ->]|[(X & _)|(X & _)]]; [reflexivity|contradiction|contradiction]).
        unfold raised, update_interaction; cbv [bind guard lift ret raise]; rewrite ET, EN, EC, ES, EA, EQ, EI; cbn [orb andb negb snd]. here. split; auto. intros ->; discriminate. }
    destruct t; try discriminate. next; [tauto|]. next; [intros (x & y & E & _); discriminate|].
    destruct n as [nm| |b].
    + destruct (has_name m nm) eqn:EH.
      * destruct (has_name_split m nm EH) as (l1 & x & l2 & R1 & R2 & R3). next; [intros [_ F]; apply (F nm); [now apply mem_in|reflexivity]|].
        assert (HR : is_removed m nm = Ok (r_removed x)) by (subst nm; now apply (is_removed_mid m l1 x l2)).
        destruct (r_removed x) eqn:EX.
        -- unfold raised, update_interaction; cbv [bind guard lift ret raise get]; rewrite ET, EN, EC, ES, EA, EQ; cbn [opt_info t_is_none orb andb negb]; rewrite EH, HR; cbn [negb snd]. here.
           exists nm, l1, x, l2. split; [|auto]. right. repeat split. intros ->. discriminate.
        -- assert (EU : update_interaction ev TNone (NStr nm) co sc a ts m = update_at nm c s d q m).
           { unfold update_interaction; cbv [bind guard lift ret raise get]; rewrite ET, EN, EC, ES, EA, EQ; cbn [opt_info t_is_none orb andb negb]; rewrite EH, HR. reflexivity. }
           rewrite EU. subst nm. destruct (update_at_rect m l1 x l2 c s d q (aligned_rect _ HA) R1 R3) as (z & Ez & _).
           { intros d0 ->. destruct a; cbn in EA; inversion EA; subst. apply HW; auto. }
           rewrite Ez. unfold raised. cbn [snd]. next; [|constructor].
           intros (nm & k1 & y & k2 & HF & K1 & K2 & K3 & K4). destruct HF as [[F _]|(_ & F & _)]; [congruence|]. injection F as F. subst nm.
           assert (HR' : is_removed m (r_name y) = Ok (r_removed y)) by (apply (is_removed_mid m k1 y k2); congruence).
           rewrite <- K2 in HR. rewrite HR' in HR. congruence.
      * unfold raised, update_interaction; cbv [bind guard lift ret raise get]; rewrite ET, EN, EC, ES, EA, EQ; cbn [opt_info t_is_none orb andb negb]; rewrite EH; cbn [snd]. here.
        split; auto. intros k HI E. injection E as ->. apply mem_in in HI. unfold has_name in EH. congruence.
    + unfold raised, update_interaction; cbv [bind guard lift ret raise get]; rewrite ET, EN, EC, ES, EA, EQ; cbn [opt_info t_is_none orb andb negb snd]. here. split; [auto|discriminate].
    + unfold raised, update_interaction; cbv [bind guard lift ret raise get]; rewrite ET, EN, EC, ES, EA, EQ; cbn [opt_info t_is_none orb andb negb snd]. here. split; [auto|discriminate].
  (* by target *)
  - next; [tauto|]. next; [tauto|].
    destruct (number_dec co) as [[H E]|[H [c EC]]]; [unfold raised, update_interaction; cbv [bind guard lift ret raise]; rewrite ET, EN, E; cbn; now here|]. next; [auto|].
    destruct (number_dec sc) as [[H' E]|[H' [s ES]]]; [unfold raised, update_interaction; cbv [bind guard lift ret raise]; rewrite ET, EN, EC, E; cbn; now here|]. next; [auto|].
    destruct (check_opt_attrs a) as [d|e] eqn:EA.
    2:{ unfold raised, update_interaction; cbv [bind guard lift ret raise]; rewrite ET, EN, EC, ES, EA; cbn [orb andb negb snd]. destruct a; try discriminate. injection EA as <-. now here. }
    next; [intros ->; discriminate|]. destruct (check_opt_ts ts) as [q|e] eqn:EQ.
    2:{ unfold raised, update_interaction; cbv [bind guard lift ret raise]; rewrite ET, EN, EC, ES, EA, EQ; cbn [orb andb negb snd]. destruct ts; try discriminate. injection EQ as <-. now here. }
    next; [intros ->; discriminate|].
    assert (TN : t <> TNone) by (intros ->; discriminate).
    assert (EO : opt_info t = match interaction_info t with Ok i => Ok (Some i) | Err e => Err e end) by (unfold opt_info; destruct t; try reflexivity; contradiction).
    destruct (info_dec t) as [[H1 EI]|[(H1 & H2 & EI)|(H1 & H2 & inf & EI & HD)]]; rewrite EI in EO.
    { unfold raised, update_interaction. cbv [bind guard lift ret raise]. rewrite ET, EN, EC, ES, EA, EQ, EO. cbn [orb andb negb snd]. now here. }
    { unfold raised, update_interaction. cbv [bind guard lift ret raise]. rewrite ET, EN, EC, ES, EA, EQ, EO. cbn [orb andb negb snd]. next; [tauto|]. now here. }
    next; [tauto|]. next; [tauto|]. next; [tauto|].
    assert (HF : forall nm, refers t n nm -> nm = in_name inf).
    { intros nm [[_ [i F]]|(F & _)]; [|contradiction]. apply denotes_info in F. rewrite EI in F. injection F as ->. reflexivity. }
    destruct (has_name m (in_name inf)) eqn:EH.
    + destruct (has_name_split m _ EH) as (l1 & x & l2 & R1 & R2 & R3).
      assert (HR : is_removed m (in_name inf) = Ok (r_removed x)) by (rewrite <- R2; apply (is_removed_mid m l1 x l2); congruence).
      destruct (r_removed x) eqn:EX.
      * unfold raised, update_interaction; cbv [bind guard lift ret raise get]; rewrite ET, EN, EC, ES, EA, EQ, EO; cbn [orb andb negb]; rewrite EH, HR; cbn [negb snd]. here.
        exists (in_name inf), l1, x, l2. split; [|auto]. left. split; [auto|]. exists (in_inter inf). exact HD.
      * assert (EU : update_interaction ev t n co sc a ts m = update_at (in_name inf) c s d q m).
        { unfold update_interaction; cbv [bind guard lift ret raise get]; rewrite ET, EN, EC, ES, EA, EQ, EO; cbn [orb andb negb]; rewrite EH, HR. reflexivity. }
        rewrite EU, <- R2. rewrite <- R2 in R3. destruct (update_at_rect m l1 x l2 c s d q (aligned_rect _ HA) R1 R3) as (z & Ez & _).
        { intros d0 ->. destruct a; cbn in EA; inversion EA; subst. apply HW; auto. }
        rewrite Ez. unfold raised. cbn [snd]. next; [|constructor].
        intros (nm & k1 & y & k2 & HF' & K1 & K2 & K3 & K4). apply HF in HF'. subst nm.
        assert (HR' : is_removed m (r_name y) = Ok (r_removed y)) by (apply (is_removed_mid m k1 y k2); congruence).
        rewrite <- K2, HR' in HR. congruence.
    + assert (EU : update_interaction ev t n co sc a ts m =
        add_interaction ev t (NStr "") (AC (match c with Some c => c | None => CNum 0%Qc end)) (AC (match s with Some s => s | None => CNum 1%Qc end)) AtNone (match q with Some q => TsNum q | None => TsNone end) m).
      { unfold update_interaction; cbv [bind guard lift ret raise get]; rewrite ET, EN, EC, ES, EA, EQ, EO; cbn [orb andb negb]; rewrite EH. reflexivity. }
      assert (HI : ~ In (in_name inf) (names m)) by (now apply mem_nin).
      assert (HW0 : attrs_wf AtNone) by (intros d0 F; discriminate).
      rewrite EU. destruct (proj2 (C03_succeeds_iff ev t (NStr "") (AC (match c with Some c => c | None => CNum 0%Qc end)) (AC (match s with Some s => s | None => CNum 1%Qc end)) AtNone (match q with Some q => TsNum q | None => TsNone end) m HA HW0)) as [m' E].
      { do 2 eexists. exists (in_inter inf), (in_name inf), (in_name inf). split; [reflexivity|]. split; [reflexivity|]. split; [discriminate|]. split; [destruct q; discriminate|].
        split; [exact HD|]. split; [left; split; reflexivity|exact HI]. }
      rewrite E. unfold raised. cbn [snd]. next; [|constructor].
      intros (nm & k1 & y & k2 & HF' & K1 & K2 & K3 & K4). apply HF in HF'. apply HI. rewrite <- HF', <- K2. unfold names. rewrite K1, map_app. apply in_or_app. right. now left.
Qed.

(** remove_interaction. *)
Theorem C139_remove : forall t n m o, verdict (remove_problems t n m) o <-> raised (remove_interaction t n m) = o.
Proof.
  intros t n m. apply verdict_decides.
  assert (HE : forall e, internal_name t n m = (m, Err e) -> raised (remove_interaction t n m) = Some e).
  { intros e E. unfold raised, remove_interaction. unfold bind at 1. rewrite E. reflexivity. }
  destruct (target_dec t) as [[HT ET]|[HT ET]], (name_dec n) as [[HN EN]|[HN EN]].
  - rewrite (HE ValueError) by (unfold internal_name; cbv [bind guard lift ret raise]; rewrite ET, EN; reflexivity). now (here; split).
  - next; [tauto|]. next; [tauto|].
    assert (HNT : ~ is_target t) by (intros [[v ->]|(x & y & ->)]; cbn in ET; discriminate).
    destruct (t_is_none t) eqn:EO.
    2:{ assert (EI : opt_info t = Err TypeError) by (unfold opt_info; rewrite EO; destruct (info_dec t) as [[_ ->]|[(X & _)|(X & _)]]; [reflexivity|contradiction|contradiction]).
        rewrite (HE TypeError) by (unfold internal_name; cbv [bind guard lift ret raise]; rewrite ET, EN, EI; reflexivity). here. split; auto. intros ->; discriminate. }
    destruct t; try discriminate. next; [tauto|]. next; [intros (x & y & E & _); discriminate|].
    destruct n as [nm| |b].
    + next; [discriminate|]. destruct (has_name m nm) eqn:EH.
      * assert (HI : In nm (names m)) by (now apply mem_in). assert (HR : refers TNone (NStr nm) nm) by (right; repeat split; intros ->; discriminate).
        destruct (proj2 (C06_succeeds_iff TNone (NStr nm) m)) as [m' E]; [eauto|]. rewrite E. next; [|constructor]. intros F. now apply (F nm).
      * rewrite (HE KeyError) by (unfold internal_name; cbv [bind guard lift ret raise get]; rewrite ET, EN; cbn [opt_info t_is_none orb andb negb]; rewrite EH; reflexivity).
        here. intros k [[F _]|(_ & F & _)]; [congruence|]. injection F as <-. now apply mem_nin.
    + next; [discriminate|]. rewrite (HE KeyError) by reflexivity. here. intros k [[F _]|(_ & F & _)]; [congruence|discriminate].
    + destruct b; [|discriminate]. rewrite (HE TypeError) by reflexivity. now here.
  - next; [tauto|]. next; [tauto|].
    assert (TN : t <> TNone) by (intros ->; discriminate).
    assert (EO : opt_info t = match interaction_info t with Ok i => Ok (Some i) | Err e => Err e end) by (unfold opt_info; destruct t; try reflexivity; contradiction).
    destruct (info_dec t) as [[H1 EI]|[(H1 & H2 & EI)|(H1 & H2 & inf & EI & HD)]]; rewrite EI in EO.
    { rewrite (HE TypeError) by (unfold internal_name; cbv [bind guard lift ret raise]; rewrite ET, EN, EO; reflexivity). now here. }
    { rewrite (HE ValueError) by (unfold internal_name; cbv [bind guard lift ret raise]; rewrite ET, EN, EO; reflexivity). next; [tauto|]. now here. }
    next; [tauto|]. next; [tauto|]. next; [intros ->; discriminate|].
    destruct (has_name m (in_name inf)) eqn:EH.
    + assert (HI : In (in_name inf) (names m)) by (now apply mem_in). assert (HR : refers t n (in_name inf)) by (left; split; [auto|exists (in_inter inf); auto]).
      destruct (proj2 (C06_succeeds_iff t n m)) as [m' E]; [eauto|]. rewrite E. next; [|constructor]. intros F. now apply (F _ HR).
    + rewrite (HE KeyError) by (unfold internal_name; cbv [bind guard lift ret raise get]; rewrite ET, EN, EO; cbn [orb andb negb]; rewrite EH; reflexivity).
      here. intros nm [[_ [i F]]|(F & _)]; [|contradiction]. apply denotes_info in F. rewrite EI in F. injection F as ->. cbn [in_name] in *. now apply mem_nin.
  - rewrite (HE ValueError) by (unfold internal_name; cbv [bind guard lift ret raise]; rewrite ET, EN; reflexivity). next; [tauto|]. now (here; split).
Qed.

(** delete_variable and fix_variable: a wrong argument raises the exception of the
    list and changes nothing; with arguments in order the call is about a variable. *)
Theorem C139_delete : forall t m,
  (forall e, verdict (variable_problems t) (Some e) -> delete_variable t m = (m, Err e)) /\
  (verdict (variable_problems t) None <-> exists v, t = TVar v).
Proof.
  intros t m. assert (HV : verdict (variable_problems t) (match t with TVar _ => None | _ => if t_truthy t then Some TypeError else Some ValueError end)).
  { destruct (target_dec t) as [[HT ET]|[HT ET]].
    - destruct t; try discriminate; rewrite ET; now here.
    - next; [auto|]. destruct t; try (rewrite ET; here; discriminate). next; [|constructor]. intros H. now apply (H v). }
  split.
  - intros e HE. pose proof (verdict_fun _ _ _ HV HE) as EQ. unfold delete_variable. cbv [bind guard ret raise]. destruct t as [|v|l|b]; try discriminate; destruct (t_truthy _); injection EQ as <-; reflexivity.
  - split.
    + intros HE. pose proof (verdict_fun _ _ _ HV HE) as EQ. destruct t as [|v|l|b]; [discriminate|eauto| |]; destruct (t_truthy _); discriminate.
    + intros [v ->]. exact HV.
Qed.
Theorem C139_fix : forall ev t q m,
  (forall e, verdict (fix_problems t q m) (Some e) -> fix_variable ev t q m = (m, Err e)) /\
  (verdict (fix_problems t q m) None <->
     (exists v, t = TVar v) /\ match m_mtype m with Ising => q = 1%Qc \/ q = (- (1))%Qc | Qubo => q = 1%Qc \/ q = 0%Qc end).
Proof.
  intros ev t q m.
  assert (HV : verdict (fix_problems t q m) (match t with TVar _ => if legal_value (m_mtype m) q then None else Some ValueError | _ => if t_truthy t then Some TypeError else Some ValueError end)).
  { unfold fix_problems, variable_problems. cbn [app]. destruct (target_dec t) as [[HT ET]|[HT ET]].
    - destruct t; try discriminate; rewrite ET; now here.
    - next; [auto|]. destruct t; try (rewrite ET; here; discriminate). next; [intros H; now apply (H v)|].
      destruct (legal_value (m_mtype m) q) eqn:EL; unfold legal_value in EL.
      + next; [|constructor]. destruct (m_mtype m); apply orb_true_iff in EL; rewrite !Qc_eqb_eq in EL; tauto.
      + here. destruct (m_mtype m); apply orb_false_iff in EL; destruct EL as [E1 E2]; (split; intros ->; [rewrite (proj2 (Qc_eqb_eq _ _) eq_refl) in E1|rewrite (proj2 (Qc_eqb_eq _ _) eq_refl) in E2]; discriminate). }
  split.
  - intros e HE. pose proof (verdict_fun _ _ _ HV HE) as EQ. unfold fix_variable. cbv [bind guard ret raise get]. destruct t as [|v|l|b]; cbn [t_truthy] in EQ.
    + injection EQ as <-. reflexivity.
    + cbn [t_truthy]. revert EQ. destruct (legal_value (m_mtype m) q); intros EQ; [discriminate|]. injection EQ as <-. reflexivity.
    + destruct l; injection EQ as <-; reflexivity.
    + destruct b; injection EQ as <-; reflexivity.
  - assert (HL : legal_value (m_mtype m) q = true <-> match m_mtype m with Ising => q = 1%Qc \/ q = (- (1))%Qc | Qubo => q = 1%Qc \/ q = 0%Qc end).
    { unfold legal_value. destruct (m_mtype m); rewrite orb_true_iff, !Qc_eqb_eq; tauto. }
    rewrite <- HL. split.
    + intros HE. pose proof (verdict_fun _ _ _ HV HE) as EQ. destruct t as [|v|l|b]; [discriminate| | |]; try (destruct (t_truthy _); discriminate).
      revert EQ. destruct (legal_value (m_mtype m) q); intros EQ; [eauto|discriminate].
    + intros [[v ->] E]. rewrite E in HV. exact HV.
Qed.

(** variables and append. *)
Lemma has_bracket c s : has_char c s = false <-> before_char c s = None.
Proof.
  induction s as [|d s IH]; cbn [has_char before_char]; [tauto|]. destruct (Ascii.eqb c d); cbn [orb]; [split; discriminate|].
  rewrite IH. destruct (before_char c s); split; congruence.
Qed.
Lemma shape_problems s sh vt :
  verdict (variables_problems s sh) (match check_shape false sh with Err e => Some e | Ok d => match array_create s d vt with Ok _ => None | Err e => Some e end end).
Proof.
  destruct sh as [l|].
  2:{ cbn [check_shape]. here. left. discriminate. }
  destruct l as [|x l]; [cbn [check_shape]; here; now right|]. cbn [check_shape]. set (l' := x :: l).
  destruct (sh_ints false l') as [d|] eqn:ES.
  - apply sh_ints_plain in ES. next; [intros [H|H]; [apply (H d); now rewrite ES|discriminate]|].
    unfold array_create. destruct (has_char "*" s) eqn:HC; [now here|]. next; [congruence|].
    destruct d as [|z d]; [discriminate|]. destruct (forallb (fun z => (0 <? z)%Z) (z :: d)) eqn:EF.
    + next; [|constructor]. intros (y & d' & E & HI & HL). injection E as E. rewrite ES in E.
      assert (d' = z :: d) as -> by (clear - E; symmetry; revert E; generalize (z :: d); intros u; revert u; induction d' as [|y d' IH]; intros [|w u] E; try discriminate; auto; injection E as -> E; f_equal; auto).
      rewrite forallb_forall in EF. specialize (EF y HI). apply Z.ltb_lt in EF. lia.
    + here. assert (HX : existsb (fun y => negb (0 <? y)%Z) (z :: d) = true).
      { revert EF. clear. induction (z :: d) as [|y u IH]; cbn [forallb existsb]; [discriminate|]. destruct (0 <? y)%Z; cbn [andb negb orb]; auto. }
      apply existsb_exists in HX. destruct HX as (y & HI & HY). exists y, (z :: d). rewrite ES. split; [reflexivity|]. split; [auto|]. apply negb_true_iff, Z.ltb_ge in HY. exact HY.
  - here. left. intros d E. injection E as E. assert (HX : sh_ints false l' = Some d) by now apply sh_ints_plain. congruence.
Qed.
Theorem C139_variables : forall s sh m o, verdict (variables_problems s sh) o <-> raised (variables (VName s) sh m) = o.
Proof.
  intros s sh m. apply verdict_decides. cbn [variables]. pose proof (shape_problems s sh (vt_of (m_mtype m))) as H.
  destruct (check_shape false sh) as [d|]; [|exact H]. destruct (array_create _ _ _); exact H.
Qed.
Theorem C139_array : forall a sh m o, verdict (array_problems a m) o <-> raised (variables (VArray a) sh m) = o.
Proof.
  intros a sh m. apply verdict_decides. cbn [variables]. unfold array_problems. destruct (a_bits a) as [|v l]; [now here|]. next; [discriminate|].
  destruct (vtype_eqb (v_type v) (vt_of (m_mtype m))) eqn:E; cbn [negb].
  - assert (HT : v_type v = vt_of (m_mtype m)) by (destruct (v_type v), (vt_of (m_mtype m)); auto; discriminate).
    next; [intros (w & k & EQ & HN); injection EQ as <- <-; apply HN; rewrite HT; destruct (m_mtype m); reflexivity|].
    destruct (before_char "["%char (v_label v)) eqn:EB.
    + next; [|constructor]. intros (w & k & EQ & HN). injection EQ as <- <-. apply has_bracket in HN. congruence.
    + here. exists v, l. split; [reflexivity|]. now apply has_bracket.
  - here. exists v, l. split; [reflexivity|]. intros HT. destruct (m_mtype m), (v_type v); discriminate.
Qed.

(** LocalSolver.solve: a problem of the list raises its exception, without a draw
    from any random source and with the caller's initial states as they were. *)
Theorem C139_solve : forall mo o e, verdict (solve_problems mo o) (Some e) -> forall w, solve w mo o = (o_init o, Err e).
Proof.
  intros mo o e HE w.
  assert (HV : verdict (solve_problems mo o) (match mo with None => Some TypeError | Some p => match check_args p o with Ok _ => None | Err e => Some e end end)).
  { clear. unfold solve_problems. destruct mo as [p|]; [|now here]. next; [discriminate|]. unfold check_args.
    assert (HZ : Nat.eqb (length (p_linear p)) 0 && Nat.eqb (length (p_quad p)) 0 = true <-> p_linear p = [] /\ p_quad p = []).
    { rewrite andb_true_iff, !Nat.eqb_eq. destruct (p_linear p), (p_quad p); cbn [length]; split; intros [A B]; split; auto; discriminate. }
    destruct (Nat.eqb (length (p_linear p)) 0 && Nat.eqb (length (p_quad p)) 0).
    { here. exists p. split; [reflexivity|]. now apply HZ. }
    next. { intros (p' & E & H). injection E as <-. apply HZ in H. discriminate. }
    assert (HI : has_init o && negb (Z.eqb (Z.of_nat (length (init_list o))) (o_reads o)) = true <-> init_list o <> [] /\ Z.of_nat (length (init_list o)) <> o_reads o).
    { rewrite andb_true_iff, negb_true_iff, Z.eqb_neq. unfold has_init. destruct (init_list o); cbn [length Nat.eqb negb]; split; intros [A B]; split; auto; congruence. }
    destruct (has_init o && _); [here; now apply HI|]. next; [intros H; apply HI in H; discriminate|].
    assert (HP : negb (String.eqb (o_pickup o) "random" || String.eqb (o_pickup o) "sequential") = true <-> o_pickup o <> "random" /\ o_pickup o <> "sequential").
    { rewrite negb_true_iff, orb_false_iff, !String.eqb_neq. tauto. }
    destruct (negb _); [here; now apply HP|]. next; [intros H; apply HP in H; discriminate|].
    unfold check_reverse. destruct (o_reverse o) as [|d|b] eqn:ER; cbn [rev_truthy].
    - next; [discriminate|]. next; [intros (d & E & _); discriminate|]. next; [intros (d & E & _); discriminate|]. constructor.
    - next; [discriminate|]. destruct d as [|kv d].
      + next; [intros (d & E & H & _); injection E as <-; now apply H|]. next; [intros (d & E & H & _); injection E as <-; now apply H|]. constructor.
      + cbn [length Nat.eqb negb]. unfold dmem. destruct (dget "reverse_period" (kv :: d)) eqn:E1; cbn [negb].
        * next; [intros (d' & E & _ & H); injection E as <-; congruence|]. destruct (dget "reverse_temperature" (kv :: d)) eqn:E2; cbn [negb].
          -- next; [intros (d' & E & _ & H); injection E as <-; congruence|]. constructor.
          -- here. exists (kv :: d). repeat split; auto. discriminate.
        * here. exists (kv :: d). repeat split; auto. discriminate.
    - destruct b; [now here|]. next; [discriminate|]. next; [intros (d & E & _); discriminate|]. next; [intros (d & E & _); discriminate|]. constructor. }
  pose proof (verdict_fun _ _ _ HV HE) as EQ. unfold solve. destruct mo as [p|]; [|injection EQ as <-; reflexivity].
  destruct (check_args p o); [discriminate|]. injection EQ as <-. reflexivity.
Qed.

(** Non-vacuity: a model with a removed interaction, and calls with several things wrong
    at once; and one with nothing wrong. *)
Example C139_hyps :
  aligned ising_model /\
  raised (add_interaction env0 (TTuple [EVar (spn "x" 0); EVar (spn "x" 0)]) (NOther true) (num 1) (num 1) AtNone TsNone ising_model) = Some ValueError /\
  raised (add_interaction env0 (TTuple [EVar (spn "x" 0); EVar (spn "x" 0)]) (NOther true) (num 1) (num 1) AtBad TsNone ising_model) = Some TypeError /\
  raised (add_interaction env0 (TVar (spn "new" 0)) (NStr "gone") (num 1) (num 1) AtNone TsNone ising_model) = Some ValueError /\
  raised (add_interaction env0 (TVar (spn "new" 0)) (NStr "other") (num 1) (num 1) AtNone TsNone ising_model) = None /\
  raised (update_interaction env0 TNone (NStr "gone") (Some ABad) None AtNone TsNone ising_model) = Some TypeError /\
  raised (update_interaction env0 TNone (NStr "gone") None None AtNone TsNone ising_model) = Some ValueError /\
  raised (update_interaction env0 TNone (NStr "unknown") None None AtNone TsNone ising_model) = Some KeyError /\
  raised (update_interaction env0 (TVar (spn "new" 0)) (NStr "") None None AtNone TsNone ising_model) = None /\
  raised (remove_interaction TNone (NOther true) ising_model) = Some TypeError /\
  raised (remove_interaction (TVar (spn "new" 0)) (NStr "") ising_model) = Some KeyError /\
  raised (remove_interaction (TVar (spn "new" 0)) (NStr "gone") ising_model) = Some ValueError /\
  raised (fix_variable env0 (TVar (spn "x" 0)) 0%Qc ising_model) = Some ValueError /\
  raised (delete_variable (TOther true) ising_model) = Some TypeError /\
  raised (variables (VName "a*b") (ShTuple [ShInt 0]) ising_model) = Some AssertionError /\
  raised (variables (VArray (mkArray [1%Z] [mkVar "x[0]" Binary])) ShBad ising_model) = Some TypeError /\
  verdict (solve_problems (Some (phys2 Ising)) (mkOptions 2 1 (qfrac 1 2) (qz 10) (Some [[]]) RNone "neither" None)) (Some ValueError) /\
  verdict (solve_problems (Some (phys2 Ising)) (mkOptions 2 1 (qfrac 1 2) (qz 10) None (ROther true) "random" None)) (Some TypeError).
Proof.
  split; [apply ising_al|]. do 15 (split; [reflexivity|]). split.
  - next; [discriminate|]. next; [intros (p & E & H & _); injection E as <-; discriminate|]. here. split; discriminate.
  - next; [discriminate|]. next; [intros (p & E & H & _); injection E as <-; discriminate|]. next; [intros [H _]; now apply H|].
    next; [intros [H _]; now apply H|]. now here.
Qed.
Print Assumptions C139_add.
Print Assumptions C139_update.
Print Assumptions C139_remove.
Print Assumptions C139_delete.
Print Assumptions C139_fix.
Print Assumptions C139_variables.
Print Assumptions C139_array.
Print Assumptions C139_solve.
