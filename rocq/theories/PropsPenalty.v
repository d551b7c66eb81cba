(** * PropsPenalty: property C100, constraints of sufficient strength. *)
From Verif Require Import PyBase PyLemmas Numbers Constraint LogicalModel Spec PhysicalProofs Samples Physical History PropsHistory PropsConstraints PropsPhysical
  Solver SolverSpec Services PropsSolver PropsSolvers SeqReach.
From Coq Require Import Lqa.
Open Scope string_scope.
Open Scope list_scope.

Ltac qlin := unfold Qcminus, Qcle, Qclt in *; do 3 rewrite ?this_plus, ?this_opp in *;
  change (this 0%Qc) with 0%Q in *; change (this 1%Qc) with 1%Q in *; lra.
Ltac qord := repeat match goal with H : @eq Qc _ _ |- _ => apply eq_le in H; destruct H end;
  match goal with |- @eq Qc _ _ => apply Qcle_antisym; qlin | |- _ => qlin end.
(** ** What the theorems speak about *)
(** What the constraint says: exactly [n], at most one, or equally many of the variables have the value 1. *)
Definition satisfied (a : assignment) (c : constr) : Prop :=
  match c with
  | NHot vs n _ _ => Z.of_nat (hot_count a vs) = n
  | ZeroOrOne vs _ _ => hot_count a vs <= 1
  | Equality v1 v2 _ _ => hot_count a v1 = hot_count a v2
  end.
Definition strength (c : constr) : Qc := match c with NHot _ _ _ s | ZeroOrOne _ _ s | Equality _ _ _ s => s end.
(** A legal assignment that satisfies every constraint of the model. *)
Definition feasible (m : lmodel) (a : assignment) : Prop :=
  legal_assignment (m_mtype m) a /\ Forall (satisfied a) (dvals (m_constrs m)).
(** A feasible assignment of least energy, the constraints not counted. *)
Definition constrained_optimum (fd : feed) (m : lmodel) (a : assignment) : Prop :=
  feasible m a /\ forall b, feasible m b -> (energy fd a m <= energy fd b m)%Qc.
(** Every strength is larger than any difference of energy. *)
Definition strong (fd : feed) (m : lmodel) : Prop :=
  forall c a b, In c (dvals (m_constrs m)) -> legal_assignment (m_mtype m) a -> legal_assignment (m_mtype m) b ->
    (energy fd a m - energy fd b m < strength c)%Qc.
Definition magnitude (q : Qc) : Qc := if Qclt_le_dec q 0 then (- q)%Qc else q.
(** The sum of the absolute values of coefficient * scale over the active interactions. *)
Definition total_weight (fd : feed) (m : lmodel) : Qc :=
  qsum (map (fun r => magnitude (value fd (r_coef r) * value fd (r_scale r))%Qc) (filter (fun r => negb (r_removed r)) (m_rows m))).

(** ** Penalties *)
Definition base (c : constr) : Qc := match c with NHot _ n _ s => (- (s * (qz n * qz n)))%Qc | _ => 0%Qc end.
Lemma count_spin s vs : spin s -> hot_count (to_binary s) vs = hot_count s vs.
Proof.
  intros HS. unfold hot_count. f_equal. apply filter_ext. intros v. unfold to_binary. destruct (HS (v_label v)) as [->| ->]; reflexivity.
Qed.
Lemma satisfied_spin s c : spin s -> satisfied (to_binary s) c <-> satisfied s c.
Proof. intros HS. destruct c; cbn [satisfied]; rewrite !count_spin by auto; tauto. Qed.
Lemma scaled_le s k : (0 <= s)%Qc -> (1 <= k)%Z -> (s <= s * qz k)%Qc.
Proof.
  intros HS HK. assert (H : (1 * s <= qz k * s)%Qc) by (apply Qcmult_le_compat_r; auto; rewrite <- qz_1; apply qz_le; auto).
  replace (s * qz k)%Qc with (qz k * s)%Qc by ring. replace s with (1 * s)%Qc at 1 by ring. auto.
Qed.
Lemma penalty_cases x c : binary x -> (0 <= strength c)%Qc ->
  (satisfied x c -> penalty x c = base c) /\ (~ satisfied x c -> (base c + strength c <= penalty x c)%Qc).
Proof.
  intros HB HS. destruct c as [vs n l s|vs l s|v1 v2 l s]; cbn [satisfied penalty base strength] in *; rewrite ?(hot_is_count x _ HB).
  - set (k := Z.of_nat (hot_count x vs)). split; [intros ->; ring|]. intros NE.
    replace (s * ((qz k - qz n) * (qz k - qz n) - qz n * qz n))%Qc with (- (s * (qz n * qz n)) + s * ((qz k - qz n) * (qz k - qz n)))%Qc by ring.
    apply Qcplus_le_compat; [apply Qcle_refl|]. rewrite <- qz_sub, <- qz_mul. apply scaled_le; auto. nia.
  - set (k := Z.of_nat (hot_count x vs)). rewrite <- qz_1, <- qz_sub, <- qz_mul. split.
    + intros H. replace (k * (k - 1))%Z with 0%Z by nia. rewrite qz_0. ring.
    + intros H. replace (0 + s)%Qc with s by ring. apply scaled_le; auto. nia.
  - set (a := Z.of_nat (hot_count x v1)). set (b := Z.of_nat (hot_count x v2)). rewrite <- qz_sub, <- qz_mul. split.
    + intros H. replace a with b by lia. replace ((b - b) * (b - b))%Z with 0%Z by nia. rewrite qz_0. ring.
    + intros H. replace (0 + s)%Qc with s by ring. apply scaled_le; auto. nia.
Qed.
Lemma satisfied_dec x c : {satisfied x c} + {~ satisfied x c}.
Proof. destruct c; cbn [satisfied]; [apply Z.eq_dec|apply le_dec|apply Nat.eq_dec]. Qed.
Lemma penalties_cases x cs : binary x -> (forall c, In c cs -> (0 <= strength c)%Qc) ->
  (Forall (satisfied x) cs -> penalties x cs = qsum (map base cs)) /\
  (qsum (map base cs) <= penalties x cs)%Qc /\
  (forall c, In c cs -> ~ satisfied x c -> (qsum (map base cs) + strength c <= penalties x cs)%Qc).
Proof.
  intros HB. unfold penalties. induction cs as [|c cs IH]; intros HS; cbn [map qsum].
  - split; [reflexivity|]. split; [apply Qcle_refl|]. intros c [].
  - destruct IH as (I1 & I2 & I3); [intros; apply HS; simpl; auto|]. assert (H0 : (0 <= strength c)%Qc) by (apply HS; simpl; auto).
    destruct (penalty_cases x c HB H0) as (P1 & P2). split; [|split].
    + intros HF. inversion HF; subst. rewrite P1, I1; auto.
    + destruct (satisfied_dec x c) as [H|H].
      * rewrite P1 by auto. qord.
      * specialize (P2 H). qord.
    + intros d [<-|HD] NS.
      * specialize (P2 NS). qord.
      * specialize (I3 d HD NS). destruct (satisfied_dec x c) as [H|H]; [rewrite P1 by auto; qord|specialize (P2 H); qord].
Qed.

(** ** C100 *)
Definition as_binary (t : mtype) (a : assignment) : assignment := match t with Ising => to_binary a | Qubo => a end.
Lemma as_binary_ok t a : legal_assignment t a -> binary (as_binary t a).
Proof. destruct t; cbn; auto. apply PhysicalProofs.spin_to_binary. Qed.
Lemma as_binary_satisfied t a c : legal_assignment t a -> satisfied (as_binary t a) c <-> satisfied a c.
Proof. destruct t; cbn; intros H; [apply satisfied_spin; auto|tauto]. Qed.
Lemma physical_objective ev evs fd m m' p a b : m_len m = length (m_rows m) -> Forall constr_ok (dvals (m_constrs m)) -> to_physical ev evs fd m = (m', Ok p) ->
  legal_assignment (m_mtype m) a -> legal_assignment (m_mtype m) b ->
  (energy_physical a p - energy_physical b p = energy fd a m + penalties (as_binary (m_mtype m) a) (dvals (m_constrs m)) - (energy fd b m + penalties (as_binary (m_mtype m) b) (dvals (m_constrs m))))%Qc.
Proof.
  intros HL HC E LA LB. destruct (m_mtype m) eqn:ET; cbn [as_binary legal_assignment] in *.
  - rewrite (C09_ising _ _ _ _ _ _ a HL ET HC E LA), (C09_ising _ _ _ _ _ _ b HL ET HC E LB). ring.
  - rewrite (C09_qubo _ _ _ _ _ _ a HL ET HC E LA), (C09_qubo _ _ _ _ _ _ b HL ET HC E LB). ring.
Qed.
(** An assignment that is as good as a feasible one is feasible, and as good without the constraints. *)
Theorem C100_as_good : forall ev evs fd m m' p a b,
  m_len m = length (m_rows m) -> Forall constr_ok (dvals (m_constrs m)) -> to_physical ev evs fd m = (m', Ok p) -> strong fd m ->
  legal_assignment (m_mtype m) a -> feasible m b -> (energy_physical a p <= energy_physical b p)%Qc ->
  feasible m a /\ (energy fd a m <= energy fd b m)%Qc.
Proof.
  intros ev evs fd m m' p a b HL HC E ST LA (LB & SB) LE. set (t := m_mtype m) in *. set (cs := dvals (m_constrs m)) in *.
  pose proof (physical_objective _ _ _ _ _ _ a b HL HC E LA LB) as EQ. fold t cs in EQ.
  assert (HS : forall c, In c cs -> (0 <= strength c)%Qc).
  { intros c HI. apply Qclt_le_weak. specialize (ST c b b HI LB LB). qord. }
  destruct (penalties_cases _ cs (as_binary_ok t a LA) HS) as (A1 & A2 & A3). destruct (penalties_cases _ cs (as_binary_ok t b LB) HS) as (B1 & _ & _).
  rewrite B1 in EQ by (eapply Forall_impl; [|exact SB]; intros c; apply as_binary_satisfied; auto).
  assert (FA : Forall (satisfied a) cs).
  { apply Forall_forall. intros c HI. destruct (satisfied_dec a c) as [H|H]; auto. exfalso.
    assert (NS : ~ satisfied (as_binary t a) c) by (rewrite as_binary_satisfied; auto). specialize (A3 c HI NS). specialize (ST c b a HI LB LA). qord. }
  split; [split; auto|]. rewrite A1 in EQ by (eapply Forall_impl; [|exact FA]; intros c; apply as_binary_satisfied; auto). qord.
Qed.
(** The ground states of the physical model are the constrained optima. *)
Theorem C100_optimum : forall ev evs fd m m' p,
  m_len m = length (m_rows m) -> Forall constr_ok (dvals (m_constrs m)) -> to_physical ev evs fd m = (m', Ok p) -> strong fd m -> (exists b, feasible m b) ->
  forall a, legal_assignment (m_mtype m) a ->
  ((forall b, legal_assignment (m_mtype m) b -> (energy_physical a p <= energy_physical b p)%Qc) <-> constrained_optimum fd m a).
Proof.
  intros ev evs fd m m' p HL HC E ST [b0 F0] a LA. split.
  - intros HM. destruct (C100_as_good _ _ _ _ _ _ a b0 HL HC E ST LA F0) as [FA _]; [apply HM, F0|]. split; auto.
    intros b FB. apply (C100_as_good _ _ _ _ _ _ a b HL HC E ST LA FB). apply HM, FB.
  - intros [FA HM] b LB. destruct (Qclt_le_dec (energy_physical b p) (energy_physical a p)) as [H|H]; auto. exfalso.
    destruct (C100_as_good _ _ _ _ _ _ b a HL HC E ST LB FA (Qclt_le_weak _ _ H)) as [FB HE]. specialize (HM b FB).
    pose proof (physical_objective _ _ _ _ _ _ a b HL HC E LA LB) as EQ. set (t := m_mtype m) in *. set (cs := dvals (m_constrs m)) in *.
    assert (HS : forall c, In c cs -> (0 <= strength c)%Qc).
    { intros c HI. apply Qclt_le_weak. specialize (ST c a a HI LA LA). qord. }
    destruct (penalties_cases _ cs (as_binary_ok t a LA) HS) as (A1 & _ & _). destruct (penalties_cases _ cs (as_binary_ok t b LB) HS) as (B1 & _ & _).
    rewrite A1 in EQ by (eapply Forall_impl; [|apply FA]; intros c; apply as_binary_satisfied; auto).
    rewrite B1 in EQ by (eapply Forall_impl; [|apply FB]; intros c; apply as_binary_satisfied; auto). qord.
Qed.

(** Strengths above the total weight (twice, for Ising models) are enough. *)
Lemma magnitude_nonneg q : (0 <= magnitude q)%Qc.
Proof. unfold magnitude. destruct (Qclt_le_dec q 0); auto. qord. Qed.
Lemma magnitude_bound q d k : (- k <= d)%Qc -> (d <= k)%Qc -> (q * d <= k * magnitude q)%Qc.
Proof.
  intros H1 H2. unfold magnitude. destruct (Qclt_le_dec q 0) as [H|H].
  - assert (HP : (- d * - q <= k * - q)%Qc) by (apply Qcmult_le_compat_r; qord). replace (q * d)%Qc with (- d * - q)%Qc by ring. auto.
  - assert (HP : (d * q <= k * q)%Qc) by (apply Qcmult_le_compat_r; auto). replace (q * d)%Qc with (d * q)%Qc by ring. auto.
Qed.
Definition swing (t : mtype) : Qc := match t with Ising => qz 2 | Qubo => 1%Qc end.
Lemma monomial_swing t a b k : legal_assignment t a -> legal_assignment t b -> (- swing t <= monomial b k - monomial a k)%Qc /\ (monomial b k - monomial a k <= swing t)%Qc.
Proof.
  intros LA LB. destruct t; cbn [legal_assignment swing] in *; destruct k as [l|l l']; cbn [monomial].
  - destruct (LA l) as [->| ->], (LB l) as [->| ->]; split; discriminate.
  - destruct (LA l) as [->| ->], (LB l) as [->| ->], (LA l') as [->| ->], (LB l') as [->| ->]; split; discriminate.
  - destruct (LA l) as [->| ->], (LB l) as [->| ->]; split; discriminate.
  - destruct (LA l) as [->| ->], (LB l) as [->| ->], (LA l') as [->| ->], (LB l') as [->| ->]; split; discriminate.
Qed.
Theorem C100_strength : forall fd m, (forall c, In c (dvals (m_constrs m)) -> (swing (m_mtype m) * total_weight fd m < strength c)%Qc) -> strong fd m.
Proof.
  intros fd m HS c a b HI LA LB. eapply Qcle_lt_trans; [|apply HS; exact HI]. unfold energy, total_weight.
  assert (H : (qsum (map (contribution fd b) (m_rows m)) - qsum (map (contribution fd a) (m_rows m)) <=
     swing (m_mtype m) * qsum (map (fun r => magnitude (value fd (r_coef r) * value fd (r_scale r))) (filter (fun r => negb (r_removed r)) (m_rows m))))%Qc).
  { induction (m_rows m) as [|r rs IH]; cbn [map qsum filter].
    - replace (swing (m_mtype m) * 0)%Qc with 0%Qc by ring. replace (0 - 0)%Qc with 0%Qc by ring. apply Qcle_refl.
    - unfold contribution at 1 3. destruct (r_removed r); cbn [negb map].
      + qord.
      + destruct (monomial_swing _ _ _ (r_key r) LA LB) as (H1 & H2). set (w := (value fd (r_coef r) * value fd (r_scale r))%Qc).
        pose proof (magnitude_bound w _ _ H1 H2) as HM. cbn [qsum].
        match goal with |- (_ <= _ * (_ + ?x))%Qc => set (q := x) in * end. set (qa := qsum (map (contribution fd a) rs)) in *. set (qb := qsum (map (contribution fd b) rs)) in *.
        replace (w * monomial b (r_key r) + qb - (w * monomial a (r_key r) + qa))%Qc with (w * (monomial b (r_key r) - monomial a (r_key r)) + (qb - qa))%Qc by ring.
        replace (swing (m_mtype m) * (magnitude w + q))%Qc with (swing (m_mtype m) * magnitude w + swing (m_mtype m) * q)%Qc by ring.
        apply Qcplus_le_compat; auto. }
  set (qa := qsum (map (contribution fd a) (m_rows m))) in *. set (qb := qsum (map (contribution fd b) (m_rows m))) in *. qord.
Qed.

(** The sample of any solver that reports energies as C74 says: if it is as good as some feasible assignment,
    every completion of it is feasible. *)
Theorem C100_any_solver : forall ev evs fd m m' p rows s e c a b,
  m_len m = length (m_rows m) -> Forall constr_ok (dvals (m_constrs m)) -> to_physical ev evs fd m = (m', Ok p) -> strong fd m ->
  reports p rows -> In (s, e, c) rows -> legal_assignment (m_mtype m) a -> (forall l z, dget l s = Some z -> a l = qz z) ->
  feasible m b -> (e <= energy_physical b p)%Qc ->
  feasible m a /\ (energy fd a m <= energy fd b m)%Qc.
Proof.
  intros ev evs fd m m' p rows s e c a b HL HC E ST HR HI LA HA FB LE. eapply C100_as_good; eauto.
  destruct (HR _ _ _ HI) as (EE & _ & HK & _). rewrite EE in LE. erewrite energy_physical_ext; [exact LE|].
  intros l OC. apply HK in OC. apply dget_some_in in OC. destruct OC as [z HZ]. unfold value_of. rewrite HZ. auto.
Qed.
(** The best sample of the exact local solver is a constrained optimum. *)
Theorem C100_exact_solver : forall neal ev evs fd m m' p rows s e a,
  m_len m = length (m_rows m) -> Forall constr_ok (dvals (m_constrs m)) -> to_physical ev evs fd m = (m', Ok p) -> strong fd m -> (exists b, feasible m b) ->
  local_solve true neal (Some p) = Ok rows -> lowest s e rows ->
  legal_assignment (m_mtype m) a -> (forall l z, dget l s = Some z -> a l = qz z) ->
  constrained_optimum fd m a.
Proof.
  intros neal ev evs fd m m' p rows s e a HL HC E ST EX ES LW LA HA. apply (C100_optimum _ _ _ _ _ _ HL HC E ST EX a LA). intros b LB.
  pose proof (C75_ground_state _ _ _ _ _ _ _ _ _ _ a HL HC E ES LW LA HA b LB) as HO.
  pose proof (physical_objective _ _ _ _ _ _ a b HL HC E LA LB) as EQ. unfold objective in HO. fold (as_binary (m_mtype m) a) (as_binary (m_mtype m) b) in HO. qord.
Qed.

(** The bound cannot be lowered: with a strength equal to the largest difference of energy, a ground state violates the constraint. *)
Definition sharp_ops : list op :=
  [OVariables (VName "q") (ShTuple [ShInt 1]); OAdd (TVar (bin "q" 0)) (NStr "") (num (-5)) (num 1) AtNone TsNone;
   OAddConstraint (Some (NHot [bin "q" 0] 1 "one" (qz 5)))].
Definition sharp_model : lmodel := run_ops sharp_ops (new_model Qubo).
Theorem C100_sharp : exists m m' p a, history m /\ to_physical env0 evs0 feed0 m = (m', Ok p) /\ Forall constr_ok (dvals (m_constrs m)) /\
  (forall c x y, In c (dvals (m_constrs m)) -> binary x -> binary y -> (energy feed0 x m - energy feed0 y m <= strength c)%Qc) /\
  (exists b, feasible m b) /\ binary a /\ (forall b, binary b -> (energy_physical a p <= energy_physical b p)%Qc) /\ ~ feasible m a.
Proof.
  exists sharp_model.
  destruct (to_physical env0 evs0 feed0 sharp_model) as [m' [p|e]] eqn:E; [|exfalso; apply (f_equal (fun z => match snd z with Ok _ => true | _ => false end)) in E; vm_compute in E; discriminate].
  exists m', p, (fun _ => 0%Qc).
  assert (EC : dvals (m_constrs sharp_model) = [NHot [bin "q" 0] 1 "one" (qz 5)]) by (vm_compute; reflexivity).
  assert (HC : Forall constr_ok (dvals (m_constrs sharp_model))) by (rewrite EC; repeat constructor; intros []).
  assert (HE : forall x, energy feed0 x sharp_model = (qz 5 * x "q[0]")%Qc).
  { intros x. unfold energy. assert (ER : map (fun r => (r_removed r, r_key r)) (m_rows sharp_model) = [(false, K1 "q[0]")]) by (vm_compute; reflexivity).
    destruct (m_rows sharp_model) as [|r [|r2 rs]] eqn:EM; try discriminate. assert (E1 := f_equal (fun l => map fst l) ER). assert (E2 := f_equal (fun l => map snd l) ER). cbn [map fst snd] in E1, E2.
    apply (f_equal (hd true)) in E1. apply (f_equal (hd (K1 ""))) in E2. cbn [hd] in E1, E2. cbn [map qsum]. unfold contribution. rewrite E1, E2. cbn [monomial].
    assert (EV : map (fun r => (value feed0 (r_coef r) * value feed0 (r_scale r))%Qc) (m_rows sharp_model) = [qz (-5)]) by (vm_compute; f_equal; apply Qc_is_canon; reflexivity).
    rewrite EM in EV. cbn [map] in EV. assert (E3 := f_equal (hd 0%Qc) EV). cbn [hd] in E3. rewrite E3.
    assert (EO : value feed0 (m_offset sharp_model) = 0%Qc) by (vm_compute; apply Qc_is_canon; reflexivity). rewrite EO. replace (qz (-5)) with (- qz 5)%Qc by (apply Qc_is_canon; reflexivity). ring. }
  split; [apply run_history; constructor|]. split; auto. split; auto. split.
  { intros c x y HI HX HY. rewrite EC in HI. destruct HI as [<-|[]]. rewrite !HE. cbn [strength]. destruct (HX "q[0]") as [->| ->], (HY "q[0]") as [->| ->]; discriminate. }
  split.
  { exists (fun _ => 1%Qc). split; [intros l; right; reflexivity|]. rewrite EC. constructor; [reflexivity|constructor]. }
  split; [intros l; left; reflexivity|]. split.
  - intros b HB. assert (HT : m_mtype sharp_model = Qubo) by (vm_compute; reflexivity). assert (HL : m_len sharp_model = length (m_rows sharp_model)) by (vm_compute; reflexivity).
    rewrite (C09_qubo _ _ _ _ _ _ (fun _ => 0%Qc) HL HT HC E), (C09_qubo _ _ _ _ _ _ b HL HT HC E HB); [|intros l; left; reflexivity].
    rewrite !HE, EC. unfold penalties. cbn [map penalty hot qsum bin v_label]. unfold hot. cbn [map qsum v_label bin]. destruct (HB "q[0]") as [EB|EB]; change ("q" +++ brackets [0]) with "q[0]"; rewrite EB; discriminate.
  - intros (_ & H). rewrite EC in H. inversion H as [|? ? H1 _]. vm_compute in H1. discriminate.
Qed.

(** ** The hypotheses can be met *)
Definition chosen_ops (t : mtype) : list op :=
  let v := match t with Ising => spn | Qubo => bin end in
  [OVariables (VName "q") (ShTuple [ShInt 4]);
   OAdd (TVar (v "q" 0)) (NStr "") (num (-3)) (num 1) AtNone TsNone; OAdd (TTuple [EVar (v "q" 0); EVar (v "q" 1)]) (NStr "") (num 2) (num 2) AtNone TsNone;
   OAddConstraint (Some (NHot [v "q" 0; v "q" 1; v "q" 2] 1 "one" (qz 20)));
   OAddConstraint (Some (Equality [v "q" 0] [v "q" 3] "same" (qz 15)));
   OAddConstraint (Some (ZeroOrOne [v "q" 1; v "q" 2] "few" (qz 15)))].
Definition chosen (t : mtype) : lmodel := run_ops (chosen_ops t) (new_model t).
Example C100_hyps : forall t, exists m' p b, to_physical env0 evs0 feed0 (chosen t) = (m', Ok p) /\ m_mtype (chosen t) = t /\
  m_len (chosen t) = length (m_rows (chosen t)) /\ Forall constr_ok (dvals (m_constrs (chosen t))) /\ length (m_constrs (chosen t)) = 3 /\
  strong feed0 (chosen t) /\ feasible (chosen t) b /\ (exists rows, local_solve true (fun _ => Err ValueError) (Some p) = Ok rows /\ length rows = 16).
Proof.
  intros t. destruct (to_physical env0 evs0 feed0 (chosen t)) as [m' [p|e]] eqn:E; [|exfalso; apply (f_equal (fun z => match snd z with Ok _ => true | _ => false end)) in E; destruct t; vm_compute in E; discriminate].
  exists m', p, (fun l => if String.eqb l "q[1]" then 1%Qc else match t with Ising => (- (1))%Qc | Qubo => 0%Qc end).
  split; auto. assert (ET : m_mtype (chosen t) = t) by (destruct t; vm_compute; reflexivity). split; auto. split; [destruct t; vm_compute; reflexivity|].
  assert (EC : dvals (m_constrs (chosen t)) = let v := match t with Ising => spn | Qubo => bin end in
    [NHot [v "q" 0; v "q" 1; v "q" 2] 1 "one" (qz 20); Equality [v "q" 0] [v "q" 3] "same" (qz 15); ZeroOrOne [v "q" 1; v "q" 2] "few" (qz 15)]) by (destruct t; vm_compute; reflexivity).
  cbn zeta in EC. rewrite EC. split.
  { destruct t; repeat constructor; simpl; intuition discriminate. }
  split; [destruct t; vm_compute; reflexivity|]. split.
  { apply C100_strength. rewrite EC, ET. intros c HI. assert (EW : this (total_weight feed0 (chosen t)) = 7%Q) by (destruct t; vm_compute; reflexivity).
    assert (EW' : total_weight feed0 (chosen t) = qz 7) by (apply Qc_is_canon; rewrite EW; reflexivity). rewrite EW'. destruct HI as [<-|[<-|[<-|[]]]]; destruct t; vm_compute; reflexivity. }
  split.
  { split; rewrite ?ET, ?EC.
    - destruct t; intros l; destruct (String.eqb l "q[1]"); auto.
    - destruct t; repeat constructor; vm_compute; auto. }
  assert (HS := f_equal (fun z => match snd z with Ok p => match local_solve true (fun _ => Err ValueError) (Some p) with Ok rows => length rows | Err _ => 0 end | Err _ => 0 end) E).
  cbn [snd] in HS. destruct (local_solve true (fun _ => Err ValueError) (Some p)) as [rows|] eqn:EL; [|destruct t; vm_compute in HS; discriminate].
  exists rows. split; auto. rewrite <- HS. destruct t; vm_compute; reflexivity.
Qed.
Print Assumptions C100_as_good.
Print Assumptions C100_optimum.
Print Assumptions C100_strength.
Print Assumptions C100_any_solver.
Print Assumptions C100_exact_solver.
Print Assumptions C100_sharp.
