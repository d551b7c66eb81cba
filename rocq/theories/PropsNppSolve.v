(** * PropsNppSolve: C79, the answers of the streaming number-partitioning sample. *)
From Coq Require Import Lqa Sorted Permutation.
From Verif Require Import PyBase PyLemmas Numbers Constraint LogicalModel Spec LogicalProofs PhysicalProofs
  PropsPhysical Samples Solver SolverSpec SolverProofs PropsSolver Services ServicesSpec PropsSolvers
  Stream StreamSpec PropsStream NppStream NppStreamSpec PropsNppStream.
Local Open Scope string_scope.
Local Open Scope list_scope.

(** ** Absolute values *)
Lemma qabs_nonneg x : (0 <= qabs x)%Qc.
Proof.
  unfold qabs. destruct (Qclt_bool x 0) eqn:E; [apply Qclt_bool_iff in E | apply Qclt_bool_false in E]; auto.
  replace 0%Qc with (- 0)%Qc by ring. apply Qcopp_le_compat. now apply Qclt_le_weak.
Qed.
Lemma qabs_sq x : (qabs x * qabs x = x * x)%Qc.
Proof. unfold qabs. destruct (Qclt_bool x 0); ring. Qed.
Lemma sq_le x y : (x * x <= y * y)%Qc -> (qabs x <= qabs y)%Qc.
Proof.
  rewrite <- (qabs_sq x), <- (qabs_sq y). intros H. apply Qcnot_lt_le. intros L.
  pose proof (qabs_nonneg y) as N. set (a := qabs x) in *. set (b := qabs y) in *.
  assert (H1 : (b * b <= a * b)%Qc) by (apply Qcmult_le_compat_r; [now apply Qclt_le_weak | auto]).
  assert (P : (0 < a)%Qc) by (eapply Qcle_lt_trans; eauto).
  assert (H2 : (b * a < a * a)%Qc) by (apply Qcmult_lt_compat_r; auto).
  apply (Qclt_not_le (b * b) (a * a))%Qc; auto. eapply Qcle_lt_trans; [exact H1|]. now rewrite Qcmult_comm.
Qed.

(** ** The sample that is decoded *)
Definition pick (best r : srow) : srow := if Qclt_bool (snd (fst r)) (snd (fst best)) then r else best.
Lemma first_fold : forall rest (r : srow),
  let best := fold_left pick rest r in
  In best (r :: rest) /\ forall r', In r' (r :: rest) -> (snd (fst best) <= snd (fst r'))%Qc.
Proof.
  induction rest as [|x rest IH]; intros r; cbn [fold_left].
  - split; [now left|]. intros r' [<-|[]]. apply Qcle_refl.
  - unfold pick at 2 4. destruct (Qclt_bool (snd (fst x)) (snd (fst r))) eqn:E.
    + destruct (IH x) as [H1 H2]. split; [now right|]. intros r' [<-|H]; auto.
      apply Qclt_bool_iff in E. apply Qclt_le_weak in E. eapply Qcle_trans; [|exact E]. apply H2. now left.
    + destruct (IH r) as [H1 H2]. apply Qclt_bool_false in E. split; [destruct H1; [now left | now right; right]|].
      intros r' [<-|[<-|H]]; [apply H2; now left | | apply H2; now right].
      eapply Qcle_trans; [|exact E]. apply H2. now left.
Qed.
Lemma first_lowest rows : rows <> [] -> exists s e, first_sample rows = Ok s /\ lowest s e rows.
Proof.
  destruct rows as [|r rest]; [congruence|]. intros _.
  change (first_sample (r :: rest)) with (Ok (fst (fst (fold_left pick rest r)))).
  destruct (first_fold rest r) as [H1 H2]. revert H1 H2. generalize (fold_left pick rest r).
  intros [[s e] c] H1 H2. exists s, e. split; auto. split; [eauto|]. intros s' e' c' H. apply (H2 _ H).
Qed.
Lemma split_ok s l : (forall e, In e l -> exists z, dget (spin_of e) s = Some z /\ legal Ising z) ->
  exists pl mi, npp_split s l = Ok (pl, mi) /\ Permutation (pl ++ mi) (map el_val l) /\
    (qsum pl - qsum mi = imbalance (value_of s) l)%Qc.
Proof.
  induction l as [|e l IH]; intros H.
  - exists [], []. auto.
  - destruct IH as (pl & mi & E & P & I); [intros; apply H; now right|]. destruct (H e (or_introl eq_refl)) as (z & EZ & L).
    cbn [npp_split]. change ("x[" +++ str_of_nat (el_idx e) +++ "]") with (spin_of e). rewrite EZ, E. cbn [rbind fst snd].
    unfold imbalance. cbn [map]. set (w := value_of s (spin_of e)). assert (EW : w = qz z) by (unfold w, value_of; now rewrite EZ).
    assert (EC : forall c l, qsum (c :: l) = (c + qsum l)%Qc) by reflexivity. rewrite EC. fold (imbalance (value_of s) l). rewrite <- I, EW.
    destruct L as [-> | ->]; cbn [Z.eqb Pos.eqb].
    + exists (el_val e :: pl), mi. split; auto. split; [cbn [app]; now constructor|]. rewrite EC. change (qz 1) with 1%Qc. ring.
    + exists pl, (el_val e :: mi). split; auto. split; [symmetry; apply Permutation_cons_app; now symmetry|]. rewrite EC. change (qz (-1)) with (- (1))%Qc. ring.
Qed.

Lemma imbalance_perm s a b : Permutation a b -> imbalance s a = imbalance s b.
Proof. intros P. apply qsum_perm. now apply Permutation_map. Qed.

(** ** Every number has a spin in the model *)
Definition only (ls : list string) : assignment := fun l => if in_dec string_dec l ls then 1%Qc else 0%Qc.
Lemma spin_of_inj a b : spin_of a = spin_of b -> el_idx a = el_idx b.
Proof. apply lab_inj. Qed.
Lemma pair_energy_cons s x els : pair_energy s (x :: els) =
  (qsum (map (fun y => el_val y * el_val x * (s (spin_of y) * s (spin_of x))) els) + pair_energy s els)%Qc.
Proof. unfold pair_energy. cbn [pairs]. now rewrite map_app, qsum_app, map_map. Qed.
Lemma qsum_zero {A} (f : A -> Qc) l : (forall z, In z l -> f z = 0%Qc) -> qsum (map f l) = 0%Qc.
Proof.
  induction l as [|y l IH]; auto. intros H. cbn [map qsum fold_right]. fold (qsum (map f l)). rewrite IH by (intros; apply H; now right).
  rewrite H by now left. ring.
Qed.
Lemma only_zero l ls els : (forall e, In e els -> In (spin_of e) ls -> spin_of e = l) -> NoDup (map el_idx els) ->
  pair_energy (only ls) els = 0%Qc.
Proof.
  intros H HN. induction els as [|x els IH]; auto. rewrite pair_energy_cons.
  inversion HN as [|? ? N1 N2]; subst. rewrite IH; auto; [|intros; apply H; auto; now right].
  assert (E : qsum (map (fun y => el_val y * el_val x * (only ls (spin_of y) * only ls (spin_of x)))%Qc els) = 0%Qc); [|rewrite E; ring].
  assert (G : forall y, In y els -> (only ls (spin_of y) * only ls (spin_of x) = 0)%Qc).
  { intros y Hy. unfold only. destruct (in_dec string_dec (spin_of y) ls) as [I1|]; [|ring]. destruct (in_dec string_dec (spin_of x) ls) as [I2|]; [|ring].
    exfalso. apply N1. rewrite (spin_of_inj x y); [now apply in_map|]. rewrite (H x), (H y); auto; [now right | now left]. }
  clear - G. induction els as [|y els IH]; auto. cbn [map]. assert (EC : forall c l, qsum (c :: l) = (c + qsum l)%Qc) by reflexivity. rewrite EC, IH by (intros; apply G; now right).
  rewrite (G y) by now left. ring.
Qed.
Lemma only_two a b els : NoDup (map el_idx els) -> In (a, b) (pairs els) ->
  pair_energy (only [spin_of a; spin_of b]) els = (el_val a * el_val b)%Qc.
Proof.
  intros HN HI.
  induction els as [|x els IH]; [destruct HI|]. cbn [pairs] in HI. inversion HN as [|? ? N1 N2]; subst.
  rewrite pair_energy_cons. apply in_app_iff in HI as [HI|HI].
  - apply in_map_iff in HI as (y & E & Hy). injection E as <- <-.
    rewrite (only_zero (spin_of y) [spin_of y; spin_of x] els); auto.
    + assert (EX : only [spin_of y; spin_of x] (spin_of x) = 1%Qc) by (unfold only; destruct (in_dec _ _ _) as [|C]; auto; destruct C; right; now left).
      assert (EY : only [spin_of y; spin_of x] (spin_of y) = 1%Qc) by (unfold only; destruct (in_dec _ _ _) as [|C]; auto; destruct C; now left).
      rewrite EX. replace (el_val y * el_val x + 0)%Qc with (el_val y * el_val x)%Qc by ring. 
      apply in_split in Hy as (l1 & l2 & ->).
      assert (G : forall z, In z (l1 ++ l2) -> only [spin_of y; spin_of x] (spin_of z) = 0%Qc).
      { intros z Hz. unfold only. destruct (in_dec _ _ _) as [C|]; auto. exfalso. rewrite map_app in *. cbn [map] in *.
        apply NoDup_remove_2 in N2. destruct C as [C|[C|[]]]; apply spin_of_inj in C.
        - apply N2. rewrite C, <- map_app. now apply in_map.
        - apply N1. rewrite C. apply in_app_iff in Hz. apply in_app_iff. destruct Hz; [left|right; right]; now apply in_map. }
      assert (G2 : forall l, (forall z, In z l -> only [spin_of y; spin_of x] (spin_of z) = 0%Qc) ->
         qsum (map (fun z => el_val z * el_val x * (only [spin_of y; spin_of x] (spin_of z) * 1))%Qc l) = 0%Qc).
      { intros l HL. rewrite <- (Qcmult_0_l (qsum (map (fun _ => 0%Qc) l))). rewrite <- qsum_map_mul. f_equal. apply map_ext_in. intros z Hz. rewrite HL; auto. ring. }
      rewrite map_app, qsum_app. cbn [map]. assert (EC : forall c l, qsum (c :: l) = (c + qsum l)%Qc) by reflexivity. rewrite EC, EY.
      rewrite (G2 l1), (G2 l2); [ring | |]; intros z Hz; apply G, in_app_iff; auto.
    + intros e He [C|[C|[]]]; auto. exfalso. apply spin_of_inj in C. apply N1. rewrite C. now apply in_map.
  - rewrite IH by auto. destruct (pairs_in _ _ _ HI) as [Ia Ib].
    assert (EX : only [spin_of a; spin_of b] (spin_of x) = 0%Qc).
    { unfold only. destruct (in_dec _ _ _) as [C|]; auto. exfalso. apply N1. destruct C as [C|[C|[]]]; apply spin_of_inj in C; rewrite <- C; now apply in_map. }
    rewrite EX. assert (E0 : qsum (map (fun z => el_val z * el_val x * (only [spin_of a; spin_of b] (spin_of z) * 0))%Qc els) = 0%Qc); [|rewrite E0; ring].
    apply qsum_zero. intros z _. ring.
Qed.
Lemma in_pairs {A} (l : list A) a b : In a l -> In b l -> a <> b -> In (a, b) (pairs l) \/ In (b, a) (pairs l).
Proof.
  induction l as [|x l IH]; [intros []|]. intros [-> | Ha] [-> | Hb] D; [congruence| | |]; cbn [pairs]; rewrite !in_app_iff.
  - right. left. apply in_map_iff. eauto.
  - left. left. apply in_map_iff. eauto.
  - destruct (IH Ha Hb D); auto.
Qed.
Lemma two_occur p els : NoDup (map el_idx els) -> (forall s, energy_physical s p = pair_energy s els) ->
  forall e e', In e els -> In e' els -> e' <> e -> el_val e <> 0%Qc -> el_val e' <> 0%Qc -> occurs p (spin_of e).
Proof.
  intros HN HE e e' He He' D V V'.
  assert (G : forall q, In q (pairs els) -> el_val (fst q) <> 0%Qc -> el_val (snd q) <> 0%Qc -> (spin_of e = spin_of (fst q) \/ spin_of e = spin_of (snd q)) -> occurs p (spin_of e)).
  { intros [a b] HI Va Vb HS. cbn [fst snd] in HS, Va, Vb. destruct (pairs_in _ _ _ HI) as [Ia Ib].
    assert (DEC : occurs p (spin_of e) \/ ~ occurs p (spin_of e)).
    { unfold occurs. destruct (in_dec string_dec (spin_of e) (dkeys (p_linear p))) as [|N]; auto.
      destruct (in_dec string_dec (spin_of e) (flat_map (fun k => [fst k; snd k]) (dkeys (p_quad p)))) as [I|N2].
      - left. right. apply in_flat_map in I as ([c d] & H1 & H2). exists c, d. split; auto. cbn in H2. destruct H2 as [H2|[H2|[]]]; auto.
      - right. intros [C|(c & d & C1 & C2)]; auto. apply N2. apply in_flat_map. exists (c, d). split; auto. cbn. destruct C2; auto. }
    destruct DEC as [|NO]; auto. exfalso.
    pose (s1 := only [spin_of a; spin_of b]). pose (o := if string_dec (spin_of e) (spin_of a) then spin_of b else spin_of a). pose (s2 := only [o]).
    assert (E12 : energy_physical s1 p = energy_physical s2 p).
    { apply energy_physical_ext. intros l Hl. assert (D' : l <> spin_of e) by congruence.
      unfold s1, s2, only, o. destruct (string_dec (spin_of e) (spin_of a)) as [E|E].
      - destruct (in_dec _ l _) as [[C|[C|[]]]|C]; [congruence| |]; destruct (in_dec _ l _) as [[C'|[]]|C']; auto; exfalso.
        + apply C'. now left.
        + apply C. right. now left.
      - destruct HS as [HS|HS]; [congruence|].
        destruct (in_dec _ l _) as [[C|[C|[]]]|C]; [|congruence|]; destruct (in_dec _ l _) as [[C'|[]]|C']; auto; exfalso.
        + apply C'. now left.
        + apply C. now left. }
    rewrite !HE in E12. unfold s1 in E12. rewrite only_two in E12 by auto.
    unfold s2 in E12. rewrite (only_zero o [o]) in E12; auto.
    - apply Qcmult_integral in E12 as [E|E]; contradiction.
    - intros x _ [-> | []]. reflexivity. }
  destruct (in_pairs els e e' He He' (not_eq_sym D)) as [HI|HI]; apply (G _ HI); auto.
Qed.
Lemma all_occur p els : NoDup (map el_idx els) -> 2 <= length els -> (forall e, In e els -> el_val e <> 0%Qc) ->
  (forall s, energy_physical s p = pair_energy s els) -> forall e, In e els -> occurs p (spin_of e).
Proof.
  intros HN HL HV HE e He.
  assert (exists e', In e' els /\ e' <> e) as (e' & He' & D).
  { destruct els as [|x [|y els]]; cbn [length] in HL; try lia. inversion HN as [|? ? N1 N2]; subst.
    destruct He as [<-|He].
    - exists y. split; [right; now left|]. intros ->. apply N1. now left.
    - exists x. split; [now left|]. intros ->. apply N1. now apply (in_map el_idx) in He. }
  apply (two_occur p els HN HE e e'); auto.
Qed.

(** ** The answer *)
(** A solver that reports the true energies of legal samples of the variables. *)
Definition honest_solver (f : physical -> res (list srow)) : Prop :=
  forall p rows, f p = Ok rows -> reports p rows /\ rows <> [].

Lemma spin_square s e z : dget (spin_of e) s = Some z -> legal Ising z -> (value_of s (spin_of e) * value_of s (spin_of e) = 1)%Qc.
Proof. intros E L. unfold value_of. rewrite E. destruct L as [-> | ->]; reflexivity. Qed.
Lemma sq_energy s els : (forall e, In e els -> s (spin_of e) * s (spin_of e) = 1)%Qc ->
  (imbalance s els * imbalance s els = (1 + 1) * pair_energy s els + qsum (map (fun e => el_val e * el_val e) els))%Qc.
Proof. intros H. symmetry. now apply C62_square. Qed.
Lemma energy_to_sq s s' els : (forall e, In e els -> s (spin_of e) * s (spin_of e) = 1)%Qc -> (forall e, In e els -> s' (spin_of e) * s' (spin_of e) = 1)%Qc ->
  (pair_energy s els <= pair_energy s' els)%Qc -> (qabs (imbalance s els) <= qabs (imbalance s' els))%Qc.
Proof.
  intros H H' L. apply sq_le. rewrite !sq_energy by auto. apply Qcplus_le_compat; [|apply Qcle_refl].
  rewrite !(Qcmult_comm (1 + 1)). apply Qcmult_le_compat_r; auto. discriminate.
Qed.

(** Whatever the (honest) solver: the answer is a partition of the numbers, as good
    as each of the samples. *)
Theorem C79_honest u els out :
  honest_solver (su_solver u) -> NoDup (map el_idx els) -> 2 <= length els -> (forall e, In e els -> el_val e <> 0%Qc) ->
  answers u els out ->
  (exists e, out = [SolveFailed e]) \/
  exists p rows ans, su_solver u p = Ok rows /\ p_mtype p = Ising /\ (forall s, energy_physical s p = pair_energy s els) /\
    out = [Solved ans] /\ a_partition els ans /\
    forall s e c, In (s, e, c) rows -> (an_diff ans <= qabs (imbalance (value_of s) els))%Qc.
Proof.
  intros HS HN HL HV (p & els' & HC & HP & HT & HE & HD & ->).
  destruct (su_solver u p) as [rows|x] eqn:ES; [right | left; eauto]. destruct (HS _ _ ES) as [HR HNE].
  pose proof (all_occur p els HN HL HV HE) as OC.
  assert (SP : forall s e c, In (s, e, c) rows -> forall x, In x els -> exists z, dget (spin_of x) s = Some z /\ legal Ising z).
  { intros s e c HI x Hx. destruct (HR _ _ _ HI) as (_ & N & K & L). apply OC, K, dget_some_in in Hx as [z Hz].
    exists z. split; auto. rewrite Forall_forall in L. rewrite <- HT. apply L. apply dget_in in Hz. now apply (in_map snd) in Hz. }
  destruct (first_lowest rows HNE) as (s & e & EF & (c & HI) & HM).
  destruct (split_ok s els') as (pl & mi & E1 & P1 & I1).
  { intros x Hx. eapply SP; eauto. eapply Permutation_in; eauto. }
  exists p, rows, (mkAns (map el_val els') pl mi (qabs (qsum pl - qsum mi)%Qc)). split; auto. split; auto. split; auto. split; [|split].
  - unfold npp_unmapping. rewrite EF. cbn [rbind]. rewrite E1. reflexivity.
  - split; [cbn; now apply Permutation_map|]. split; [|reflexivity]. unfold partition_of. cbn [an_plus an_minus].
    eapply perm_trans; [exact P1|]. now apply Permutation_map.
  - intros s' e' c' HI'. cbn [an_diff]. rewrite I1, (imbalance_perm _ _ _ HP). apply energy_to_sq.
    + intros x Hx. destruct (SP _ _ _ HI x Hx) as (z & Hz & Lz). eapply spin_square; eauto.
    + intros x Hx. destruct (SP _ _ _ HI' x Hx) as (z & Hz & Lz). eapply spin_square; eauto.
    + rewrite <- !HE. destruct (HR _ _ _ HI) as (<- & _). destruct (HR _ _ _ HI') as (<- & _). eauto.
Qed.

Lemma partition_spins l1 l2 els : NoDup (map el_idx els) -> partition_of l1 l2 els ->
  exists s : assignment, (forall l, s l = 1%Qc \/ s l = (- (1))%Qc) /\ imbalance s els = (qsum l1 - qsum l2)%Qc.
Proof.
  intros HN HP. apply Permutation_map_inv in HP as (els2 & E & P).
  symmetry in E. apply map_eq_app in E as (e1 & e2 & -> & <- & <-).
  assert (HN2 : NoDup (map el_idx (e1 ++ e2))) by (eapply Permutation_NoDup; [apply Permutation_map; exact P | exact HN]).
  exists (fun l => if in_dec string_dec l (map spin_of e1) then 1%Qc else (- (1))%Qc). split; [intros l; destruct (in_dec _ _ _); auto|].
  rewrite (imbalance_perm _ _ _ P). unfold imbalance. rewrite map_app, qsum_app.
  rewrite (map_ext_in _ el_val e1).
  - rewrite (map_ext_in _ (fun e => (- (1)) * el_val e)%Qc e2); [rewrite qsum_map_mul; ring|].
    intros a Ha. destruct (in_dec _ _ _) as [C|]; [|ring]. exfalso. apply in_map_iff in C as (b & EB & Hb). apply spin_of_inj in EB.
    rewrite map_app in HN2. apply NoDup_app_iff in HN2 as (_ & _ & D). apply (D (el_idx a)); [rewrite <- EB|]; now apply in_map.
  - intros a Ha. destruct (in_dec _ _ _) as [|C]; [ring|]. destruct C. now apply in_map.
Qed.

(** With the exact local solver the answer is an optimal partition. *)
Theorem C79_optimal u els out neal :
  (forall p, su_solver u p = local_solve true neal (Some p)) ->
  NoDup (map el_idx els) -> 2 <= length els -> (forall e, In e els -> el_val e <> 0%Qc) ->
  answers u els out -> exists ans, out = [Solved ans] /\ best_partition els ans.
Proof.
  intros HS HN HL HV HA.
  assert (HH : honest_solver (su_solver u)).
  { intros p rows E. rewrite HS in E. split; [apply (C75_exact _ _ _ E)|]. destruct (C75_has_lowest _ _ _ E) as (s & e & (c & HI) & _). intros ->. destruct HI. }
  assert (HG : forall p, (forall s, energy_physical s p = pair_energy s els) -> (forall l, ~ In (l, l) (dkeys (p_quad p))) -> exists rows, su_solver u p = Ok rows).
  { intros p HE HD. rewrite HS. apply C75_succeeds; auto. pose proof (all_occur p els HN HL HV HE) as OC.
    destruct els as [|e els]; [cbn in HL; lia|]. destruct (OC e (or_introl eq_refl)) as [H|(a & b & H & _)]; [left|right]; intros C; rewrite C in H; destruct H. }
  destruct (C79_honest u els out HH HN HL HV HA) as [(x & E)|(p & rows & ans & E1 & ET & E2 & E3 & E4 & E5)].
  - exfalso. destruct HA as (p & els' & _ & _ & _ & HE & HD & HO). destruct (HG p HE (only_pairs_no_loop _ _ HD)) as [rows ER]. rewrite ER in HO. rewrite E in HO.
    destruct (npp_unmapping rows els'); discriminate.
  - exists ans. split; auto. split; auto. intros l1 l2 HP. destruct (partition_spins l1 l2 els HN HP) as (a & Ha & <-).
    rewrite HS in E1. destruct (C75_exact _ _ _ E1) as (HR & _ & _ & HX).
    destruct (HX a) as (s & e & c & HI & HV').
    { intros l _. rewrite ET. destruct (Ha l) as [-> | ->]; [exists 1%Z | exists (-1)%Z]; cbn [legal]; auto. }
    eapply Qcle_trans; [apply (E5 s e c HI)|]. assert (EI : imbalance (value_of s) els = imbalance a els); [|rewrite EI; apply Qcle_refl].
    unfold imbalance. f_equal. apply map_ext_in. intros x Hx. rewrite HV'; auto. now apply (all_occur p els).
Qed.
(** What comes out of every window, with the exact local solver: numbers of which
    fewer than two are not zero are refused by the solver (there is no interaction);
    a zero among more numbers has no spin, and decoding it raises KeyError. *)
Lemma split_missing s els : (exists e, In e els /\ dget (spin_of e) s = None) -> npp_split s els = Err KeyError.
Proof.
  induction els as [|x els IH]; intros (e & He & E); [destruct He|]. cbn [npp_split].
  change (dget ("x[" +++ str_of_nat (el_idx x) +++ "]") s) with (dget (spin_of x) s).
  destruct (dget (spin_of x) s) as [z|] eqn:EX; auto. destruct He as [-> | He]; [congruence|]. rewrite IH; eauto.
Qed.
Lemma nonzero_iff e : nonzero e = true <-> el_val e <> 0%Qc.
Proof. unfold nonzero. destruct (Qc_eq_dec _ _); split; congruence. Qed.
Lemma idx_same (els : list num_el) x y : NoDup (map el_idx els) -> In x els -> In y els -> el_idx x = el_idx y -> x = y.
Proof.
  induction els as [|z els IH]; [intros _ []|]. cbn [map]. intros HN. inversion HN as [|? ? N1 N2]; subst.
  intros [-> | Hx] [-> | Hy] E; auto; exfalso; apply N1; [rewrite E | rewrite <- E]; now apply in_map.
Qed.
Theorem C79_outcome u els out neal :
  (forall p, su_solver u p = local_solve true neal (Some p)) ->
  NoDup (map el_idx els) -> answers u els out ->
  (length (filter nonzero els) < 2 -> out = [SolveFailed ValueError]) /\
  (2 <= length (filter nonzero els) -> (exists e, In e els /\ el_val e = 0%Qc) -> out = [UnmapFailed KeyError]) /\
  (2 <= length (filter nonzero els) -> (forall e, In e els -> el_val e <> 0%Qc) ->
   exists ans, out = [Solved ans] /\ best_partition els ans).
Proof.
  intros HS HN HA. split; [|split].
  - intros HL. destruct HA as (p & els' & _ & _ & _ & _ & [H1 H2] & ->). rewrite HS.
    assert (HQ : p_quad p = []).
    { destruct (p_quad p) as [|[[a b] q] d] eqn:E; auto. exfalso. destruct (H2 a b (or_introl eq_refl)) as (x & y & X & Y & N & NX & NY & _).
      assert (FX : In x (filter nonzero els)) by (apply filter_In; split; auto; now apply nonzero_iff).
      assert (FY : In y (filter nonzero els)) by (apply filter_In; split; auto; now apply nonzero_iff).
      destruct (filter nonzero els) as [|e1 [|e2 l]]; [destruct FX| |cbn in HL; lia]. destruct FX as [<-|[]], FY as [<-|[]]. congruence. }
    unfold local_solve, is_empty. rewrite H1, HQ. reflexivity.
  - intros HL (z & Hz & Z0). destruct HA as (p & els' & _ & HP & HT & HE & HO & ->).
    assert (HNE : p_linear p <> [] \/ p_quad p <> []).
    { assert (exists x y, In x (filter nonzero els) /\ In y (filter nonzero els) /\ y <> x) as (x & y & HX & HY & D).
      { assert (HN' : NoDup (map el_idx (filter nonzero els))).
        { clear - HN. induction els as [|e l IH]; cbn [filter map]; [constructor|]. inversion HN as [|? ? N1 N2]; subst.
          destruct (nonzero e); auto. cbn [map]. constructor; auto. intros C. apply N1. apply in_map_iff in C as (y & <- & Hy).
          apply filter_In in Hy as [Hy _]. now apply in_map. }
        destruct (filter nonzero els) as [|x [|y l]]; cbn in HL; try lia. exists x, y. split; [now left|]. split; [right; now left|].
        intros ->. inversion HN' as [|? ? N _]. apply N. now left. }
      apply filter_In in HX as [HX VX]. apply filter_In in HY as [HY VY].
      destruct (two_occur p els HN HE x y HX HY D (proj1 (nonzero_iff _) VX) (proj1 (nonzero_iff _) VY)) as [H|(a & b & H & _)];
        [left | right]; intros C; rewrite C in H; destruct H. }
    destruct (C75_succeeds neal p HNE (only_pairs_no_loop _ _ HO)) as (rows & ER). rewrite HS, ER.
    destruct (C75_exact _ _ _ ER) as (HR & _).
    assert (HRN : rows <> []) by (destruct (C75_has_lowest _ _ _ ER) as (s & e & (c & HI) & _); intros ->; destruct HI).
    destruct (first_lowest rows HRN) as (s & e & EF & (c & HI) & _). destruct (HR _ _ _ HI) as (_ & _ & K & _).
    unfold npp_unmapping. rewrite EF. cbn [rbind]. rewrite split_missing; [reflexivity|].
    exists z. split; [eapply Permutation_in; [symmetry; exact HP | auto]|]. apply dget_none. rewrite K.
    destruct HO as [O1 O2]. intros [C|(a & b & C & D)]; [rewrite O1 in C; destruct C|].
    destruct (O2 a b C) as (x & y & X & Y & _ & VX & VY & EA & EB).
    destruct D as [D|D]; [rewrite EA in D | rewrite EB in D]; apply spin_of_inj, (idx_same els) in D; auto; congruence.
  - intros HL HV. apply (C79_optimal u els out neal); auto.
    eapply Nat.le_trans; [exact HL|]. clear. induction els as [|e l IH]; cbn [filter length]; auto. destruct (nonzero e); cbn [length]; lia.
Qed.

(** End to end: every window of a stream is answered by an optimal partition. *)
Theorem C79_stream a o stream lo rs ws neal :
  a = Window \/ a = Delta -> in_order stream ->
  in_time (- (1))%Qc (map fst ws) -> forward lo lo rs ->
  Forall2 (fun r wu => Permutation (wn_els (fst wu)) (range stream (fst r) (snd r))) rs ws ->
  (forall w u, In (w, u) ws ->
     2 <= length (wn_els w) /\ (forall e, In e (wn_els w) -> el_val e <> 0%Qc) /\
     (forall p, su_solver u p = local_solve true neal (Some p))) ->
  exists b outs, npp_stream a o ws no_bags = (b, Ok outs) /\
    Forall2 (fun wu out => exists ans, out = [Solved ans] /\ best_partition (wn_els (fst wu)) ans) ws outs.
Proof.
  intros Ha HO Hit Hf HF HW.
  assert (HNW : forall wu, In wu ws -> NoDup (map el_idx (wn_els (fst wu)))).
  { intros wu Hwu. clear - HF HO Hwu. induction HF as [|r x rs ws H HF IH]; [destruct Hwu|]. destruct Hwu as [<- | Hwu]; auto.
    apply (idx_perm (range stream (fst r) (snd r))); [now symmetry|]. apply NoDup_range, HO. }
  destruct (C62_window a o stream lo rs ws Ha HO Hit Hf) as (b & outs & E & HA & _).
  { clear - HF HW. induction HF as [|r [w u] rs ws H HF IH]; constructor.
    - split; auto. cbn [fst]. intros C. destruct (HW w u (or_introl eq_refl)) as (L & _). rewrite C in L. cbn in L. lia.
    - apply IH. intros; apply HW; now right. }
  exists b, outs. split; auto. clear - HA HW HNW. induction HA as [|[w u] out ws outs H HA IH]; constructor.
  - cbn [fst snd] in *. destruct (HW w u (or_introl eq_refl)) as (L & V & S). eapply C79_optimal; eauto. apply (HNW (w, u)). now left.
  - apply IH; [intros; apply HW; now right | intros; apply HNW; now right].
Qed.

(** C79 for the incremental algorithm: each window is answered by an optimal
    partition of everything received so far. *)
Fixpoint best_all (seen : list num_el) (ws : list (win Qc * surroundings)) (outs : list (list (output npp_answer))) : Prop :=
  match ws, outs with
  | [], [] => True
  | (w, _) :: r, o :: os =>
      (exists ans, o = [Solved ans] /\ best_partition (seen ++ wn_els w) ans) /\ best_all (seen ++ wn_els w) r os
  | _, _ => False
  end.
Theorem C79_incremental o ws neal :
  in_time (- (1))%Qc (map fst ws) -> arriving [] (map fst ws) -> in_order (concat (map (fun wu => wn_els (fst wu)) ws)) ->
  (forall w u, In (w, u) ws ->
     2 <= length (wn_els w) /\ (forall e, In e (wn_els w) -> el_val e <> 0%Qc) /\
     (forall p, su_solver u p = local_solve true neal (Some p))) ->
  exists b outs, npp_stream Incremental o ws no_bags = (b, Ok outs) /\ best_all [] ws outs.
Proof.
  intros Hit Har HO HW. destruct (C62_incremental o ws Hit Har HO) as (b & outs & E & HA & _).
  { intros [w u] Hwu. destruct (HW w u Hwu) as (L & _). cbn [fst]. intros C. rewrite C in L. cbn in L. lia. }
  exists b, outs. split; auto.
  assert (G : forall ws seen outs, in_order (seen ++ concat (map (fun wu => wn_els (fst wu)) ws)) -> (forall e, In e seen -> el_val e <> 0%Qc) ->
     (forall w u, In (w, u) ws -> 2 <= length (wn_els w) /\ (forall e, In e (wn_els w) -> el_val e <> 0%Qc) /\
     (forall p, su_solver u p = local_solve true neal (Some p))) -> answers_all seen ws outs -> best_all seen ws outs).
  { clear. induction ws as [|[w u] ws IH]; intros seen [|out outs] HO HS HW HA; cbn [answers_all best_all] in *; auto.
    destruct HA as [HA1 HA2]. cbn [map concat fst] in HO. rewrite app_assoc in HO.
    destruct (HW w u (or_introl eq_refl)) as (L & V & S).
    assert (HV : forall e, In e (seen ++ wn_els w) -> el_val e <> 0%Qc) by (intros e He; apply in_app_iff in He as [He|He]; auto).
    split; [|apply IH; auto; intros; apply HW; now right].
    eapply C79_optimal; eauto.
    - apply (in_order_sub _ _ HO).
    - rewrite app_length. lia. }
  now apply G.
Qed.

(** ** The hypotheses are met *)
Definition num_ (t : Z) (i : nat) (v : Z) : num_el := mkEl (qz t) i (qz v).
Definition exact_sur : surroundings :=
  mkSur (fun _ => "n") (fun _ _ => env0) env0 (fun _ => env0) (fun p => local_solve true (fun _ => Err ValueError) (Some p)).
Definition nums_ : list num_el := [num_ 1 0 5; num_ 4 1 7; num_ 6 2 3; num_ 11 3 8].
Definition npp_ws : list (win Qc * surroundings) :=
  [(mkWin (qz 10) [num_ 6 2 3; num_ 1 0 5; num_ 4 1 7] true env0 (fun _ => env0), exact_sur); (mkWin (qz 15) [num_ 11 3 8; num_ 6 2 3] true env0 (fun _ => env0), exact_sur)].
Lemma nums_in_order : in_order nums_.
Proof.
  split; [repeat constructor; cbn; intuition discriminate|].
  intros a b [<-|[<-|[<-|[<-|[]]]]] [<-|[<-|[<-|[<-|[]]]]]; cbn [el_idx num_]; (split; [intros H; try lia; exfalso; now vm_compute in H | intros H; try lia; now vm_compute]).
Qed.
Example C62_C79_hyps : in_order nums_ /\ in_time (- (1))%Qc (map fst npp_ws) /\ forward 0%Qc 0%Qc [(0%Qc, qz 10); (qz 5, qz 15)] /\
  Forall2 (fun r wu => wn_els (fst wu) <> [] /\ Permutation (wn_els (fst wu)) (range nums_ (fst r) (snd r))) [(0%Qc, qz 10); (qz 5, qz 15)] npp_ws /\
  (forall w u, In (w, u) npp_ws ->
     2 <= length (wn_els w) /\ (forall e, In e (wn_els w) -> el_val e <> 0%Qc) /\
     (forall p, su_solver u p = local_solve true (fun _ => Err ValueError) (Some p))).
Proof.
  split; [apply nums_in_order|]. split; [repeat split; discriminate|]. split; [repeat split; discriminate|]. split.
  - constructor; [|constructor; [|constructor]]; (split; [discriminate|]); cbn [fst snd wn_els].
    + replace (range nums_ 0 (qz 10)) with [num_ 1 0 5; num_ 4 1 7; num_ 6 2 3] by (vm_compute; reflexivity).
      apply (Permutation_cons_append [num_ 1 0 5; num_ 4 1 7]).
    + replace (range nums_ (qz 5) (qz 15)) with [num_ 6 2 3; num_ 11 3 8] by (vm_compute; reflexivity). constructor.
  - intros w u [E|[E|[]]]; injection E as <- <-; cbn [wn_els]; (split; [cbn; lia|]); (split; [|reflexivity]);
      intros e He; cbn in He; intuition (subst e; discriminate).
Qed.
Definition npp_ws2 : list (win Qc * surroundings) :=
  [(mkWin (qz 10) [num_ 4 1 7; num_ 1 0 5] true env0 (fun _ => env0), exact_sur); (mkWin (qz 15) [num_ 6 2 3; num_ 11 3 8] true env0 (fun _ => env0), exact_sur)].
Example C62_C79_incremental_hyps : in_time (- (1))%Qc (map fst npp_ws2) /\ arriving [] (map fst npp_ws2) /\
  in_order (concat (map (fun wu => wn_els (fst wu)) npp_ws2)) /\
  (forall w u, In (w, u) npp_ws2 ->
     2 <= length (wn_els w) /\ (forall e, In e (wn_els w) -> el_val e <> 0%Qc) /\
     (forall p, su_solver u p = local_solve true (fun _ => Err ValueError) (Some p))).
Proof.
  split; [repeat split; discriminate|]. split; [|split].
  - cbn. split; [intros ? ? []|]. split; [|exact Logic.I]. intros p e Hp He. cbn in Hp, He. intuition (subst p e; reflexivity).
  - eapply in_order_perm; [|apply nums_in_order]. cbn. apply perm_swap.
  - intros w u [E|[E|[]]]; injection E as <- <-; cbn [wn_els]; (split; [cbn; lia|]); (split; [|reflexivity]);
      intros e He; cbn in He; intuition (subst e; discriminate).
Qed.

(** ** What goes wrong otherwise *)
(** Two numbers with the same timestamp: the strict comparison of line 54 drops
    their interaction, and the answer is not a partition. *)
Theorem C62_equal_timestamps_refuted :
  let els := [num_ 3 0 5; num_ 3 1 7] in
  NoDup (map el_idx els) /\ chronological els /\
  exists b outs, npp_stream Window (mkAo None None None) [(mkWin (qz 10) els true env0 (fun _ => env0), exact_sur)] no_bags = (b, Ok outs) /\
    live (stored_model Ising b) = [] /\ outs = [[SolveFailed ValueError]] /\
    exists s fd, energy fd s (stored_model Ising b) <> pair_energy s els.
Proof.
  intros els. split; [repeat constructor; cbn; intuition discriminate|]. split; [apply SSorted_cons; [apply SSorted_cons; [apply SSorted_nil | constructor] | constructor; [right; split; [reflexivity | cbn; lia] | constructor]]|].
  destruct (npp_stream Window (mkAo None None None) [(mkWin (qz 10) els true env0 (fun _ => env0), exact_sur)] no_bags) as [b r] eqn:E.
  assert (EB : b = fst (npp_stream Window (mkAo None None None) [(mkWin (qz 10) els true env0 (fun _ => env0), exact_sur)] no_bags)) by (rewrite E; reflexivity).
  assert (ER : r = snd (npp_stream Window (mkAo None None None) [(mkWin (qz 10) els true env0 (fun _ => env0), exact_sur)] no_bags)) by (rewrite E; reflexivity).
  assert (EE : r = Ok [[SolveFailed ValueError]]) by (rewrite ER; vm_compute; reflexivity).
  exists b, [[SolveFailed ValueError]]. rewrite EE. split; auto.
  assert (EL : m_rows (stored_model Ising b) = []) by (rewrite EB; vm_compute; reflexivity).
  assert (EO : m_offset (stored_model Ising b) = CNum 0%Qc) by (rewrite EB; vm_compute; reflexivity).
  split; [unfold live; now rewrite EL|]. split; auto.
  exists (fun _ => 1%Qc), []. unfold energy. rewrite EL, EO. intros C. apply (f_equal this) in C. vm_compute in C. discriminate.
Qed.
(** A window with one number has no interaction: the solver refuses the model.
    A number 0 leaves no trace in the model: its spin is missing in the sample. *)
Theorem C79_small_refuted :
  (let els := [num_ 3 0 5] in in_order els /\ (forall e, In e els -> el_val e <> 0%Qc) /\
   snd (npp_stream Window (mkAo None None None) [(mkWin (qz 10) els true env0 (fun _ => env0), exact_sur)] no_bags) = Ok [[SolveFailed ValueError]]) /\
  (let els := [num_ 1 0 5; num_ 4 1 7; num_ 6 2 0] in in_order els /\ 2 <= length els /\
   snd (npp_stream Window (mkAo None None None) [(mkWin (qz 10) els true env0 (fun _ => env0), exact_sur)] no_bags) = Ok [[UnmapFailed KeyError]]).
Proof.
  split; intros els.
  - split; [|split; [intros e [<-|[]]; discriminate | vm_compute; reflexivity]].
    split; [repeat constructor; auto|]. intros a b [<-|[]] [<-|[]]. split; [intros H; now vm_compute in H | intros H; lia].
  - split; [|split; [cbn; lia | vm_compute; reflexivity]].
    split; [repeat constructor; cbn; intuition discriminate|].
    intros a b [<-|[<-|[<-|[]]]] [<-|[<-|[<-|[]]]]; cbn [el_idx num_]; (split; [intros H; try lia; exfalso; now vm_compute in H | intros H; try lia; now vm_compute]).
Qed.
Example C79_outcome_hyps : (exists e, In e [num_ 1 0 5; num_ 4 1 7; num_ 6 2 0] /\ el_val e = 0%Qc) /\
  length (filter nonzero [num_ 1 0 5; num_ 4 1 7; num_ 6 2 0]) = 2.
Proof. split; [exists (num_ 6 2 0); split; [right; right; now left | reflexivity] | vm_compute; reflexivity]. Qed.
Print Assumptions C79_outcome.
Print Assumptions C79_honest.
Print Assumptions C79_optimal.
Print Assumptions C79_stream.
Print Assumptions C79_incremental.
Print Assumptions C62_equal_timestamps_refuted.
Print Assumptions C79_small_refuted.
