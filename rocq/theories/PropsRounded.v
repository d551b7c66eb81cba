(** * PropsRounded: C150 SawatabiSolver in floating-point arithmetic. *)
From Verif Require Import PyBase PyLemmas Numbers Constraint LogicalModel Spec PhysicalProofs Samples PropsPhysical
  ToPhysicalProofs Physical BqmProofs History PropsHistory PropsBqm Solver SolverSpec SolverProofs PropsSolver NppStream PropsNppSolve PropsPenalty Rounded.
From Coq Require Import Permutation Lqa.
Open Scope string_scope.
Open Scope list_scope.

(** ** Specification *)
(** 2 to the power e. *)
Definition two_to (e : Z) : Qc := if (0 <=? e)%Z then qz (2 ^ e) else (/ qz (2 ^ (- e)))%Qc.
(** What IEEE 754 says of the double format: m * 2^e with |m| <= 2^53 and an exponent in range is not rounded. *)
Definition double (rnd : Qc -> Qc) : Prop :=
  forall m e, (Z.abs m <= 2 ^ 53)%Z -> (-1074 <= e <= 970)%Z -> rnd (qz m * two_to e)%Qc = (qz m * two_to e)%Qc.
(** The coefficients and the offset of a physical model. *)
Definition coefs (p : physical) : list Qc := p_offset p :: dvals (p_linear p) ++ dvals (p_quad p).
Definition asum (l : list Qc) : Qc := qsum (map qabs l).
(** They are integers, in some power of two as the unit, and add up to at most 2^49 of it. *)
Definition fits (p : physical) : Prop :=
  exists e, (-1072 <= e <= 970)%Z /\ (forall c, In c (coefs p) -> exists k, c = (qz k * two_to e)%Qc) /\ (asum (coefs p) <= qz (2 ^ 49) * two_to e)%Qc.
(** Only temperatures are rounded. *)
Definition only_temp (rnd : Qc -> Qc) (order : list Qc -> list Qc) : arith := mkArith (fun v => v) rnd order.

(** ** Absolute values *)
Lemma qabs_cases x : ((0 <= x)%Qc /\ qabs x = x) \/ ((x < 0)%Qc /\ qabs x = (- x)%Qc).
Proof. unfold qabs. destruct (Qclt_bool x 0) eqn:E; [right; apply Qclt_bool_iff in E|left; apply Qclt_bool_false in E]; auto. Qed.
Ltac qcase x := let H := fresh in let L := fresh in destruct (qabs_cases x) as [[L H]|[L H]]; rewrite H in *; clear H.
Lemma qabs_add x y : (qabs (x + y) <= qabs x + qabs y)%Qc.
Proof. qcase x; qcase y; qcase (x + y)%Qc; qord. Qed.
Lemma qabs_opp x : qabs (- x)%Qc = qabs x.
Proof. qcase x; qcase (- x)%Qc; qord. Qed.
Lemma qabs_zero : qabs 0 = 0%Qc.
Proof. reflexivity. Qed.
Lemma qabs_spin z x : spinz z -> qabs (qz z * x)%Qc = qabs x.
Proof.
  intros [-> | ->]; [f_equal; rewrite qz_1; ring|]. replace (qz (-1) * x)%Qc with (- x)%Qc; [apply qabs_opp|]. change (-1)%Z with (- (1))%Z. rewrite qz_opp, qz_1. ring.
Qed.
Lemma asum_nonneg l : (0 <= asum l)%Qc.
Proof. induction l as [|x l IH]; [apply Qcle_refl|]. unfold asum in *. cbn [map qsum]. pose proof (qabs_nonneg x). qord. Qed.
Lemma asum_app l l' : asum (l ++ l') = (asum l + asum l')%Qc.
Proof. unfold asum. rewrite map_app. apply qsum_app. Qed.
Lemma asum_cons x l : asum (x :: l) = (qabs x + asum l)%Qc.
Proof. reflexivity. Qed.
Lemma asum_in x l : In x l -> (qabs x <= asum l)%Qc.
Proof.
  induction l as [|y l IH]; intros []; rewrite asum_cons.
  - subst. pose proof (asum_nonneg l). qord.
  - specialize (IH H). pose proof (qabs_nonneg y). qord.
Qed.
Lemma qsum_asum l : (qabs (qsum l) <= asum l)%Qc.
Proof. induction l as [|x l IH]; [apply Qcle_refl|]. cbn [qsum]. rewrite asum_cons. pose proof (qabs_add x (qsum l)). qord. Qed.
Lemma asum_perm l l' : Permutation l l' -> asum l = asum l'.
Proof. intros H. unfold asum. apply qsum_perm. apply Permutation_map. exact H. Qed.

(** ** Numbers that are not rounded *)
Section Grid.
Variables (a : arith) (G : Qc -> Prop) (B : Qc).
Hypothesis G0 : G 0%Qc.
Hypothesis GA : forall x y, G x -> G y -> G (x + y)%Qc.
Hypothesis GN : forall x, G x -> G (- x)%Qc.
Hypothesis RO : forall v, G v -> (qabs v <= B)%Qc -> ar_round a v = v.
Hypothesis OR : forall l, Permutation (ar_order a l) l.

Lemma G_spin z x : spinz z -> G x -> G (qz z * x)%Qc.
Proof.
  intros [-> | ->] H; [rewrite qz_1; replace (1 * x)%Qc with x by ring; auto|]. replace (qz (-1) * x)%Qc with (- x)%Qc; [auto|]. change (-1)%Z with (- (1))%Z. rewrite qz_opp, qz_1. ring.
Qed.
Lemma G_sum l : Forall G l -> G (qsum l).
Proof. induction 1; cbn [qsum]; auto. Qed.
Lemma fold_exact l : forall s, G s -> Forall G l -> (qabs s + asum l <= B)%Qc -> fold_left (fun s v => ar_round a (s + v)%Qc) l s = (s + qsum l)%Qc.
Proof.
  induction l as [|x l IH]; intros s HS HL HB; cbn [fold_left qsum]; [ring|]. inversion HL; subst. rewrite asum_cons in HB. pose proof (qabs_add s x). pose proof (asum_nonneg l).
  rewrite RO; auto; [|qord]. rewrite IH; auto; [ring|qord].
Qed.
Lemma add_up_exact l : Forall G l -> (asum l <= B)%Qc -> add_up a l = qsum l.
Proof.
  intros HL HB. unfold add_up. rewrite fold_exact; auto.
  - rewrite (qsum_perm _ _ (OR l)). ring.
  - eapply Permutation_Forall; [apply Permutation_sym; apply OR|auto].
  - rewrite (asum_perm _ _ (OR l)), qabs_zero. qord.
Qed.
Lemma adj_exact x xi d : Forall spinz x -> spinz xi -> Forall G (dvals d) -> forall acc, G acc -> (qabs acc + asum (dvals d) <= B)%Qc ->
  fl_adj_diff a x xi d acc = rbind (adj_diff x xi d) (fun t => Ok (acc + t)%Qc).
Proof.
  intros HX HI. induction d as [|[i j] d IH]; intros HD acc HA HB; cbn [fl_adj_diff adj_diff rbind].
  - f_equal. ring.
  - cbn [dvals map snd] in HD, HB. inversion HD as [|? ? HJ HR]; subst. rewrite asum_cons in HB. unfold item. destruct (nth_error x i) as [xa|] eqn:EX; [|reflexivity]. cbn [rbind].
    assert (SA : spinz xa) by (rewrite Forall_forall in HX; apply HX; eapply nth_error_In; eauto).
    assert (SX : spinz (xi * xa)%Z) by (destruct HI as [-> | ->], SA as [-> | ->]; unfold spinz; lia).
    pose proof (qabs_spin _ j SX) as AB. pose proof (asum_nonneg (dvals d)). pose proof (qabs_nonneg acc). pose proof (qabs_add acc (qz (xi * xa) * j)%Qc) as AD. unfold dvals in *.
    rewrite (RO (qz (xi * xa) * j)%Qc) by (try apply G_spin; auto; rewrite AB; qord). rewrite RO; [|apply GA; auto; apply G_spin; auto|rewrite AB in AD; qord].
    rewrite IH; auto; [|apply GA; auto; apply G_spin; auto|rewrite AB in AD; qord].
    destruct (adj_diff x xi d) as [t|]; cbn [rbind]; [|reflexivity]. f_equal. rewrite qz_mul. ring.
Qed.
Lemma adj_bound x xi d t : Forall spinz x -> spinz xi -> Forall G (dvals d) -> adj_diff x xi d = Ok t -> G t /\ (qabs t <= asum (dvals d))%Qc.
Proof.
  intros HX HI. revert t. induction d as [|[i j] d IH]; intros t HD H; cbn [adj_diff] in H.
  - inversion H; subst. split; auto. apply Qcle_refl.
  - cbn [dvals map snd] in *. inversion HD as [|? ? HJ HR]; subst. apply rbind_ok in H. destruct H as (xa & HXA & H). apply item_ok in HXA. apply rbind_ok in H. destruct H as (t' & HT & H). injection H as <-.
    assert (SA : spinz xa) by (rewrite Forall_forall in HX; apply HX; eapply nth_error_In; eauto).
    assert (SX : spinz (xi * xa)%Z) by (destruct HI as [-> | ->], SA as [-> | ->]; unfold spinz; lia).
    destruct (IH t' HR HT) as [G1 B1]. rewrite <- qz_mul. pose proof (qabs_spin _ j SX) as AB. pose proof (qabs_add (qz (xi * xa) * j)%Qc t') as AD. rewrite asum_cons.
    split; [apply GA; auto; apply G_spin; auto|]. rewrite AB in AD. unfold dvals in *. qord.
Qed.
(** The arrays hold such numbers, and those of one variable add up to at most [W]. *)
Definition tame (lin : list Qc) (adj : list (dict nat Qc)) (W : Qc) : Prop :=
  Forall G lin /\ Forall (fun d => Forall G (dvals d)) adj /\ (forall h d, In h lin -> In d adj -> (qabs h + asum (dvals d) <= W)%Qc).
Lemma calc_exact lin adj W idx x : tame lin adj W -> (W + W <= B)%Qc -> (0 <= W)%Qc -> Forall spinz x -> fl_calc a lin adj idx x = calc_energy_diff lin adj idx x.
Proof.
  intros (T1 & T2 & T3) HB W0 HX. unfold fl_calc, calc_energy_diff, item. destruct (nth_error x idx) as [xi|] eqn:E1; [|reflexivity]. cbn [rbind].
  destruct (nth_error lin idx) as [h|] eqn:E2; [|reflexivity]. cbn [rbind]. destruct (nth_error adj idx) as [d|] eqn:E3; [|reflexivity]. cbn [rbind].
  apply nth_error_In in E1, E2, E3. rewrite Forall_forall in T1, T2. specialize (T3 h d E2 E3). specialize (T1 h E2). specialize (T2 d E3).
  assert (SI : spinz xi) by (rewrite Forall_forall in HX; auto). pose proof (qabs_spin _ h SI) as AH. pose proof (asum_nonneg (dvals d)) as AN. pose proof (qabs_nonneg h) as HN.
  rewrite (RO (qz xi * h)%Qc) by (try apply G_spin; auto; rewrite AH; qord). rewrite adj_exact; auto; [|apply G_spin; auto|rewrite AH; qord].
  destruct (adj_diff x xi d) as [t|] eqn:ET; cbn [rbind]; [|reflexivity]. f_equal. destruct (adj_bound _ _ _ _ HX SI T2 ET) as [GT BT].
  assert (TW : (qz 2 * (qz xi * h + t) = (qz xi * h + t) + (qz xi * h + t))%Qc) by (change 2%Z with (1 + 1)%Z; rewrite qz_add, qz_1; ring). rewrite TW.
  pose proof (qabs_add (qz xi * h) t)%Qc as A1. rewrite AH in A1. pose proof (qabs_add (qz xi * h + t) (qz xi * h + t))%Qc as A2.
  assert (GX : G (qz xi * h + t)%Qc) by (apply GA; auto; apply G_spin; auto). apply RO; [auto|qord].
Qed.
End Grid.

(** ** Without rounding *)
Definition no_round (a : arith) : Prop := (forall v, ar_round a v = v) /\ (forall l, Permutation (ar_order a l) l).
Definition exact_of (a : arith) : arith := mkArith (fun v => v) (ar_temp a) (ar_order a).
Section Plain.
Variable a : arith.
Hypothesis NR : no_round a.
Lemma plain_round v : ar_round a v = v. Proof. apply NR. Qed.
Lemma plain_add_up l : add_up a l = qsum l.
Proof.
  destruct NR as [NV NO]. apply (add_up_exact a (fun _ => True) (asum l)); auto; [apply Forall_forall; auto|apply Qcle_refl].
Qed.
Lemma plain_adj x xi d : forall acc, fl_adj_diff a x xi d acc = rbind (adj_diff x xi d) (fun t => Ok (acc + t)%Qc).
Proof.
  induction d as [|[i j] d IH]; intros acc; cbn [fl_adj_diff adj_diff rbind]; [f_equal; ring|].
  unfold item. destruct (nth_error x i) as [xa|]; [|reflexivity]. cbn [rbind]. rewrite IH, !plain_round. destruct (adj_diff x xi d); cbn [rbind]; [|reflexivity]. f_equal. rewrite qz_mul. ring.
Qed.
Lemma plain_calc lin adj idx x : fl_calc a lin adj idx x = calc_energy_diff lin adj idx x.
Proof.
  unfold fl_calc, calc_energy_diff. destruct (item x idx) as [xi|]; [|reflexivity]. cbn [rbind]. destruct (item lin idx) as [h|]; [|reflexivity]. cbn [rbind].
  destruct (item adj idx) as [d|]; [|reflexivity]. cbn [rbind]. rewrite plain_adj, plain_round. destruct (adj_diff x xi d); cbn [rbind]; [|reflexivity]. rewrite plain_round. reflexivity.
Qed.
Lemma plain_flip w lin adj rs temp k i : fl_flip a w lin adj rs temp k i = flip w lin adj rs temp k i.
Proof.
  unfold fl_flip, flip. rewrite plain_calc. destruct (calc_energy_diff lin adj i (k_x k)); [|reflexivity]. cbn [rbind]. destruct (is_acceptable w rs (k_used k) a0 temp) as [[[] u]|]; cbn [rbind fst snd]; auto.
  rewrite plain_round. reflexivity.
Qed.
Lemma plain_flips w lin adj rs temp idxs : forall k, fl_flips a w lin adj rs temp k idxs = flips w lin adj rs temp k idxs.
Proof. induction idxs as [|i r IH]; intros k; cbn [fl_flips flips]; auto. rewrite plain_flip. destruct (flip w lin adj rs temp k i); cbn [rbind]; auto. Qed.
Lemma plain_lin s d : match lin_terms a s d with Ok l => lin_energy s d = Ok (qsum l) | Err e => lin_energy s d = Err e end.
Proof.
  induction d as [|[l c] d IH]; cbn [lin_terms lin_energy]; [reflexivity|]. destruct (spin_in s l) as [v|]; cbn [rbind]; [|reflexivity].
  destruct (lin_terms a s d); rewrite IH; cbn [rbind qsum]; [rewrite plain_round|]; reflexivity.
Qed.
Lemma plain_quad s d : match quad_terms a s d with Ok l => quad_energy s d = Ok (qsum l) | Err e => quad_energy s d = Err e end.
Proof.
  induction d as [|[[i j] c] d IH]; cbn [quad_terms quad_energy]; [reflexivity|]. destruct (spin_in s i) as [u|]; cbn [rbind]; [|reflexivity]. destruct (spin_in s j) as [v|]; cbn [rbind]; [|reflexivity].
  destruct (quad_terms a s d); rewrite IH; cbn [rbind qsum]; [rewrite plain_round|]; reflexivity.
Qed.
Lemma plain_energy b s : fl_bqm_energy a b s = bqm_energy b s.
Proof.
  unfold fl_bqm_energy, bqm_energy. pose proof (plain_lin s (b_linear b)) as HL. pose proof (plain_quad s (b_quad b)) as HQ. destruct (lin_terms a s (b_linear b)); rewrite HL; cbn [rbind]; [|reflexivity].
  destruct (quad_terms a s (b_quad b)); rewrite HQ; cbn [rbind]; [|reflexivity]. rewrite plain_add_up. cbn [qsum]. rewrite qsum_app. f_equal. ring.
Qed.
Lemma qsum_scale (c : Qc) {A} (f : A -> Qc) l : qsum (map (fun x => c * f x)%Qc l) = (c * qsum (map f l))%Qc.
Proof. induction l as [|x l IH]; cbn [map qsum]; [ring|]. rewrite IH. ring. Qed.
Lemma plain_to_spin b : fl_to_spin a b = bqm_to_spin b.
Proof.
  unfold fl_to_spin, bqm_to_spin. destruct (b_spin b); auto. f_equal.
  - apply map_ext. intros [k c]. cbn [fst snd]. f_equal. rewrite plain_add_up. cbn [qsum]. rewrite plain_round. f_equal. rewrite <- qsum_scale. f_equal. apply map_ext. intros j. apply plain_round.
  - apply map_ext. intros [k c]. cbn [fst snd]. rewrite plain_round. reflexivity.
  - rewrite plain_add_up. cbn [qsum]. rewrite qsum_app.
    assert (E1 : forall {K} (c : Qc) (l : dict K Qc), qsum (map (fun kv => ar_round a (c * snd kv)%Qc) l) = (c * qsum (map snd l))%Qc).
    { intros K c l. rewrite <- qsum_scale. f_equal. apply map_ext. intros j. apply plain_round. }
    rewrite !E1. ring.
Qed.
End Plain.

(** ** With rounding *)
Section Run.
Variables (a : arith) (G : Qc -> Prop) (B W : Qc).
Hypothesis G0 : G 0%Qc.
Hypothesis GA : forall x y, G x -> G y -> G (x + y)%Qc.
Hypothesis GN : forall x, G x -> G (- x)%Qc.
Hypothesis RO : forall v, G v -> (qabs v <= B)%Qc -> ar_round a v = v.
Hypothesis OR : forall l, Permutation (ar_order a l) l.
Variables (p : physical) (ls : list string) (orig b : bqm) (lin : list Qc) (adj : list (dict nat Qc)).
Hypothesis HS : prepared p ls orig b lin adj.
Hypothesis HT : tame G lin adj W.
Hypothesis WB : (W + W <= B)%Qc.
Hypothesis W0 : (0 <= W)%Qc.
Notation E := (vector_energy p).
Notation n := (length (b_linear b)).
Hypothesis HE : forall x, length x = n -> Forall spinz x -> G (E x - qz 2 * p_offset p)%Qc /\ (qabs (E x - qz 2 * p_offset p) <= B)%Qc.
Hypothesis GO : G (p_offset p).
Hypothesis HF : forall x, length x = n -> Forall spinz x -> G (E x) /\ (qabs (E x) <= B)%Qc.
Hypothesis BO : (qabs (p_offset p) + qabs (p_offset p) <= B)%Qc.
Hypothesis BC : Forall G (b_offset b :: dvals (b_linear b) ++ dvals (b_quad b)) /\ (asum (b_offset b :: dvals (b_linear b) ++ dvals (b_quad b)) <= B)%Qc.

Lemma run_flip w rs temp k i : tracked p b (k_x k) (k_energy k) -> Forall spinz (k_x k) -> fl_flip a w lin adj rs temp k i = flip w lin adj rs temp k i.
Proof.
  intros HK HX. unfold fl_flip, flip. rewrite (calc_exact a G B G0 GA GN RO lin adj W); auto. destruct (calc_energy_diff lin adj i (k_x k)) as [d|] eqn:ED; [|reflexivity]. cbn [rbind].
  destruct (is_acceptable w rs (k_used k) d temp) as [[[] u]|]; cbn [rbind fst snd]; auto. do 2 f_equal. destruct HK as [HL HK].
  destruct (calc_spec _ _ _ _ _ _ HS _ _ _ ED HL) as [_ EQ].
  assert (EE : (k_energy k + d = E (upd_nth i Z.opp (k_x k)) - qz 2 * p_offset p)%Qc) by (rewrite HK, EQ; unfold vector_energy; ring).
  rewrite EE. destruct (HE (upd_nth i Z.opp (k_x k))) as [X1 X2]; auto; [rewrite upd_nth_length; auto|apply (flipped_entries spinz i (k_x k)); auto; apply spin_opp].
Qed.
Lemma flip_spinz w rs temp k i k' : flip w lin adj rs temp k i = Ok k' -> Forall spinz (k_x k) -> Forall spinz (k_x k').
Proof.
  unfold flip. intros H HX. apply rbind_ok in H. destruct H as (d & _ & H). apply rbind_ok in H. destruct H as ([[] u] & _ & H); cbn [fst] in H; injection H as <-; cbn [k_x]; auto.
  apply (flipped_entries spinz i (k_x k)); auto. apply spin_opp.
Qed.
Lemma run_flips w rs temp idxs : forall k, tracked p b (k_x k) (k_energy k) -> Forall spinz (k_x k) -> fl_flips a w lin adj rs temp k idxs = flips w lin adj rs temp k idxs.
Proof.
  induction idxs as [|i r IH]; intros k HK HX; cbn [fl_flips flips]; auto. rewrite run_flip by auto. destruct (flip w lin adj rs temp k i) as [k'|] eqn:EF; cbn [rbind]; auto.
  apply IH; [eapply flip_spec; eauto|eapply flip_spinz; eauto].
Qed.
Lemma exact_plain : no_round (exact_of a).
Proof. split; auto. Qed.
Lemma sweep_keeps w g o rs st k st' : fl_sweep (exact_of a) w g o lin adj n rs st k = Ok st' -> tracked p b (k_x (s_walk st)) (k_energy (s_walk st)) ->
  tracked p b (k_x (s_walk st')) (k_energy (s_walk st')) /\
  exists idxs c, picked g o n idxs /\
    visits E (w_boltz w) (s_temp st) rs (k_x (s_walk st)) (k_used (s_walk st)) 0 idxs (k_x (s_walk st')) (k_used (s_walk st')) c /\
    s_ehist st' = s_ehist st ++ [E (k_x (s_walk st)) - qz 2 * p_offset p]%Qc /\ s_thist st' = s_thist st ++ [s_temp st] /\ s_ahist st' = s_ahist st ++ [c].
Proof.
  intros H HK. unfold fl_sweep in H. apply rbind_ok in H. destruct H as (rv & HR & H).
  destruct (pickups g (o_pickup o) n (s_trace st)) as [idxs tr] eqn:EP. rewrite (plain_flips (exact_of a) exact_plain) in H. apply rbind_ok in H. destruct H as (k' & HF' & H).
  apply rbind_ok in H. destruct H as ([t' tg] & HTT & H).
  destruct (flips_spec _ _ _ _ _ _ HS _ _ _ _ _ _ HF') as (T1 & V1); [exact HK|]. cbn [k_x k_used k_acc] in V1.
  inversion H; subst st'. cbn [s_walk s_ehist s_thist s_ahist]. split; auto. exists idxs, (k_acc k'). split.
  - unfold picked, pickups in *. destruct (String.eqb (o_pickup o) "random"); inversion EP; subst; eauto.
  - split; auto. split; auto. destruct HK as [_ ->]. reflexivity.
Qed.
Lemma run_sweep w g o rs st k : tracked p b (k_x (s_walk st)) (k_energy (s_walk st)) -> Forall spinz (k_x (s_walk st)) ->
  fl_sweep a w g o lin adj n rs st k = fl_sweep (exact_of a) w g o lin adj n rs st k.
Proof.
  intros HK HX. unfold fl_sweep. cbn [ar_temp exact_of]. destruct (if s_reversing st then _ else _) as [rv|]; [|reflexivity]. cbn [rbind].
  destruct (pickups g (o_pickup o) n (s_trace st)) as [idxs tr]. rewrite run_flips by auto. rewrite (plain_flips (exact_of a) exact_plain). reflexivity.
Qed.
Lemma run_sweeps w g o rs ks : forall st, tracked p b (k_x (s_walk st)) (k_energy (s_walk st)) -> Forall spinz (k_x (s_walk st)) ->
  fl_sweeps a w g o lin adj n rs st ks = fl_sweeps (exact_of a) w g o lin adj n rs st ks.
Proof.
  induction ks as [|k ks IH]; intros st HK HX; cbn [fl_sweeps]; auto. rewrite run_sweep by auto. destruct (fl_sweep (exact_of a) w g o lin adj n rs st k) as [st'|] eqn:EF; cbn [rbind]; auto.
  destruct (sweep_keeps _ _ _ _ _ _ _ EF HK) as (K' & idxs & c & _ & V & _). apply IH; auto. eapply visits_entries; [apply spin_opp|exact V|exact HX].
Qed.
Lemma sweeps_keep w g o rs : forall ks st st', fl_sweeps (exact_of a) w g o lin adj n rs st ks = Ok st' -> tracked p b (k_x (s_walk st)) (k_energy (s_walk st)) ->
  tracked p b (k_x (s_walk st')) (k_energy (s_walk st')) /\
  exists plan es acc,
    annealed E (w_boltz w) rs (k_x (s_walk st)) (k_used (s_walk st)) plan es acc (k_x (s_walk st')) (k_used (s_walk st')) /\
    s_ehist st' = s_ehist st ++ map (fun e => e - qz 2 * p_offset p)%Qc es /\
    s_thist st' = s_thist st ++ map fst plan /\ s_ahist st' = s_ahist st ++ acc /\
    length plan = length ks /\ Forall (fun tp => picked g o n (snd tp)) plan.
Proof.
  induction ks as [|k ks IH]; intros st st' H HK; cbn [fl_sweeps] in H.
  - inversion H; subst. split; auto. exists [], [], []. split; [constructor|]. rewrite !app_nil_r. auto.
  - apply rbind_ok in H. destruct H as (st1 & H1 & H). destruct (sweep_keeps _ _ _ _ _ _ _ H1 HK) as (T1 & idxs & c & P1 & V1 & E1 & E2 & E3).
    destruct (IH _ _ H T1) as (T2 & plan & es & acc & A & F1 & F2 & F3 & F4 & F5). split; auto.
    exists ((s_temp st, idxs) :: plan), (E (k_x (s_walk st)) :: es), (c :: acc). split; [econstructor; eauto|].
    rewrite F1, F2, F3, E1, E2, E3, <- !app_assoc. cbn [map app fst length]. repeat split; auto.
Qed.
(** Spins in a sample. *)
Definition spin_sample (s : dict string Z) : Prop := forall l z, dget l s = Some z -> spinz z.
Lemma spin_in_some s l v : spin_in s l = Ok v -> exists z, dget l s = Some z /\ v = qz z.
Proof. unfold spin_in. destruct (dget l s) as [z|]; [|discriminate]. intros H. injection H as <-. eauto. Qed.
Lemma run_lin s d : spin_sample s -> Forall G (dvals d) -> (asum (dvals d) <= B)%Qc ->
  match lin_terms a s d with Ok l => lin_energy s d = Ok (qsum l) /\ Forall G l /\ (asum l <= asum (dvals d))%Qc | Err e => lin_energy s d = Err e end.
Proof.
  intros SS. induction d as [|[l c] d IH]; intros HG HB; cbn [lin_terms lin_energy]; [split; auto; split; auto; apply Qcle_refl|]. cbn [dvals map snd] in HG, HB. inversion HG as [|? ? HC HR]; subst. rewrite asum_cons in HB.
  destruct (spin_in s l) as [v|] eqn:EV; cbn [rbind]; [|reflexivity]. destruct (spin_in_some _ _ _ EV) as (z & EL & ->). pose proof (qabs_nonneg c). pose proof (asum_nonneg (dvals d)). unfold dvals in *.
  assert (IH' := IH HR ltac:(qord)). clear IH. assert (SZ := SS _ _ EL). pose proof (qabs_spin z c SZ) as AB. rewrite Qcmult_comm in AB.
  destruct (lin_terms a s d) as [t|]; [|rewrite IH'; reflexivity]. destruct IH' as (-> & I2 & I3). cbn [rbind]. rewrite RO; [|rewrite Qcmult_comm; apply (G_spin G GN); auto|rewrite AB; qord].
  split; [reflexivity|]. split; [constructor; auto; rewrite Qcmult_comm; apply (G_spin G GN); auto|]. cbn [dvals map snd]. rewrite !asum_cons, AB. qord.
Qed.
Lemma run_quad s d : spin_sample s -> Forall G (dvals d) -> (asum (dvals d) <= B)%Qc ->
  match quad_terms a s d with Ok l => quad_energy s d = Ok (qsum l) /\ Forall G l /\ (asum l <= asum (dvals d))%Qc | Err e => quad_energy s d = Err e end.
Proof.
  intros SS. induction d as [|[[i j] c] d IH]; intros HG HB; cbn [quad_terms quad_energy]; [split; auto; split; auto; apply Qcle_refl|]. cbn [dvals map snd] in HG, HB. inversion HG as [|? ? HC HR]; subst. rewrite asum_cons in HB.
  destruct (spin_in s i) as [v|] eqn:EV; cbn [rbind]; [|reflexivity]. destruct (spin_in_some _ _ _ EV) as (z & EI & ->). destruct (spin_in s j) as [v|] eqn:EV'; cbn [rbind]; [|reflexivity]. destruct (spin_in_some _ _ _ EV') as (z' & EJ & ->). pose proof (qabs_nonneg c). pose proof (asum_nonneg (dvals d)). unfold dvals in *.
  assert (IH' := IH HR ltac:(qord)). clear IH. assert (SZ : spinz (z * z')%Z) by (destruct (SS _ _ EI) as [-> | ->], (SS _ _ EJ) as [-> | ->]; unfold spinz; lia). pose proof (qabs_spin _ c SZ) as AB. rewrite Qcmult_comm, qz_mul in AB.
  assert (GC : G (c * (qz z * qz z'))%Qc) by (rewrite Qcmult_comm, <- qz_mul; apply (G_spin G GN); auto).
  destruct (quad_terms a s d) as [t|]; [|rewrite IH'; reflexivity]. destruct IH' as (-> & I2 & I3). cbn [rbind]. rewrite RO; [|auto|rewrite AB; qord].
  split; [reflexivity|]. split; [constructor; auto|]. cbn [dvals map snd]. rewrite !asum_cons, AB. qord.
Qed.
Lemma run_energy s : spin_sample s -> fl_bqm_energy a b s = bqm_energy b s.
Proof.
  intros SS. destruct BC as [BG BB]. inversion BG as [|? ? B1 B2]; subst. apply Forall_app in B2. destruct B2 as [B2 B3]. rewrite asum_cons, asum_app in BB.
  pose proof (asum_nonneg (dvals (b_linear b))). pose proof (asum_nonneg (dvals (b_quad b))). pose proof (qabs_nonneg (b_offset b)).
  unfold fl_bqm_energy, bqm_energy. assert (HL := run_lin s (b_linear b) SS B2 ltac:(qord)). assert (HQ := run_quad s (b_quad b) SS B3 ltac:(qord)).
  destruct (lin_terms a s (b_linear b)) as [l|]; [|rewrite HL; reflexivity]. destruct HL as (-> & L2 & L3). cbn [rbind].
  destruct (quad_terms a s (b_quad b)) as [q|]; [|rewrite HQ; reflexivity]. destruct HQ as (-> & Q2 & Q3). cbn [rbind].
  rewrite (add_up_exact a G B G0 GA RO OR); [cbn [qsum]; rewrite qsum_app; f_equal; ring|constructor; auto; apply Forall_app; auto|rewrite asum_cons, asum_app; qord].
Qed.
Lemma run_annealing w g o s0 tr : rng_ok g -> (forall x, length x = length ls -> starts ls s0 x -> Forall spinz x) ->
  fl_annealing a w g o p orig b lin adj s0 tr = fl_annealing (exact_of a) w g o p orig b lin adj s0 tr.
Proof.
  intros RG HX0. unfold fl_annealing. cbn [ar_temp ar_round exact_of]. destruct (initial_spins g p b s0 tr) as [[x0 t1]|] eqn:EI; [|reflexivity]. cbn [rbind fst snd].
  destruct (initial_spec _ _ _ _ _ _ HS g RG _ _ _ _ EI) as (L0 & S0). pose proof (pr_n _ _ _ _ _ _ HS) as HN. pose proof (pr_maps _ _ _ _ _ _ HS) as HM.
  assert (X0 : Forall spinz x0) by (apply HX0; auto; congruence).
  rewrite run_energy, (plain_energy (exact_of a) exact_plain).
  2: { intros l z HD. rewrite (make_sample_eq p ls HM) in HD by congruence. apply dget_in in HD. apply in_combine_r in HD. rewrite Forall_forall in X0. auto. }
  destruct (bqm_energy b (make_sample p x0)) as [e0|] eqn:EE; [|reflexivity]. cbn [rbind]. apply bqm_energy_ok in EE.
  assert (HK : tracked p b x0 (- (1) * e0)%Qc).
  { split; auto. rewrite EE. rewrite (energy_bqm_ext b (value_of (make_sample p x0)) (spins p x0)).
    - transitivity (- energy_bqm (spins p x0) b)%Qc; [ring|]. apply (pr_energy _ _ _ _ _ _ HS).
    - apply (value_of_spins p ls HM). congruence. }
  assert (R0 : ar_round a (- (1) * e0)%Qc = (- (1) * e0)%Qc) by (destruct HK as [_ HK]; rewrite HK; destruct (HE x0); auto). rewrite R0.
  destruct (if rev_truthy (o_reverse o) then _ else _) as [[tm tg]|]; [|reflexivity]. cbn [rbind fst snd]. destruct (o_sweeps o * Z.of_nat n <? 0)%Z; [reflexivity|].
  match goal with |- context [fl_sweeps a _ _ _ _ _ _ ?R ?S _] => set (rs := R); set (st0 := S) end.
  rewrite (run_sweeps w g o rs _ st0) by auto. destruct (fl_sweeps (exact_of a) w g o lin adj n rs st0 _) as [st|] eqn:ES; [|reflexivity]. cbn [rbind]. do 3 f_equal.
  destruct (sweeps_keep _ _ _ _ _ _ _ ES HK) as (K2 & plan & es & acc & A & _). assert (X2 : Forall spinz (k_x (s_walk st))) by (eapply annealed_entries; [apply spin_opp|exact A|exact X0]).
  destruct K2 as [K2 K3]. rewrite (pr_offset _ _ _ _ _ _ HS).
  assert (T2 : (p_offset p * qz 2 = p_offset p + p_offset p)%Qc) by (change 2%Z with (1 + 1)%Z; rewrite qz_add, qz_1; ring).
  rewrite (RO (p_offset p * qz 2)%Qc); [|rewrite T2; auto|rewrite T2; pose proof (qabs_add (p_offset p) (p_offset p)); qord].
  rewrite K3. assert (EF : (E (k_x (s_walk st)) - qz 2 * p_offset p + p_offset p * qz 2 = E (k_x (s_walk st)))%Qc) by ring. rewrite EF. destruct (HF (k_x (s_walk st))); auto.
Qed.
Lemma run_reads w g o : rng_ok g -> forall inits tr, (forall s0, In s0 inits -> forall x, length x = length ls -> starts ls s0 x -> Forall spinz x) ->
  fl_reads a w g o p orig b lin adj inits tr = fl_reads (exact_of a) w g o p orig b lin adj inits tr.
Proof.
  intros RG. induction inits as [|s0 r IH]; intros tr HI; cbn [fl_reads]; auto. rewrite run_annealing; auto; [|apply HI; left; reflexivity].
  destruct (fl_annealing (exact_of a) w g o p orig b lin adj s0 tr) as [[d t1]|]; cbn [rbind fst snd]; auto. rewrite IH; auto. intros; eapply HI; [right|..]; eauto.
Qed.
End Run.

(** ** The binary quadratic model *)
Lemma asum_dset {K} `{Eqb K} (k : K) (c v : Qc) (d : dict K Qc) :
  v = (match dget k d with Some x => x + c | None => c end)%Qc -> (asum (dvals (dset k v d)) <= asum (dvals d) + qabs c)%Qc.
Proof.
  intros ->. induction d as [|[k' x] d IH]; cbn [dset dget]; unfold dvals in *; [cbn [map snd]; rewrite asum_cons; cbn [asum]; apply Qcle_refl || (unfold asum; cbn [map qsum]; qord)|].
  destruct (eqb k k'); cbn [map snd]; rewrite !asum_cons; [pose proof (qabs_add x c); qord|qord].
Qed.
Lemma forall_dset {K} `{Eqb K} (P : Qc -> Prop) (k : K) v (d : dict K Qc) : P v -> Forall P (dvals d) -> Forall P (dvals (dset k v d)).
Proof.
  intros HV. induction d as [|[k' x] d IH]; cbn [dset]; unfold dvals in *; cbn [map snd]; intros HD; [constructor; auto|]. inversion HD; subst. destruct (eqb k k'); cbn [map snd]; constructor; auto.
Qed.
Lemma forall_dget {K} `{Eqb K} (P : Qc -> Prop) (k : K) v (d : dict K Qc) : Forall P (dvals d) -> dget k d = Some v -> P v.
Proof. intros HD HG. apply dget_in in HG. rewrite Forall_forall in HD. apply HD. unfold dvals. apply in_map_iff. exists (k, v). auto. Qed.
Lemma asum_dget {K} `{Eqb K} (k : K) v (d : dict K Qc) : dget k d = Some v -> (qabs v <= asum (dvals d))%Qc.
Proof. intros HG. apply asum_in. apply dget_in in HG. unfold dvals. apply in_map_iff. exists (k, v). auto. Qed.

Definition weight (b : bqm) : Qc := (asum (dvals (b_linear b)) + asum (dvals (b_quad b)))%Qc.
Section Bqm.
Variables (a : arith) (G : Qc -> Prop) (B : Qc).
Hypothesis G0 : G 0%Qc.
Hypothesis GA : forall x y, G x -> G y -> G (x + y)%Qc.
Hypothesis RO : forall v, G v -> (qabs v <= B)%Qc -> ar_round a v = v.
Definition held (b : bqm) : Prop := Forall G (dvals (b_linear b)) /\ Forall G (dvals (b_quad b)).
Lemma held_variable v c b : held b -> G c -> (weight b + qabs c <= B)%Qc ->
  fl_add_variable a v c b = bqm_add_variable v c b /\ held (bqm_add_variable v c b) /\ (weight (bqm_add_variable v c b) <= weight b + qabs c)%Qc.
Proof.
  intros [H1 H2] HC HW. unfold fl_add_variable, bqm_add_variable, weight, held in *. cbn [b_linear b_quad].
  assert (EQ : (match dget v (b_linear b) with Some d => ar_round a (d + c) | None => c end = match dget v (b_linear b) with Some d => d + c | None => c end)%Qc).
  { destruct (dget v (b_linear b)) as [d|] eqn:ED; auto. apply RO; [apply GA; auto; exact (forall_dget G _ _ _ H1 ED)|]. pose proof (asum_dget _ _ _ ED). pose proof (qabs_add d c). pose proof (asum_nonneg (dvals (b_quad b))). qord. }
  rewrite EQ. split; auto. split; [split; auto; apply forall_dset; auto; destruct (dget v (b_linear b)) as [d|] eqn:ED; auto; apply GA; auto; exact (forall_dget G _ _ _ H1 ED)|].
  pose proof (asum_dset v c _ (b_linear b) eq_refl). qord.
Qed.
Lemma held_interaction u v c b : held b -> G c -> (weight b + qabs c <= B)%Qc ->
  fl_add_interaction a u v c b = bqm_add_interaction u v c b /\
  forall b', bqm_add_interaction u v c b = Ok b' -> held b' /\ (weight b' <= weight b + qabs c)%Qc.
Proof.
  intros HB HC HW. unfold fl_add_interaction, bqm_add_interaction. destruct (String.eqb u v); [split; [auto|discriminate]|].
  assert (Z0 : qabs 0 = 0%Qc) by reflexivity. pose proof (qabs_nonneg c).
  destruct (held_variable u 0%Qc b HB G0 ltac:(rewrite Z0; qord)) as (E1 & D1 & W1). rewrite Z0 in W1.
  destruct (held_variable v 0%Qc _ D1 G0 ltac:(rewrite Z0; qord)) as (E2 & D2 & W2). rewrite Z0 in W2.
  rewrite E1, E2. set (b1 := bqm_add_variable v 0%Qc (bqm_add_variable u 0%Qc b)) in *. clearbody b1. cbn zeta. set (k := pair_key u v (b_quad b1)) in *. clearbody k.
  assert (EQ : (match dget k (b_quad b1) with Some d => ar_round a (d + c) | None => c end = match dget k (b_quad b1) with Some d => d + c | None => c end)%Qc).
  { destruct (dget k (b_quad b1)) as [d|] eqn:ED; auto. destruct D2 as [D2 D3]. apply RO; [apply GA; auto; exact (forall_dget G _ _ _ D3 ED)|]. pose proof (asum_dget _ _ _ ED). pose proof (qabs_add d c). pose proof (asum_nonneg (dvals (b_linear b1))). unfold weight in *. qord. }
  rewrite EQ. split; auto. intros b' Hb. injection Hb as <-. destruct D2 as [D2 D3]. unfold held, weight in *. cbn [b_linear b_quad].
  split; [split; auto; apply forall_dset; auto; destruct (dget k (b_quad b1)) as [d|] eqn:ED; auto; apply GA; auto; exact (forall_dget G _ _ _ D3 ED)|].
  pose proof (asum_dset k c _ (b_quad b1) eq_refl). qord.
Qed.
Lemma held_interactions q : forall b, held b -> Forall G (dvals q) -> (weight b + asum (dvals q) <= B)%Qc ->
  fl_interactions a q b = bqm_interactions q b /\ forall b', bqm_interactions q b = Ok b' -> held b' /\ (weight b' <= weight b + asum (dvals q))%Qc.
Proof.
  induction q as [|[[u v] c] q IH]; intros b HB HG HW; cbn [fl_interactions bqm_interactions].
  - split; auto. intros b' E. injection E as <-. split; auto. unfold asum, dvals. cbn [map qsum]. qord.
  - unfold dvals in HG, HW. cbn [map snd] in HG, HW. inversion HG; subst. rewrite asum_cons in HW. pose proof (asum_nonneg (map snd q)). fold (dvals q) in *.
    destruct (held_interaction u v c b HB) as [E1 E2]; auto; [qord|]. rewrite E1. destruct (bqm_add_interaction u v c b) as [b1|]; [|split; [auto|discriminate]].
    destruct (E2 b1 eq_refl) as [D1 W1]. destruct (IH b1 D1) as [E3 E4]; auto; [qord|]. split; auto. intros b' HB'. destruct (E4 _ HB') as [D2 W2]. split; auto.
    unfold dvals. cbn [map snd]. rewrite asum_cons. fold (dvals q). qord.
Qed.
Lemma held_variables l : forall b, held b -> Forall G (dvals l) -> (weight b + asum (dvals l) <= B)%Qc ->
  let b' := fold_left (fun b kv => bqm_add_variable (fst kv) (snd kv) b) l b in
  fold_left (fun b kv => fl_add_variable a (fst kv) (snd kv) b) l b = b' /\ held b' /\ (weight b' <= weight b + asum (dvals l))%Qc.
Proof.
  induction l as [|[v c] l IH]; intros b HB HG HW; cbn [fold_left].
  - split; auto. split; auto. unfold asum, dvals. cbn [map qsum]. qord.
  - unfold dvals in HG, HW. cbn [map fst snd] in *. inversion HG; subst. rewrite asum_cons in HW. pose proof (asum_nonneg (map snd l)). fold (dvals l) in *.
    destruct (held_variable v c b HB) as (E1 & D1 & W1); auto; [qord|]. rewrite E1. destruct (IH _ D1) as (E2 & D2 & W2); auto; [qord|]. split; auto. split; auto.
    unfold dvals. cbn [map snd]. rewrite asum_cons. fold (dvals l). qord.
Qed.
Lemma to_bqm_exact p : Forall G (coefs p) -> (asum (coefs p) <= B)%Qc ->
  fl_to_bqm a p = to_bqm 1 p /\ forall b, to_bqm 1 p = Ok b -> held b /\ (weight b <= asum (dvals (p_linear p)) + asum (dvals (p_quad p)))%Qc.
Proof.
  intros HG HW. unfold coefs in *. inversion HG as [|? ? O1 O2]; subst. apply Forall_app in O2. destruct O2 as [O2 O3]. rewrite asum_cons, asum_app in HW.
  pose proof (qabs_nonneg (p_offset p)). pose proof (asum_nonneg (dvals (p_linear p))). pose proof (asum_nonneg (dvals (p_quad p))).
  assert (SC : forall {K} (d : dict K Qc), Forall G (dvals d) -> (asum (dvals d) <= B)%Qc -> map (fun kv => (fst kv, ar_round a (1 * snd kv)%Qc)) d = d).
  { intros K d HD HA. transitivity (map (fun kv : K * Qc => kv) d); [|apply map_id]. apply map_ext_in. intros [k c] HI. cbn [fst snd]. f_equal. rewrite Qcmult_1_l.
    assert (HI' : In c (dvals d)) by (unfold dvals; apply in_map_iff; exists (k, c); auto). rewrite Forall_forall in HD. apply RO; auto. pose proof (asum_in _ _ HI'). qord. }
  assert (SD : forall {K} (d : dict K Qc), map (fun kv => (fst kv, 1 * snd kv)%Qc) d = d).
  { intros K d. transitivity (map (fun kv : K * Qc => kv) d); [|apply map_id]. apply map_ext. intros [k c]. cbn [fst snd]. f_equal. apply Qcmult_1_l. }
  unfold fl_to_bqm, to_bqm, bqm_new. rewrite !SD, !SC by (auto; qord). set (sp := match p_mtype p with Ising => true | Qubo => false end).
  assert (W0 : weight (mkBqm sp [] [] (p_offset p)) = 0%Qc) by reflexivity.
  destruct (held_variables (p_linear p) (mkBqm sp [] [] (p_offset p))) as (E1 & D1 & W1); [split; constructor|auto|rewrite W0; qord|]. rewrite W0 in W1. rewrite E1.
  destruct (held_interactions (p_quad p) _ D1 O3) as [E2 E3]; [qord|]. split; auto. intros b HB. destruct (E3 _ HB) as [D2 W2]. split; auto. qord.
Qed.
End Bqm.

(** Neighbours. *)
Lemma adj_asum_le b l : (asum (map snd (bqm_adj b l)) <= asum (dvals (b_quad b)))%Qc.
Proof.
  unfold bqm_adj, dvals. induction (b_quad b) as [|[[u v] c] q IH]; cbn [flat_map map snd]; [apply Qcle_refl|]. rewrite map_app, asum_app, asum_cons. pose proof (qabs_nonneg c).
  assert (Z : forall x : string, asum (map snd [(x, c)]) = qabs c) by (intros; unfold asum; cbn [map snd qsum]; ring).
  destruct (String.eqb u l); [rewrite Z; qord|]. destruct (String.eqb v l); [rewrite Z; qord|]. unfold asum at 1. cbn [map qsum]. qord.
Qed.
Lemma adj_forall (P : Qc -> Prop) b l : Forall P (dvals (b_quad b)) -> Forall P (map snd (bqm_adj b l)).
Proof.
  unfold bqm_adj, dvals. induction (b_quad b) as [|[[u v] c] q IH]; cbn [flat_map map snd]; intros H; [constructor|]. inversion H; subst. rewrite map_app. apply Forall_app. split; auto.
  destruct (String.eqb u l); [constructor; auto|]. destruct (String.eqb v l); constructor; auto.
Qed.
Definition absq (b : bqm) : bqm := mkBqm (b_spin b) (b_linear b) (map (fun kv => (fst kv, qabs (snd kv))) (b_quad b)) (b_offset b).
Lemma absq_adj b l : map snd (bqm_adj (absq b) l) = map qabs (map snd (bqm_adj b l)).
Proof.
  unfold bqm_adj, absq. cbn [b_quad]. induction (b_quad b) as [|[[u v] c] q IH]; cbn [flat_map map fst snd]; auto. rewrite !map_app, IH. f_equal.
  destruct (String.eqb u l); auto. destruct (String.eqb v l); auto.
Qed.
Lemma adj_asum_total b : wf_bqm b -> qsum (map (fun l => asum (map snd (bqm_adj b l))) (dkeys (b_linear b))) = (qz 2 * asum (dvals (b_quad b)))%Qc.
Proof.
  intros (H1 & _ & H3). assert (HA := adj_sum (absq b) (dkeys (b_linear b)) (fun _ => 1%Qc) H1).
  assert (HK : dkeys (b_quad (absq b)) = dkeys (b_quad b)) by (unfold absq, dkeys; cbn [b_quad]; rewrite map_map; reflexivity). rewrite HK in HA.
  specialize (HA ltac:(intros u v HI; destruct (H3 u v HI); tauto)). transitivity (qsum (map (fun l => 1 * qsum (map snd (bqm_adj (absq b) l)))%Qc (dkeys (b_linear b)))).
  { f_equal. apply map_ext. intros l. rewrite absq_adj. unfold asum. ring. }
  rewrite HA. unfold absq, asum, dvals. cbn [b_quad]. rewrite !map_map. cbn [snd fst]. rewrite <- qsum_scale. f_equal. apply map_ext. intros kv. change 2%Z with (1 + 1)%Z. rewrite qz_add, qz_1. ring.
Qed.

(** ** The change to spins *)
Lemma qmul_nonneg x y : (0 <= x)%Qc -> (0 <= y)%Qc -> (0 <= x * y)%Qc.
Proof. intros HX HY. assert (H := Qcmult_le_compat_r 0 x y HX HY). rewrite Qcmult_0_l in H. exact H. Qed.
Lemma qabs_scale k c : (0 <= k)%Qc -> qabs (k * c) = (k * qabs c)%Qc.
Proof.
  intros HK. destruct (qabs_cases c) as [[H ->]|[H ->]].
  - destruct (qabs_cases (k * c)) as [[_ ->]|[H' _]]; auto. exfalso. apply (Qclt_not_le _ _ H'). apply qmul_nonneg; auto.
  - destruct (qabs_cases (k * c)) as [[H' ->]|[_ ->]]; [|ring]. assert (0 <= k * - c)%Qc by (apply qmul_nonneg; auto; qord).
    assert (E : (k * - c = - (k * c))%Qc) by ring. rewrite E in *. apply Qcle_antisym; qord.
Qed.
Lemma asum_scale k l : (0 <= k)%Qc -> asum (map (fun c => k * c)%Qc l) = (k * asum l)%Qc.
Proof. intros HK. induction l as [|c l IH]; cbn [map]; [unfold asum; cbn [map qsum]; ring|]. rewrite !asum_cons, IH, qabs_scale by auto. ring. Qed.
Lemma half0 : (0 <= half)%Qc. Proof. discriminate. Qed.
Lemma quarter0 : (0 <= quarter)%Qc. Proof. discriminate. Qed.
Lemma half_quarter : half = (quarter + quarter)%Qc. Proof. apply Qc_is_canon. reflexivity. Qed.
Lemma quarter_four : (quarter + quarter + quarter + quarter = 1)%Qc. Proof. apply Qc_is_canon. reflexivity. Qed.
Lemma quarter_le x : (0 <= x)%Qc -> (quarter * x <= x)%Qc.
Proof. intros H. assert (E : (x = quarter * x + quarter * x + quarter * x + quarter * x)%Qc) by (transitivity ((quarter + quarter + quarter + quarter) * x)%Qc; [rewrite quarter_four|]; ring). assert (0 <= quarter * x)%Qc by (apply qmul_nonneg; [apply quarter0|auto]). qord. Qed.

Section Spin.
Variables (a : arith) (G : Qc -> Prop) (B : Qc).
Hypothesis G0 : G 0%Qc.
Hypothesis GA : forall x y, G x -> G y -> G (x + y)%Qc.
Hypothesis RO : forall v, G v -> (qabs v <= B)%Qc -> ar_round a v = v.
Hypothesis OR : forall l, Permutation (ar_order a l) l.
Definition fine (c : Qc) : Prop := G (quarter * c)%Qc.
Lemma fine_half c : fine c -> G (half * c)%Qc.
Proof. intros H. rewrite half_quarter. replace ((quarter + quarter) * c)%Qc with (quarter * c + quarter * c)%Qc by ring. auto. Qed.
Lemma fine_one c : fine c -> G c.
Proof. intros H. replace c with (half * c + half * c)%Qc; [apply GA; apply fine_half; auto|]. rewrite half_quarter. transitivity ((quarter + quarter + quarter + quarter) * c)%Qc; [ring|]. rewrite quarter_four. ring. Qed.
Variable b : bqm.
Hypothesis HB : held fine b.
Hypothesis HO : fine (b_offset b).
Hypothesis HW : (qabs (b_offset b) + weight b <= B)%Qc.
Hypothesis WF : wf_bqm b.
Notation L := (asum (dvals (b_linear b))).
Notation Q := (asum (dvals (b_quad b))).
Lemma parts_bounds : (0 <= L)%Qc /\ (0 <= Q)%Qc /\ (0 <= qabs (b_offset b))%Qc /\ (quarter * L <= L)%Qc /\ (quarter * Q <= Q)%Qc /\ (0 <= quarter * L)%Qc /\ (0 <= quarter * Q)%Qc /\ (half * L = quarter * L + quarter * L)%Qc /\ (half * Q = quarter * Q + quarter * Q)%Qc /\
  (L = quarter * L + quarter * L + quarter * L + quarter * L)%Qc /\ (Q = quarter * Q + quarter * Q + quarter * Q + quarter * Q)%Qc /\ (qabs (b_offset b) + (L + Q) <= B)%Qc.
Proof.
  pose proof (asum_nonneg (dvals (b_linear b))). pose proof (asum_nonneg (dvals (b_quad b))). repeat split; auto using qabs_nonneg, quarter_le; try (apply qmul_nonneg; [apply quarter0|auto]); try (rewrite half_quarter; ring).
  - transitivity ((quarter + quarter + quarter + quarter) * L)%Qc; [rewrite quarter_four; ring|ring].
  - transitivity ((quarter + quarter + quarter + quarter) * Q)%Qc; [rewrite quarter_four; ring|ring].
Qed.
Lemma round_half k c : In (k, c) (b_linear b) -> ar_round a (half * c)%Qc = (half * c)%Qc.
Proof.
  intros HI. destruct HB as [H1 _]. assert (HI' : In c (dvals (b_linear b))) by (unfold dvals; apply in_map_iff; exists (k, c); auto). rewrite Forall_forall in H1. apply RO; [apply fine_half; auto|].
  rewrite qabs_scale by apply half0. pose proof (asum_in _ _ HI'). pose proof (quarter_le _ (qabs_nonneg c)). assert (E : (half * qabs c = quarter * qabs c + quarter * qabs c)%Qc) by (rewrite half_quarter; ring).
  assert (E4 : (qabs c = quarter * qabs c + quarter * qabs c + quarter * qabs c + quarter * qabs c)%Qc) by (transitivity ((quarter + quarter + quarter + quarter) * qabs c)%Qc; [rewrite quarter_four; ring|ring]).
  pose proof (qmul_nonneg _ _ quarter0 (qabs_nonneg c)). destruct parts_bounds as (P1 & P2 & P3 & P4 & P5 & P6 & P7 & P8 & P9 & P10 & P11 & P12). rewrite E. qord.
Qed.
Lemma round_quarter c : In c (dvals (b_quad b)) -> ar_round a (quarter * c)%Qc = (quarter * c)%Qc.
Proof.
  intros HI. destruct HB as [_ H1]. rewrite Forall_forall in H1. apply RO; [apply H1; auto|].
  rewrite qabs_scale by apply quarter0. pose proof (asum_in _ _ HI). pose proof (quarter_le _ (qabs_nonneg c)). destruct parts_bounds as (P1 & P2 & P3 & P4 & P5 & P6 & P7 & P8 & P9 & P10 & P11 & P12). qord.
Qed.
Lemma adj_incl l c : In c (map snd (bqm_adj b l)) -> In c (dvals (b_quad b)).
Proof. intros HI. assert (HF := adj_forall (fun c => In c (dvals (b_quad b))) b l ltac:(apply Forall_forall; auto)). rewrite Forall_forall in HF. auto. Qed.
Definition lin_of (kv : string * Qc) : Qc := (half * snd kv + quarter * qsum (map snd (bqm_adj b (fst kv))))%Qc.
Lemma lin_of_fine kv : In kv (b_linear b) -> G (lin_of kv).
Proof.
  intros HI. destruct HB as [H1 H2]. apply GA.
  - apply fine_half. rewrite Forall_forall in H1. apply H1. unfold dvals. apply in_map. auto.
  - rewrite <- qsum_scale. apply (G_sum G G0 GA). apply Forall_forall. intros v HV. apply in_map_iff in HV. destruct HV as (kc & <- & HV). rewrite Forall_forall in H2. apply H2. eapply adj_incl. apply in_map_iff. exists kc. split; eauto.
Qed.
Lemma lin_of_abs kv : (qabs (lin_of kv) <= half * qabs (snd kv) + quarter * asum (map snd (bqm_adj b (fst kv))))%Qc.
Proof.
  unfold lin_of. eapply Qcle_trans; [apply qabs_add|]. rewrite !qabs_scale by (apply half0 || apply quarter0). pose proof (qsum_asum (map snd (bqm_adj b (fst kv)))) as H.
  assert (quarter * qabs (qsum (map snd (bqm_adj b (fst kv)))) <= quarter * asum (map snd (bqm_adj b (fst kv))))%Qc by (rewrite !(Qcmult_comm quarter); apply Qcmult_le_compat_r; auto; apply quarter0). qord.
Qed.
Lemma to_spin_exact : b_spin b = false -> fl_to_spin a b = bqm_to_spin b.
Proof.
  intros SP. unfold fl_to_spin, bqm_to_spin. rewrite SP. destruct HB as [H1 H2]. destruct parts_bounds as (P1 & P2 & P3 & P4 & P5 & P6 & P7 & P8 & P9 & P10 & P11 & P12). f_equal.
  - apply map_ext_in. intros [k c] HI. cbn [fst snd]. f_equal. rewrite (round_half k c HI).
    rewrite (map_ext_in _ (fun j : string * Qc => quarter * snd j)%Qc) by (intros j HJ; apply round_quarter; eapply adj_incl; apply in_map; eauto).
    rewrite (add_up_exact a G B G0 GA RO OR).
    + cbn [qsum]. rewrite qsum_scale. reflexivity.
    + constructor; [apply fine_half; rewrite Forall_forall in H1; apply H1; unfold dvals; apply in_map_iff; exists (k, c); auto|]. apply Forall_forall. intros v HV. apply in_map_iff in HV. destruct HV as (kc & <- & HV). rewrite Forall_forall in H2. apply H2. eapply adj_incl. apply in_map. eauto.
    + rewrite asum_cons, qabs_scale by apply half0. rewrite <- map_map, asum_scale by apply quarter0. pose proof (adj_asum_le b k).
      assert (HC : (qabs c <= L)%Qc) by (apply asum_in; unfold dvals; apply in_map_iff; exists (k, c); auto).
      assert (half * qabs c <= half * L)%Qc by (rewrite !(Qcmult_comm half); apply Qcmult_le_compat_r; auto; apply half0).
      assert (quarter * asum (map snd (bqm_adj b k)) <= quarter * Q)%Qc by (rewrite !(Qcmult_comm quarter); apply Qcmult_le_compat_r; auto; apply quarter0). qord.
  - apply map_ext_in. intros [k c] HI. cbn [fst snd]. f_equal. apply round_quarter. unfold dvals. apply in_map_iff. exists (k, c). auto.
  - rewrite (map_ext_in _ (fun j : string * Qc => half * snd j)%Qc) by (intros [k c] HJ; apply (round_half k c); auto).
    rewrite (map_ext_in (fun kv : string * string * Qc => ar_round a (quarter * snd kv)%Qc) (fun j => quarter * snd j)%Qc) by (intros j HJ; apply round_quarter; unfold dvals; apply in_map; auto).
    rewrite (add_up_exact a G B G0 GA RO OR).
    + cbn [qsum]. rewrite qsum_app, !qsum_scale. ring.
    + constructor; [apply fine_one; auto|]. apply Forall_app. split; apply Forall_forall; intros v HV; apply in_map_iff in HV; destruct HV as (kc & <- & HV).
      * apply fine_half. rewrite Forall_forall in H1. apply H1. unfold dvals. apply in_map. auto.
      * rewrite Forall_forall in H2. apply H2. unfold dvals. apply in_map. auto.
    + rewrite asum_cons, asum_app. rewrite <- (map_map snd (fun c => half * c)%Qc), <- (map_map snd (fun c => quarter * c)%Qc), !asum_scale by (apply half0 || apply quarter0). fold (dvals (b_linear b)) (dvals (b_quad b)). qord.
Qed.
Lemma dvals_image {K} (f : K * Qc -> Qc) (l : dict K Qc) : dvals (map (fun kv => (fst kv, f kv)) l) = map f l.
Proof. unfold dvals. rewrite map_map. reflexivity. Qed.
Definition whole_weight (b : bqm) : Qc := asum (b_offset b :: dvals (b_linear b) ++ dvals (b_quad b)).
Lemma to_spin_held : Forall G (b_offset (bqm_to_spin b) :: dvals (b_linear (bqm_to_spin b)) ++ dvals (b_quad (bqm_to_spin b))) /\
  (whole_weight (bqm_to_spin b) <= qabs (b_offset b) + weight b)%Qc.
Proof.
  unfold bqm_to_spin, whole_weight, weight. destruct HB as [H1 H2]. destruct (b_spin b).
  - split; [constructor; [apply fine_one; auto|]; apply Forall_app; split; eapply Forall_impl; try eassumption; apply fine_one|]. rewrite asum_cons, asum_app. qord.
  - cbn [b_offset b_linear b_quad]. rewrite !(dvals_image (fun kv => quarter * snd kv)%Qc), !(dvals_image lin_of).
    destruct parts_bounds as (P1 & P2 & P3 & P4 & P5 & P6 & P7 & P8 & P9 & P10 & P11 & P12). split.
    + constructor; [|apply Forall_app; split; apply Forall_forall; intros v HV; apply in_map_iff in HV; destruct HV as (kc & <- & HV)].
      * apply GA; [apply GA; [apply fine_one; auto|]|].
        -- rewrite <- qsum_scale. apply (G_sum G G0 GA). apply Forall_forall. intros v HV. apply in_map_iff in HV. destruct HV as (kc & <- & HV). apply fine_half. rewrite Forall_forall in H1. apply H1. unfold dvals. apply in_map. auto.
        -- rewrite <- qsum_scale. apply (G_sum G G0 GA). apply Forall_forall. intros v HV. apply in_map_iff in HV. destruct HV as (kc & <- & HV). rewrite Forall_forall in H2. apply H2. unfold dvals. apply in_map. auto.
      * apply (lin_of_fine kc). auto.
      * rewrite Forall_forall in H2. apply H2. unfold dvals. apply in_map. auto.
    + rewrite asum_cons, asum_app.
      assert (X1 : (asum (map (fun kv => quarter * snd kv)%Qc (b_quad b)) = quarter * Q)%Qc) by (rewrite <- (map_map snd (fun c => quarter * c)%Qc), asum_scale by apply quarter0; reflexivity).
      assert (X2 : (asum (map lin_of (b_linear b)) <= half * L + half * Q)%Qc).
      { apply Qcle_trans with (half * L + quarter * qsum (map (fun l => asum (map snd (bqm_adj b l))) (dkeys (b_linear b))))%Qc.
        - unfold dkeys, dvals. rewrite map_map. clear -b. induction (b_linear b) as [|kv l IH]; cbn [map]; [unfold asum; cbn [map qsum]; assert (E : (half * 0 + quarter * 0 = 0)%Qc) by ring; rewrite E; apply Qcle_refl|].
          rewrite !asum_cons. cbn [qsum]. pose proof (lin_of_abs kv) as HK. 
          match goal with |- (_ <= ?r)%Qc => replace r with ((half * qabs (snd kv) + quarter * asum (map snd (bqm_adj b (fst kv)))) + (half * asum (map snd l) + quarter * qsum (map (fun x : string * Qc => asum (map snd (bqm_adj b (fst x)))) l)))%Qc by ring end. qord.
        - rewrite adj_asum_total by auto. assert (E : (quarter * (qz 2 * Q) = half * Q)%Qc) by (rewrite half_quarter; change 2%Z with (1 + 1)%Z; rewrite qz_add, qz_1; ring). rewrite E. apply Qcle_refl. }
      rewrite X1. pose proof (qabs_add (b_offset b + half * qsum (map snd (b_linear b))) (quarter * qsum (map snd (b_quad b)))) as Y1. pose proof (qabs_add (b_offset b) (half * qsum (map snd (b_linear b)))) as Y2.
      rewrite (qabs_scale half) in Y2 by apply half0. rewrite (qabs_scale quarter) in Y1 by apply quarter0.
      assert (half * qabs (qsum (map snd (b_linear b))) <= half * L)%Qc by (rewrite !(Qcmult_comm half); apply Qcmult_le_compat_r; [apply qsum_asum|apply half0]).
      assert (quarter * qabs (qsum (map snd (b_quad b))) <= quarter * Q)%Qc by (rewrite !(Qcmult_comm quarter); apply Qcmult_le_compat_r; [apply qsum_asum|apply quarter0]). qord.
Qed.
End Spin.

(** ** The arrays *)
Lemma set_nth_forall {A} (P : A -> Prop) i v : forall l l', set_nth i v l = Some l' -> P v -> Forall P l -> Forall P l'.
Proof.
  intros l l' HS HV HF. apply Forall_forall. intros y HY. destruct (In_nth_error _ _ HY) as [j Hj]. rewrite (set_nth_nth _ _ _ _ j HS) in Hj. destruct (Nat.eqb j i).
  - inversion Hj; subst; auto.
  - apply nth_error_In in Hj. rewrite Forall_forall in HF. auto.
Qed.
Lemma fill_linear_forall (P : Qc -> Prop) p d : forall arr arr', fill_linear p d arr = Ok arr' -> Forall P (dvals d) -> Forall P arr -> Forall P arr'.
Proof.
  induction d as [|[l c] d IH]; intros arr arr' H HD HA; cbn [fill_linear] in H; [injection H as <-; auto|]. apply rbind_ok in H. destruct H as (i & _ & H). destruct (set_nth i c arr) as [a1|] eqn:ES; [|discriminate].
  unfold dvals in HD. cbn [map snd] in HD. inversion HD; subst. eapply IH; eauto. eapply set_nth_forall; eauto.
Qed.
Lemma asum_dset_any {K} `{Eqb K} (k : K) (v : Qc) (d : dict K Qc) : (asum (dvals (dset k v d)) <= asum (dvals d) + qabs v)%Qc.
Proof.
  unfold dvals. induction d as [|[k' x] d IH]; cbn [dset map snd]; [rewrite asum_cons; unfold asum; cbn [map qsum]; qord|]. pose proof (qabs_nonneg x).
  destruct (eqb k k'); cbn [map snd]; rewrite !asum_cons; qord.
Qed.
Lemma adj_dict_bounds (P : Qc -> Prop) p l : forall acc d, adj_dict p l acc = Ok d -> Forall P (map snd l) -> Forall P (dvals acc) ->
  Forall P (dvals d) /\ (asum (dvals d) <= asum (dvals acc) + asum (map snd l))%Qc.
Proof.
  induction l as [|[v c] l IH]; intros acc d H HL HA; cbn [adj_dict] in H.
  - injection H as <-. split; auto. unfold asum at 3. cbn [map qsum]. qord.
  - apply rbind_ok in H. destruct H as (i & _ & H). cbn [map snd] in HL. inversion HL; subst. destruct (IH _ _ H) as [I1 I2]; auto; [apply forall_dset; auto|]. split; auto.
    cbn [map snd]. rewrite asum_cons. pose proof (asum_dset_any i c acc). qord.
Qed.
Lemma fill_adj_forall (P : dict nat Qc -> Prop) p b : (forall l d, adj_dict p (bqm_adj b l) [] = Ok d -> P d) -> forall vs arr arr', fill_adj p b vs arr = Ok arr' -> Forall P arr -> Forall P arr'.
Proof.
  intros HP. induction vs as [|l vs IH]; intros arr arr' H HA; cbn [fill_adj] in H; [injection H as <-; auto|]. apply rbind_ok in H. destruct H as (i & _ & H). apply rbind_ok in H. destruct H as (d & HD & H).
  destruct (set_nth i d arr) as [a1|] eqn:ES; [|discriminate]. eapply IH; eauto. eapply set_nth_forall; eauto.
Qed.
Lemma arrays_tame (G : Qc -> Prop) p b lin adj : G 0%Qc -> Forall G (dvals (b_linear b)) -> Forall G (dvals (b_quad b)) ->
  fill_linear p (b_linear b) (repeat 0%Qc (length (b_linear b))) = Ok lin -> fill_adj p b (bqm_variables b) (repeat [] (length (b_linear b))) = Ok adj ->
  tame G lin adj (asum (dvals (b_linear b)) + asum (dvals (b_quad b)))%Qc.
Proof.
  intros G0 HL HQ FL FA.
  assert (L1 : Forall (fun h => G h /\ (qabs h <= asum (dvals (b_linear b)))%Qc) lin).
  { eapply fill_linear_forall; [exact FL| |]; apply Forall_forall.
    - intros c HI. rewrite Forall_forall in HL. split; auto. apply asum_in. auto.
    - intros c HI. apply repeat_spec in HI. subst. split; auto. apply asum_nonneg. }
  assert (A1 : Forall (fun d => Forall G (dvals d) /\ (asum (dvals d) <= asum (dvals (b_quad b)))%Qc) adj).
  { eapply fill_adj_forall; [|exact FA|].
    - intros l d HD. destruct (adj_dict_bounds G _ _ _ _ HD) as [D1 D2]; [apply adj_forall; auto|constructor|]. split; auto. pose proof (adj_asum_le b l). unfold asum at 2 in D2. cbn [map qsum dvals] in D2. qord.
    - apply Forall_forall. intros d HI. apply repeat_spec in HI. subst. split; [constructor|]. apply asum_nonneg. }
  rewrite Forall_forall in L1, A1. split; [apply Forall_forall; intros; apply L1; auto|]. split; [apply Forall_forall; intros; apply A1; auto|].
  intros h d HH HD. destruct (L1 _ HH), (A1 _ HD). qord.
Qed.

(** ** Energies *)
Lemma energy_bounds (G : Qc -> Prop) b s : G 0%Qc -> (forall x y, G x -> G y -> G (x + y)%Qc) -> (forall x, G x -> G (- x)%Qc) ->
  Forall G (b_offset b :: dvals (b_linear b) ++ dvals (b_quad b)) -> (forall l, exists z, (z = 0 \/ spinz z)%Z /\ s l = qz z) ->
  G (energy_bqm s b) /\ (qabs (energy_bqm s b) <= whole_weight b)%Qc.
Proof.
  intros G0 GA GN HG HS. inversion HG as [|? ? O1 O2]; subst. apply Forall_app in O2. destruct O2 as [O2 O3].
  assert (T : forall z c, (z = 0 \/ spinz z)%Z -> G c -> G (c * qz z)%Qc /\ (qabs (c * qz z) <= qabs c)%Qc).
  { intros z c [-> |HZ] HC.
    - assert (Z : (c * qz 0 = 0)%Qc) by (change (qz 0) with (0%Qc); apply Qcmult_0_r). rewrite Z. split; auto. apply qabs_nonneg.
    - rewrite Qcmult_comm. split; [apply (G_spin G GN); auto|rewrite qabs_spin by auto; apply Qcle_refl]. }
  assert (S1 : forall {K} (f : K -> Qc) (d : dict K Qc), (forall k, exists z, (z = 0 \/ spinz z)%Z /\ f k = qz z) -> Forall G (dvals d) -> G (dsum f d) /\ (qabs (dsum f d) <= asum (dvals d))%Qc).
  { intros K f d HF. unfold dsum, dvals. induction d as [|[k c] d IH]; cbn [map qsum fst snd]; intros HD; [split; auto; apply Qcle_refl|]. inversion HD; subst. destruct (IH H2) as [I1 I2]. destruct (HF k) as (z & HZ & EZ). rewrite EZ.
    destruct (T z c HZ H1) as [T1 T2]. split; auto. rewrite asum_cons. pose proof (qabs_add (c * qz z) (qsum (map (fun kv => snd kv * f (fst kv))%Qc d))). qord. }
  rewrite energy_bqm_dsum. unfold whole_weight. rewrite asum_cons, asum_app.
  destruct (S1 _ s (b_linear b) HS O2) as [A1 A2]. destruct (S1 _ (fun ab => s (fst ab) * s (snd ab))%Qc (b_quad b)) as [B1 B2]; auto.
  { intros [u v]. cbn [fst snd]. destruct (HS u) as (z1 & Z1 & ->), (HS v) as (z2 & Z2 & ->). exists (z1 * z2)%Z. split; [|symmetry; apply qz_mul]. unfold spinz in *. lia. }
  split; auto. match goal with |- (qabs (?x + ?y + ?z) <= _)%Qc => pose proof (qabs_add (x + y)%Qc z); pose proof (qabs_add x y) end. qord.
Qed.
Lemma spins_small p x l : Forall spinz x -> exists z, (z = 0 \/ spinz z)%Z /\ spins p x l = qz z.
Proof.
  intros HX. unfold spins. destruct (dget l (p_l2i p)) as [i|]; [|exists 0%Z; auto]. destruct (nth_error x i) as [z|] eqn:EZ; [|exists 0%Z; auto]. exists z. split; auto. right. rewrite Forall_forall in HX. apply HX. eapply nth_error_In; eauto.
Qed.

(** ** A whole call *)
Lemma solve_exact_gen a (G : Qc -> Prop) B w p ls o :
  G 0%Qc -> (forall x y, G x -> G y -> G (x + y)%Qc) -> (forall x, G x -> G (- x)%Qc) -> (forall v, G v -> (qabs v <= B)%Qc -> ar_round a v = v) -> (forall l, Permutation (ar_order a l) l) ->
  world_ok w -> well_indexed p ls -> legal_states p o -> Forall (fine G) (coefs p) -> (asum (coefs p) + asum (coefs p) + asum (coefs p) <= B)%Qc ->
  fl_solve a w (Some p) o = fl_solve (exact_of a) w (Some p) o.
Proof.
  intros G0 GA GN RO OR WO HW HL HC HB. set (A := asum (coefs p)) in *. pose proof (asum_nonneg (coefs p)) as A0. fold A in A0.
  assert (F0 : fine G 0%Qc) by (unfold fine; rewrite Qcmult_0_r; auto).
  assert (FA : forall x y, fine G x -> fine G y -> fine G (x + y)%Qc) by (unfold fine; intros x y HX HY; rewrite Qcmult_plus_distr_r; auto).
  assert (FR : forall v, fine G v -> (qabs v <= B)%Qc -> ar_round a v = v) by (intros v HV HV'; apply RO; auto; apply (fine_one G GA); auto).
  assert (ER : forall v, True -> (qabs v <= B)%Qc -> ar_round (exact_of a) v = v) by reflexivity.
  destruct (to_bqm_exact a (fine G) B F0 FA FR p HC) as [T1 T2]; [fold A; qord|].
  destruct (to_bqm_exact (exact_of a) (fun _ => True) B I (fun _ _ _ _ => I) ER p) as [T3 _]; [apply Forall_forall; auto|fold A; qord|].
  unfold fl_solve. rewrite T1, T3. destruct (check_args p o) as [[]|] eqn:EC; auto. destruct (pick_rng w (o_seed o)) as [g|] eqn:EG; auto. destruct (to_bqm 1 p) as [orig|] eqn:EO; auto.
  destruct (T2 orig eq_refl) as [HH HWt]. destruct (to_bqm_spec _ _ _ EO) as (_ & WF & _ & _ & OF & SP & _).
  assert (AQ : (qabs (b_offset orig) + weight orig <= A)%Qc) by (unfold A, coefs; rewrite asum_cons, asum_app, OF; qord).
  assert (FO : fine G (b_offset orig)) by (rewrite OF; inversion HC; auto).
  assert (SE : fl_to_spin a orig = bqm_to_spin orig).
  { destruct (b_spin orig) eqn:ES; [unfold fl_to_spin, bqm_to_spin; rewrite ES; auto|]. apply (to_spin_exact a G B); auto. qord. }
  rewrite SE, (plain_to_spin (exact_of a)) by (split; auto).
  destruct (to_spin_held G B G0 GA orig HH FO) as [BG BW]; [qord|auto|]. set (b := bqm_to_spin orig) in *.
  match goal with |- context [fl_reads a w g o p orig b _ _ ?I []] => set (inits := I) in * end.
  assert (HI : inits = start_states p o).
  { unfold inits, start_states. destruct (has_init o) eqn:EH; auto. rewrite SP. destruct (p_mtype p); cbn [negb andb]; auto. }
  clearbody inits. subst inits. f_equal.
  destruct (fill_linear p (b_linear b) (repeat 0%Qc (length (b_linear b)))) as [lin|] eqn:EL; auto. cbn [rbind]. destruct (fill_adj p b (bqm_variables b) (repeat [] (length (b_linear b)))) as [adj|] eqn:EA; auto. cbn [rbind].
  assert (HS : prepared p ls orig b lin adj) by (constructor; auto; [apply well_indexed_maps; auto|intros l; apply HW]).
  inversion BG as [|? ? B1 B2]; subst. apply Forall_app in B2. destruct B2 as [B2 B3].
  pose proof (arrays_tame G p b lin adj G0 B2 B3 EL EA) as TM. unfold whole_weight in BW. rewrite asum_cons, asum_app in BW.
  pose proof (asum_nonneg (dvals (b_linear b))). pose proof (asum_nonneg (dvals (b_quad b))). pose proof (qabs_nonneg (b_offset b)).
  assert (OA : (qabs (p_offset p) <= A)%Qc) by (apply asum_in; left; auto).
  assert (GO : G (p_offset p)) by (rewrite <- OF; apply (fine_one G GA); auto).
  assert (HE : forall x, length x = length (b_linear b) -> Forall spinz x -> G (vector_energy p x - qz 2 * p_offset p)%Qc /\ (qabs (vector_energy p x - qz 2 * p_offset p) <= A)%Qc).
  { intros x _ HX. unfold vector_energy. rewrite <- (pr_energy _ _ _ _ _ _ HS). rewrite qabs_opp. destruct (energy_bounds G b (spins p x) G0 GA GN BG) as [X1 X2]; [intros; apply spins_small; auto|].
    split; auto. unfold whole_weight in X2. rewrite asum_cons, asum_app in X2. qord. }
  assert (T2' : (qz 2 * p_offset p = p_offset p + p_offset p)%Qc) by (change 2%Z with (1 + 1)%Z; rewrite qz_add, qz_1; ring).
  assert (RG : rng_ok g).
  { destruct WO as [HF HSD]. unfold pick_rng in EG. destruct (o_seed o) as [z|]; [|inversion EG; subst; auto]. destruct (Z.eqb z 0); [inversion EG; subst; auto|]. destruct (z <? 0)%Z; inversion EG; subst; auto. }
  rewrite (run_reads a G B (asum (dvals (b_linear b)) + asum (dvals (b_quad b)))%Qc G0 GA GN RO OR p ls orig b lin adj HS TM); auto; try qord.
  - intros x HX HX'. destruct (HE x HX HX'). split; auto. qord.
  - intros x HX HX'. destruct (HE x HX HX') as [X1 X2]. rewrite T2' in *. assert (EE : vector_energy p x = (vector_energy p x - (p_offset p + p_offset p) + (p_offset p + p_offset p))%Qc) by ring. rewrite EE. split; auto.
    match goal with |- (qabs (?u + ?v) <= _)%Qc => pose proof (qabs_add u v) end. pose proof (qabs_add (p_offset p) (p_offset p)). qord.
  - split; auto. rewrite asum_cons, asum_app. qord.
  - intros s0 HI x HX HX'. eapply start_spins; eauto.
Qed.

(** ** What a read returns when only temperatures are rounded *)
(** [n] temperatures, each the product of the one before and the rate, rounded. *)
Fixpoint cooled (rt : Qc -> Qc) (rate t : Qc) (n : nat) : list Qc :=
  match n with O => [] | S n => t :: cooled rt rate (rt (t * rate)%Qc) n end.
Section Exact.
Variables (a : arith) (w : world) (g : generator) (o : options).
Hypothesis OR : forall l, Permutation (ar_order a l) l.
Hypothesis HG : rng_ok g.
Variables (p : physical) (ls : list string) (orig b : bqm) (lin : list Qc) (adj : list (dict nat Qc)).
Hypothesis HS : prepared p ls orig b lin adj.
Notation E := (vector_energy p).
Notation n := (length (b_linear b)).
Definition fl_read_spec (s0 : option (dict string Z)) (d : read) : Prop :=
  (exists x0 plan es x rs u,
    length x0 = length ls /\ starts ls s0 x0 /\ length x = length ls /\
    length plan = Z.to_nat (o_sweeps o) /\ length rs = length plan * length ls /\
    Forall (fun v => (0 <= v)%Qc /\ (v < 1)%Qc) rs /\
    Forall (fun tp => Permutation (snd tp) (seq 0 (length ls))) plan /\
    (o_pickup o <> "random"%string -> Forall (fun tp => snd tp = seq 0 (length ls)) plan) /\
    annealed E (w_boltz w) rs x0 0 plan es (d_ahist d) x u /\
    d_sample d = combine ls x /\ d_energy d = E x /\ d_thist d = map fst plan) /\
  (o_reverse o = RNone -> d_thist d = cooled (ar_temp a) (o_rate o) (o_temp o) (Z.to_nat (o_sweeps o))).
Lemma exact_temps rs : forall ks st st', fl_sweeps (exact_of a) w g o lin adj n rs st ks = Ok st' -> s_reversing st = false ->
  s_thist st' = s_thist st ++ cooled (ar_temp a) (o_rate o) (s_temp st) (length ks).
Proof.
  induction ks as [|k ks IH]; intros st st' H HR; cbn [fl_sweeps] in H; [injection H as <-; cbn; rewrite app_nil_r; auto|].
  apply rbind_ok in H. destruct H as (st1 & H1 & H). unfold fl_sweep in H1. rewrite HR in H1. cbn [rbind] in H1. destruct (pickups g (o_pickup o) n (s_trace st)) as [idxs tr]. apply rbind_ok in H1. destruct H1 as (k' & _ & H1). cbn [rbind fst snd] in H1.
  injection H1 as <-. rewrite (IH _ _ H) by reflexivity. cbn [s_thist s_temp length cooled]. rewrite <- app_assoc. reflexivity.
Qed.
Lemma exact_annealing s0 tr d tr' : fl_annealing (exact_of a) w g o p orig b lin adj s0 tr = Ok (d, tr') -> fl_read_spec s0 d.
Proof.
  intros H. unfold fl_annealing in H. cbn [ar_temp ar_round exact_of] in H. apply rbind_ok in H. destruct H as ([x0 t1] & H0 & H). cbn [fst snd] in H.
  destruct (initial_spec _ _ _ _ _ _ HS g HG _ _ _ _ H0) as (L0 & S0). apply rbind_ok in H. destruct H as (e0 & HE & H). rewrite (plain_energy (exact_of a) (exact_plain a OR)) in HE. apply bqm_energy_ok in HE.
  apply rbind_ok in H. destruct H as ([tm tg] & HTT & H). destruct (o_sweeps o * Z.of_nat n <? 0)%Z eqn:EN; [discriminate|].
  apply rbind_ok in H. destruct H as (st & HW & H). inversion H; subst d tr'. clear H. apply Z.ltb_ge in EN.
  pose proof (pr_n _ _ _ _ _ _ HS) as HN. pose proof (pr_maps _ _ _ _ _ _ HS) as HM.
  assert (HT : tracked p b x0 (- (1) * e0)%Qc).
  { split; auto. rewrite HE. rewrite (energy_bqm_ext b (value_of (make_sample p x0)) (spins p x0)).
    - transitivity (- energy_bqm (spins p x0) b)%Qc; [ring|]. apply (pr_energy _ _ _ _ _ _ HS).
    - apply (value_of_spins p ls HM). congruence. }
  match type of HW with fl_sweeps _ _ _ _ _ _ _ ?R ?S _ = _ => set (rs := R) in *; set (st0 := S) in * end.
  destruct (sweeps_keep a OR _ _ _ _ _ _ HS _ _ _ _ _ _ _ HW HT) as (T2 & plan & es & acc & A & F1 & F2 & F3 & F4 & F5).
  cbn [st0 s_ehist s_thist s_ahist s_walk k_x k_used app] in A, F1, F2, F3. rewrite seq_length in F4.
  destruct (annealed_facts _ _ _ _ _ _ _ _ _ _ A) as (_ & _ & LX & _). split.
  - exists x0, plan, es, (k_x (s_walk st)), rs, (k_used (s_walk st)). rewrite <- HN. split; auto. split; auto. split; [congruence|].
    split; auto. split.
    { unfold rs. rewrite (proj1 (rng_floats _ HG _ _)), F4. destruct (Z.le_gt_cases 0 (o_sweeps o)) as [HZ|HZ].
      - rewrite Z2Nat.inj_mul by lia. rewrite Nat2Z.id. reflexivity.
      - replace (Z.to_nat (o_sweeps o)) with 0 by lia. assert (EZ : Z.of_nat n = 0%Z) by nia. rewrite EZ. rewrite Z.mul_0_r. reflexivity. }
    split; [apply (rng_floats _ HG)|]. split; [eapply Forall_impl; [|exact F5]; intros tp HP; apply (picked_lt b g o (snd tp) HG HP)|].
    split; [intros NR; eapply Forall_impl; [|exact F5]; intros tp HP; unfold picked in HP; destruct (String.eqb_spec (o_pickup o) "random"); [contradiction|exact HP]|].
    cbn [d_sample d_energy d_ehist d_thist d_ahist]. rewrite F3. split; auto. split; [apply (make_sample_eq p ls HM); congruence|].
    split; auto. destruct T2 as [_ ->]. rewrite (pr_offset _ _ _ _ _ _ HS). ring.
  - cbn [d_thist]. intros HR. rewrite HR in HTT. cbn [rev_truthy] in HTT. injection HTT as <- <-. rewrite (exact_temps rs _ st0 st HW); [|unfold st0; rewrite HR; reflexivity]. rewrite seq_length. reflexivity.
Qed.
Lemma exact_reads : forall inits tr l, fl_reads (exact_of a) w g o p orig b lin adj inits tr = Ok l -> Forall2 fl_read_spec inits l.
Proof.
  induction inits as [|s0 r IH]; intros tr l H; cbn [fl_reads] in H; [injection H as <-; constructor|]. apply rbind_ok in H. destruct H as ([d t1] & H1 & H). apply rbind_ok in H. destruct H as (l' & H2 & H). injection H as <-.
  constructor; [eapply exact_annealing; exact H1|eapply IH; exact H2].
Qed.
End Exact.
Lemma exact_solve a w p ls o out : (forall l, Permutation (ar_order a l) l) -> well_indexed p ls -> world_ok w -> snd (fl_solve (exact_of a) w (Some p) o) = Ok out ->
  check_args p o = Ok tt /\ Forall2 (fl_read_spec a w o p ls) (start_states p o) (out_reads out) /\ out_set out = sampleset (match p_mtype p with Ising => true | Qubo => false end) (out_reads out).
Proof.
  intros OR HW WO H. destruct (to_bqm_exact (exact_of a) (fun _ => True) (asum (coefs p)) I (fun _ _ _ _ => I) (fun _ _ _ => eq_refl) p) as [T3 _]; [apply Forall_forall; auto|apply Qcle_refl|].
  unfold fl_solve in H. rewrite T3 in H. destruct (check_args p o) as [[]|] eqn:EC; [|discriminate]. destruct (pick_rng w (o_seed o)) as [g|] eqn:EG; [|discriminate].
  assert (RG : rng_ok g).
  { destruct WO as [HF HSD]. unfold pick_rng in EG. destruct (o_seed o) as [z|]; [|inversion EG; subst; auto]. destruct (Z.eqb z 0); [inversion EG; subst; auto|]. destruct (z <? 0)%Z; inversion EG; subst; auto. }
  destruct (to_bqm 1 p) as [orig|] eqn:EB; [|discriminate]. cbn [snd] in H. cbv zeta in H. rewrite (plain_to_spin (exact_of a)) in H by (split; auto). set (b := bqm_to_spin orig) in *.
  apply rbind_ok in H. destruct H as (lin & HL & H). apply rbind_ok in H. destruct H as (adj & HA & H). apply rbind_ok in H. destruct H as (l & HR & H).
  injection H as <-. cbn [out_reads out_set].
  assert (HS : prepared p ls orig b lin adj) by (constructor; auto; [apply well_indexed_maps; auto|intros x; apply HW]).
  assert (ET : b_spin orig = match p_mtype p with Ising => true | Qubo => false end) by (destruct (to_bqm_spec _ _ _ EB) as (_ & _ & _ & _ & _ & H6 & _); exact H6).
  split; auto. rewrite ET in *. split; auto.
  apply (exact_reads a w g o OR RG _ _ _ _ _ _ HS) in HR. unfold start_states. destruct (has_init o) eqn:EI; [|exact HR].
  rewrite andb_true_r in HR. destruct (p_mtype p); cbn [negb] in HR; [|exact HR]. unfold init_list at 1. destruct (o_init o); exact HR.
Qed.

(** ** The theorems *)
(** The result of a call on a machine. *)
Definition fl_result (rnd : Qc -> Qc) (order : list Qc -> list Qc) (w : world) (p : physical) (o : options) : res outcome := snd (fl_solve (machine rnd order) w (Some p) o).
Lemma two_to_next e : two_to (e + 1) = (two_to e + two_to e)%Qc.
Proof.
  unfold two_to. destruct (Z.leb_spec 0 e) as [H|H].
  - destruct (Z.leb_spec 0 (e + 1)) as [_|]; [|lia]. rewrite Z.pow_add_r by lia. rewrite qz_mul. change (2 ^ 1)%Z with (1 + 1)%Z. rewrite qz_add, qz_1. ring.
  - assert (NZ : forall k, (0 <= k)%Z -> qz (2 ^ k) <> 0%Qc). { intros k HK HE. assert (0 < 2 ^ k)%Z by (apply Z.pow_pos_nonneg; lia). rewrite <- qz_0 in HE. apply qz_inj in HE. lia. }
    assert (EE : (2 ^ (- e) = 2 ^ (- e - 1) + 2 ^ (- e - 1))%Z) by (replace (- e)%Z with ((- e - 1) + 1)%Z at 1 by lia; rewrite Z.pow_add_r by lia; lia).
    destruct (Z.leb_spec 0 (e + 1)) as [H'|H'].
    + assert (e = -1)%Z by lia. subst e. apply Qc_is_canon. reflexivity.
    + replace (- (e + 1))%Z with (- e - 1)%Z by lia. rewrite EE, qz_add. specialize (NZ (- e - 1)%Z ltac:(lia)). set (x := qz (2 ^ (- e - 1))) in *.
      assert (N2 : (1 + 1 <> 0)%Qc) by discriminate. field. split; auto. intros HX. apply NZ. replace x with ((x + x) * / (1 + 1))%Qc by (field; auto). rewrite HX. ring.
Qed.
Lemma two_to_pos e : (0 < two_to e)%Qc.
Proof.
  unfold two_to. assert (P : forall k, (0 <= k)%Z -> (0 < qz (2 ^ k))%Qc) by (intros k HK; rewrite <- qz_0; apply qz_lt; apply Z.pow_pos_nonneg; lia). destruct (Z.leb_spec 0 e); [auto|]. assert (HP := P (- e)%Z ltac:(lia)).
  set (x := qz (2 ^ (- e))) in *. apply Qcnot_le_lt. intros HX. assert (HM := Qcmult_le_compat_r _ _ x HX ltac:(qord)). rewrite Qcmult_0_l, Qcmult_comm, Qcmult_inv_r in HM; [|intros Z; rewrite Z in HP; discriminate]. apply HM. reflexivity.
Qed.
Lemma fits_grid rnd e : double rnd -> (-1072 <= e <= 970)%Z ->
  let G v := exists k, v = (qz k * two_to (e - 2))%Qc in
  G 0%Qc /\ (forall x y, G x -> G y -> G (x + y)%Qc) /\ (forall x, G x -> G (- x)%Qc) /\
  (forall v, G v -> (qabs v <= qz (2 ^ 53) * two_to (e - 2))%Qc -> rnd v = v) /\ (forall k, fine G (qz k * two_to e)%Qc) /\ two_to e = (qz 4 * two_to (e - 2))%Qc.
Proof.
  intros DB HE G. assert (PG := two_to_pos (e - 2)).
  assert (E4 : two_to e = (qz 4 * two_to (e - 2))%Qc).
  { replace e with (e - 2 + 1 + 1)%Z at 1 by lia. rewrite !two_to_next. change 4%Z with (1 + 1 + 1 + 1)%Z. rewrite !qz_add, qz_1. ring. }
  repeat split.
  - exists 0%Z. rewrite qz_0. ring.
  - intros x y [k ->] [j ->]. exists (k + j)%Z. rewrite qz_add. ring.
  - intros x [k ->]. exists (- k)%Z. rewrite qz_opp. ring.
  - intros v [k ->] HV. apply DB; [|lia]. rewrite (Qcmult_comm (qz k)), qabs_scale, (Qcmult_comm (two_to (e - 2)) (qabs (qz k))) in HV by qord. assert (HZ : (qabs (qz k) <= qz (2 ^ 53))%Qc).
    { apply Qcnot_lt_le. intros HL. apply (Qcle_not_lt _ _ HV). apply Qcmult_lt_compat_r; auto. }
    destruct (qabs_cases (qz k)) as [[X E1]|[X E1]]; rewrite E1 in HZ; rewrite <- qz_0 in X.
    + apply (proj1 (qz_le _ _)) in HZ. apply (proj1 (qz_le _ _)) in X. lia.
    + rewrite <- qz_opp in HZ. apply (proj1 (qz_le _ _)) in HZ. apply (proj1 (qz_lt _ _)) in X. lia.
  - intros k. unfold fine, G. exists k. rewrite E4. assert (Q4 : (quarter * qz 4 = 1)%Qc) by (apply Qc_is_canon; reflexivity). transitivity (quarter * qz 4 * (qz k * two_to (e - 2)))%Qc; [ring|]. rewrite Q4. ring.
  - exact E4.
Qed.

(** When the coefficients of a model are integers in a power of two as unit and add up to at most 2^49 of it, no operation on
    coefficients or energies rounds, whatever the order in which dimod adds up: only temperatures may be rounded. *)
Theorem C150_exact : forall rnd order w p ls o,
  double rnd -> (forall l, Permutation (order l) l) -> world_ok w -> well_indexed p ls -> legal_states p o -> fits p ->
  fl_solve (machine rnd order) w (Some p) o = fl_solve (only_temp rnd order) w (Some p) o.
Proof.
  intros rnd order w p ls o DB OR WO HW HL (e & HE & HC & HA). destruct (fits_grid rnd e DB HE) as (G0 & GA & GN & RO & FN & E4). set (G := fun v => exists k, v = (qz k * two_to (e - 2))%Qc) in *.
  change (only_temp rnd order) with (exact_of (machine rnd order)). apply (solve_exact_gen (machine rnd order) G (qz (2 ^ 53) * two_to (e - 2))%Qc) with (ls := ls); auto.
  - apply Forall_forall. intros c HI. destruct (HC c HI) as [k ->]. apply FN.
  - rewrite E4 in HA. assert (PG := two_to_pos (e - 2)). set (t := two_to (e - 2)) in *.
    assert (X : (qz (2 ^ 49) * (qz 4 * t) = qz (2 ^ 51) * t)%Qc) by (change (2 ^ 51)%Z with (2 ^ 49 * 4)%Z; rewrite qz_mul; ring). rewrite X in HA.
    assert (Y : (qz (2 ^ 53) * t = qz (2 ^ 51) * t + qz (2 ^ 51) * t + qz (2 ^ 51) * t + qz (2 ^ 51) * t)%Qc) by (change (2 ^ 53)%Z with (2 ^ 51 + 2 ^ 51 + 2 ^ 51 + 2 ^ 51)%Z; rewrite !qz_add; ring). rewrite Y.
    assert (0 <= qz (2 ^ 51) * t)%Qc by (apply qmul_nonneg; [rewrite <- qz_0; apply qz_le; lia|qord]). qord.
Qed.
(** The reported energies are the true energies of the reported samples. *)
Theorem C150_energy : forall rnd order w p ls o out s e c,
  double rnd -> (forall l, Permutation (order l) l) -> world_ok w -> well_indexed p ls -> legal_states p o -> fits p ->
  fl_result rnd order w p o = Ok out -> In (s, e, c) (out_set out) ->
  e = energy_physical (value_of s) p.
Proof.
  intros rnd order w p ls o out s e c DB OR WO HW HL HP H HI. unfold fl_result in H. rewrite (C150_exact rnd order w p ls o) in H by auto. change (only_temp rnd order) with (exact_of (machine rnd order)) in H.
  destruct (exact_solve (machine rnd order) w p ls o out OR HW WO H) as (_ & HF & ES).
  assert (HSS : forall s0, In s0 (start_states p o) -> forall x, length x = length ls -> starts ls s0 x -> Forall spinz x) by (intros s0 HI0 x HX HS; eapply start_spins; eauto).
  assert (HX : exists xs, Forall2 (fun r x => length x = length ls /\ d_sample r = combine ls x /\ d_energy r = vector_energy p x) (out_reads out) xs /\ Forall (Forall spinz) xs).
  { clear -HF HSS. induction HF as [|s0 d inits l HR HF IH]; [exists []; split; constructor|]. destruct IH as (xs & X1 & X2); [intros; eapply HSS; simpl; eauto|].
    destruct HR as [(x0 & plan & es & x & rs & u & A1 & A2 & A3 & _ & _ & _ & _ & _ & AN & D1 & D2 & _) _]. exists (x :: xs). split; [constructor; auto|]. constructor; auto.
    eapply annealed_entries; [apply spin_opp|exact AN|]. eapply HSS; simpl; eauto. }
  destruct HX as (xs & X1 & X2). pose proof HW as (ND & _). destruct (aggregate_spec ls (vector_energy p) ND _ _ X1) as (ys & N & F & C).
  rewrite ES in HI. unfold sampleset in HI. apply in_map_iff in HI. destruct HI as ([[s1 e1] c1] & EQ & HI). injection EQ as <- <- <-.
  destruct (Forall2_in_l _ _ _ _ F HI) as (y & Hy & Y1 & Y2 & Y3 & Y4 & Y5). cbn [fst snd] in *. subst s1 e1.
  assert (HY : In y xs) by (apply (count_occ_In (list_eq_dec Z.eq_dec)); lia). rewrite Forall_forall in X2. apply vector_sample; auto.
Qed.
(** Every read is a Metropolis run on the true energy, with the rounded temperatures. *)
Theorem C150_metropolis : forall rnd order w p ls o out r,
  double rnd -> (forall l, Permutation (order l) l) -> world_ok w -> well_indexed p ls -> legal_states p o -> fits p ->
  fl_result rnd order w p o = Ok out -> In r (out_reads out) ->
  (exists x0 plan es x rs used,
    length x0 = length ls /\ length x = length ls /\
    length rs = length plan * length ls /\ Forall (fun v => (0 <= v)%Qc /\ (v < 1)%Qc) rs /\ used <= length rs /\
    length plan = Z.to_nat (o_sweeps o) /\
    Forall (fun tp => Permutation (snd tp) (seq 0 (length ls))) plan /\
    (o_pickup o <> "random" -> Forall (fun tp => snd tp = seq 0 (length ls)) plan) /\
    annealed (vector_energy p) (w_boltz w) rs x0 0 plan es (d_ahist r) x used /\
    d_sample r = combine ls x /\ d_energy r = vector_energy p x /\ d_thist r = map fst plan) /\
  (o_reverse o = RNone -> d_thist r = cooled rnd (o_rate o) (o_temp o) (Z.to_nat (o_sweeps o))).
Proof.
  intros rnd order w p ls o out r DB OR WO HW HL HP H HR. unfold fl_result in H. rewrite (C150_exact rnd order w p ls o) in H by auto. change (only_temp rnd order) with (exact_of (machine rnd order)) in H.
  destruct (exact_solve (machine rnd order) w p ls o out OR HW WO H) as (_ & HF & _). destruct (Forall2_in_r _ _ _ _ HF HR) as (s0 & _ & HS & HT). split; [|exact HT].
  destruct HS as (x0 & plan & es & x & rs & u & A1 & A2 & A3 & A4 & A5 & A6 & A7 & A8 & AN & D1 & D2 & D3).
  exists x0, plan, es, x, rs, u. destruct (annealed_facts _ _ _ _ _ _ _ _ _ _ AN) as (_ & _ & _ & L4 & _). repeat (split; auto). apply L4. lia.
Qed.
(** Without rounding the call is the one of exact arithmetic (Solver.v), about which the other theorems are. *)
Theorem C150_no_rounding : forall order w mo o, (forall l, Permutation (order l) l) ->
  fl_solve (machine (fun v => v) order) w mo o = solve w mo o.
Proof.
  intros order w [p|] o OR; [|reflexivity]. set (a := machine (fun v => v) order). assert (NR : no_round a) by (split; auto).
  assert (SW : forall g lin adj n rs st k, fl_sweep a w g o lin adj n rs st k = sweep_once w g o lin adj n rs st k).
  { intros. unfold fl_sweep, sweep_once. destruct (if s_reversing st then _ else _) as [rv|]; [|reflexivity]. cbn [rbind]. destruct (pickups g (o_pickup o) n (s_trace st)) as [idxs tr]. rewrite (plain_flips a NR). reflexivity. }
  assert (SS : forall g lin adj n rs ks st, fl_sweeps a w g o lin adj n rs st ks = sweeps w g o lin adj n rs st ks).
  { intros g lin adj n rs ks. induction ks as [|k ks IH]; intros st; cbn [fl_sweeps sweeps]; auto. rewrite SW. destruct (sweep_once w g o lin adj n rs st k); cbn [rbind]; auto. }
  assert (AN : forall g orig b lin adj s0 tr, fl_annealing a w g o p orig b lin adj s0 tr = annealing w g o p orig b lin adj s0 tr).
  { intros. unfold fl_annealing, annealing. destruct (initial_spins g p b s0 tr) as [[x0 t1]|]; [|reflexivity]. cbn [rbind fst snd]. rewrite (plain_energy a NR). destruct (bqm_energy b (make_sample p x0)) as [e0|]; [|reflexivity]. cbn [rbind].
    cbn [ar_temp ar_round a machine]. destruct (if rev_truthy (o_reverse o) then _ else _) as [tt0|]; [|reflexivity]. cbn [rbind]. destruct (o_sweeps o * Z.of_nat (length (b_linear b)) <? 0)%Z; [reflexivity|]. rewrite SS. reflexivity. }
  assert (RD : forall g orig b lin adj inits tr, fl_reads a w g o p orig b lin adj inits tr = reads w g o p orig b lin adj inits tr).
  { intros g orig b lin adj inits. induction inits as [|s0 r IH]; intros tr; cbn [fl_reads reads]; auto. rewrite AN. destruct (annealing w g o p orig b lin adj s0 tr) as [[d t1]|]; cbn [rbind fst snd]; auto. rewrite IH. reflexivity. }
  destruct (to_bqm_exact a (fun _ => True) (asum (coefs p)) I (fun _ _ _ _ => I) (fun _ _ _ => eq_refl) p) as [T3 _]; [apply Forall_forall; auto|apply Qcle_refl|].
  unfold fl_solve, solve. rewrite T3. destruct (check_args p o); [|reflexivity]. destruct (pick_rng w (o_seed o)); [|reflexivity]. destruct (to_bqm 1 p) as [orig|]; [|reflexivity]. rewrite (plain_to_spin a NR). f_equal.
  destruct (fill_linear p _ _) as [lin|]; [|reflexivity]. cbn [rbind]. destruct (fill_adj p _ _ _) as [adj|]; [|reflexivity]. cbn [rbind]. rewrite RD. reflexivity.
Qed.

(** A rounding: to the nearest number of the format, ties to even, on the integers up to 2^54. *)
Definition nearest (v : Qc) : Qc :=
  let n := Qnum (this v) in
  if Pos.eqb (Qden (this v)) 1 && (2 ^ 53 <=? Z.abs n)%Z && (Z.abs n <? 2 ^ 54)%Z && Z.odd n
  then qz (if ((n - 1) mod 4 =? 0)%Z then n - 1 else n + 1) else v.
Lemma nearest_double : double nearest.
Proof.
  intros m e HM HE. unfold nearest. set (v := (qz m * two_to e)%Qc) in *. set (k := Qnum (this v)).
  destruct (_ && _ && _ && _) eqn:EC; [|reflexivity]. exfalso. apply andb_true_iff in EC. destruct EC as [EC E4]. apply andb_true_iff in EC. destruct EC as [EC E3]. apply andb_true_iff in EC. destruct EC as [E1 E2].
  apply Pos.eqb_eq in E1. apply Z.leb_le in E2. assert (HV : v = qz k). { apply Qc_is_canon. unfold qz. cbn [this Q2Qc]. rewrite Qred_correct. unfold k, Qeq, inject_Z. cbn [Qnum Qden]. rewrite E1. lia. }
  unfold v, two_to in HV. clearbody k. clear E1. destruct (Z.leb_spec 0 e) as [H|H].
  - rewrite <- qz_mul in HV. apply qz_inj in HV. destruct (Z.eq_dec e 0) as [->|NE].
    + rewrite Z.pow_0_r, Z.mul_1_r in HV. assert (HK : (k = 2 ^ 53 \/ k = - 2 ^ 53)%Z) by lia. destruct HK as [HK|HK]; rewrite HK in E4; discriminate.
    + rewrite <- HV in E4. replace e with (1 + (e - 1))%Z in E4 by lia. rewrite Z.pow_add_r in E4 by lia. rewrite !Z.odd_mul in E4. cbn in E4. rewrite andb_false_r in E4. discriminate.
  - assert (NZ : qz (2 ^ (- e)) <> 0%Qc). { intros HZ. assert (0 < 2 ^ (- e))%Z by (apply Z.pow_pos_nonneg; lia). rewrite <- qz_0 in HZ. apply qz_inj in HZ. lia. }
    assert (HV' : (qz m = qz k * qz (2 ^ (- e)))%Qc) by (rewrite <- HV; field; auto). rewrite <- qz_mul in HV'. apply qz_inj in HV'.
    assert (2 <= 2 ^ (- e))%Z by (change 2%Z with (2 ^ 1)%Z at 1; apply Z.pow_le_mono_r; lia). assert (Z.abs m = Z.abs k * 2 ^ (- e))%Z by (rewrite HV', Z.abs_mul, (Z.abs_eq (2 ^ _)); lia). nia.
Qed.
(** Coefficients of very different sizes: 2^53 and 1. *)
Definition wide : physical :=
  mkPhysical Ising [("a", qz (2 ^ 53)); ("b", qz 1)] [] 0%Qc ["a"; "b"] [("a", 0); ("b", 1)] [(0, "a"); (1, "b")].
Definition wide_options : options := mkOptions 1 1 (qfrac 1 2) (qz 10) (Some [[("a", 1%Z); ("b", 1%Z)]]) RNone "sequential" None.
(** The claim fails for such a model: the energy reported is not the energy of the sample. *)
Theorem C150_refuted : exists rnd order w p ls o out s e c,
  double rnd /\ (forall l, Permutation (order l) l) /\ world_ok w /\ well_indexed p ls /\ legal_states p o /\
  Forall (fun v => rnd v = v) (coefs p) /\
  fl_result rnd order w p o = Ok out /\ In (s, e, c) (out_set out) /\ e <> energy_physical (value_of s) p.
Proof.
  exists nearest, (fun l => l), world0, wide, ["a"; "b"], wide_options, (match fl_result nearest (fun l => l) world0 wide wide_options with Ok out => out | Err _ => mkOutcome [] [] end), [("a", 1%Z); ("b", 1%Z)], (qz (- 2 ^ 53)), 1.
  split; [apply nearest_double|]. split; [intros; apply Permutation_refl|]. split; [apply world0_ok|]. split; [|split; [|split; [|split; [|split]]]].
  - destruct (phys2_indexed Ising) as (H1 & H2 & H3 & H4). split; [exact H1|]. split; [exact H2|]. split; [exact H3|]. intros l. rewrite H4. unfold occurs. cbn. split.
    + intros [H|(x & y & [H|[]] & HL)]; [left; exact H|]. injection H as <- <-. left. destruct HL; auto.
    + intros [H|(x & y & [] & _)]. left. exact H.
  - intros s l z [<-|[]] _ H. cbn in H. cbn [wide p_mtype legal]. destruct (String.eqb l "a"); [inversion H; auto|]. destruct (String.eqb l "b"); [inversion H; auto|discriminate].
  - repeat constructor; apply Qc_is_canon; vm_compute; reflexivity.
  - vm_compute. reflexivity.
  - vm_compute. left. reflexivity.
  - intros H. apply (f_equal (fun q => Qnum (this q))) in H. vm_compute in H. discriminate.
Qed.
(** Integer coefficients that add up, in absolute value, to at most 2^49 are in the scope of the theorems. *)
Theorem C150_integers : forall p, (forall c, In c (coefs p) -> exists k, c = qz k) -> (qsum (map qabs (coefs p)) <= qz (2 ^ 49))%Qc -> fits p.
Proof.
  intros p HC HA. exists 0%Z. assert (T0 : two_to 0 = 1%Qc) by reflexivity. rewrite T0. split; [lia|]. split.
  - intros c HI. destruct (HC c HI) as [k ->]. exists k. ring.
  - unfold asum. rewrite Qcmult_1_r. exact HA.
Qed.
Lemma phys2_fits t : fits (phys2 t).
Proof.
  apply C150_integers.
  - intros c [<-|[<-|[<-|[<-|[]]]]]; eexists; reflexivity.
  - vm_compute. discriminate.
Qed.
(** The hypotheses hold for a QUBO with reverse annealing from given states and an Ising model with random starts. *)
Example C150_hyps : double nearest /\ nearest (qz (2 ^ 53 + 1)) = qz (2 ^ 53) /\ world_ok world0 /\
  (well_indexed (phys2 Qubo) ["a"; "b"] /\ legal_states (phys2 Qubo) options1 /\ fits (phys2 Qubo) /\ okshape (fl_result nearest (@rev Qc) world0 (phys2 Qubo) options1) = [(1, [1; 0], 2)]) /\
  (well_indexed (phys2 Ising) ["a"; "b"] /\ legal_states (phys2 Ising) options0 /\ fits (phys2 Ising) /\ okshape (fl_result nearest (@rev Qc) world0 (phys2 Ising) options0) = [(1, [0; 0; 0], 3); (1, [0; 0; 0], 3)]).
Proof.
  split; [apply nearest_double|]. split; [apply Qc_is_canon; vm_compute; reflexivity|]. split; [apply world0_ok|].
  split; [split; [apply phys2_indexed|]; split; [apply legal1|]; split; [apply phys2_fits|]; vm_compute; reflexivity|].
  split; [apply phys2_indexed|]; split; [apply legal0|]; split; [apply phys2_fits|]; vm_compute; reflexivity.
Qed.
Print Assumptions C150_exact.
Print Assumptions C150_energy.
Print Assumptions C150_metropolis.
Print Assumptions C150_no_rounding.
Print Assumptions C150_refuted.
Print Assumptions C150_integers.
