(** * PropsIntegers: C156 - models with integer coefficients are treated exactly, from the logical model to the answer. *)
From Verif Require Import PyBase PyLemmas Numbers Constraint LogicalModel Spec PhysicalProofs Samples PropsPhysical EnergyProofs
  ToPhysicalProofs Physical BqmProofs History PropsHistory PropsBqm Solver SolverSpec SolverProofs PropsSolver NppStream PropsNppSolve PropsPenalty Rounded PropsRounded PropsError RoundedLogical PropsLogicalError.
From Coq Require Import Permutation.
Open Scope string_scope.
Open Scope list_scope.

(** ** Specification *)
(** coefficient * scale of every interaction and the offset are integers, in some power of two as the unit, and add up to at most
    2^49 of it. *)
Definition fits_model (m : lmodel) : Prop :=
  exists e, (-1072 <= e <= 968)%Z /\ (forall c, In c (value [] (m_offset m) :: map strength (m_rows m)) -> exists k, c = (qz k * two_to e)%Qc) /\
    (asum (value [] (m_offset m) :: map strength (m_rows m)) <= qz (2 ^ 49) * two_to e)%Qc.

(** ** No sum is rounded *)
Section Grid.
Variables (rnd : Qc -> Qc) (G : Qc -> Prop) (B : Qc).
Hypothesis GA : forall x y, G x -> G y -> G (x + y)%Qc.
Hypothesis RO : forall v, G v -> (qabs v <= B)%Qc -> rnd v = v.
Definition within {K} (A : Qc) (d : dict K Qc) : Prop := Forall (fun e => G (snd e) /\ (qabs (snd e) <= A)%Qc) d.
Lemma within_mono {K} A A' (d : dict K Qc) : (A <= A')%Qc -> within A d -> within A' d.
Proof. intros HA. apply Forall_impl. intros e [H1 H2]. split; auto. qord. Qed.
Lemma within_add {K} `{Eqb K} A k q (d : dict K Qc) : (0 <= A)%Qc -> within A d -> G q -> (A + qabs q <= B)%Qc ->
  fl_dadd rnd k q d = fl_dadd (fun v => v) k q d /\ within (A + qabs q) (fl_dadd rnd k q d).
Proof.
  intros A0 HW HG HB. pose proof (qabs_nonneg q) as Q0. assert (HW' : within (A + qabs q) d) by (apply (within_mono A); auto; qord). unfold fl_dadd. destruct (dget k d) as [x|] eqn:E.
  - assert (HX : G x /\ (qabs x <= A)%Qc) by (unfold within in HW; rewrite Forall_forall in HW; apply dget_in in E; exact (HW _ E)). destruct HX as [X1 X2].
    pose proof (qabs_add x q) as AD. rewrite RO by (auto; qord). split; [reflexivity|]. apply Forall_forall. intros [k' v'] HI. apply dset_in in HI. destruct HI as [[-> ->]|HI]; [cbn [snd]; split; auto; qord|].
    unfold within in HW'. rewrite Forall_forall in HW'. exact (HW' _ HI).
  - split; [reflexivity|]. apply Forall_forall. intros [k' v'] HI. apply dset_in in HI. destruct HI as [[-> ->]|HI]; [cbn [snd]; split; auto; qord|].
    unfold within in HW'. rewrite Forall_forall in HW'. exact (HW' _ HI).
Qed.
Lemma rows_exact l : forall A g, (0 <= A)%Qc -> within A (g_lin g) -> within A (g_quad g) -> Forall (fun r => is_plain (r_coef r) /\ is_plain (r_scale r)) l ->
  Forall G (map strength l) -> (A + asum (map strength l) <= B)%Qc ->
  fl_agg_rows rnd g l = fl_agg_rows (fun v => v) g l /\
  (forall g', fl_agg_rows rnd g l = Ok g' -> Forall (fun e => G (snd e)) (g_lin g') /\ Forall (fun e => G (snd e)) (g_quad g')).
Proof.
  induction l as [|r l IH]; intros A g A0 WL WQ HP HG HB.
  - split; [reflexivity|]. intros g' E. injection E as <-. split; [eapply Forall_impl; [|exact WL]|eapply Forall_impl; [|exact WQ]]; intros e [H _]; exact H.
  - inversion HP as [|? ? [[c Hc] [s Hs]] HP']; subst. cbn [map] in HG, HB. inversion HG as [|? ? HS HG']; subst. rewrite asum_cons in HB. pose proof (asum_nonneg (map strength l)) as S0. pose proof (qabs_nonneg (strength r)) as R0.
    assert (A1 : (0 <= A + qabs (strength r))%Qc) by qord. assert (HB' : (A + qabs (strength r) + asum (map strength l) <= B)%Qc) by qord. cbn [fl_agg_rows].
    assert (KL := within_mono A (A + qabs (strength r)) (g_lin g) ltac:(qord) WL). assert (KQ := within_mono A (A + qabs (strength r)) (g_quad g) ltac:(qord) WQ).
    unfold fl_agg_row. destruct (r_removed r) eqn:ER; [exact (IH _ (mkAgg _ _ _) A1 KL KQ HP' HG' HB')|]. rewrite Hc, Hs. cbv zeta.
    assert (ES : strength r = (c * s)%Qc) by (unfold strength; rewrite ER, Hc, Hs, !value_num; reflexivity). rewrite <- ES. rewrite (RO (strength r)) by (auto; qord).
    destruct (r_key r) as [x|x y].
    + destruct (within_add A x (strength r) (g_lin g) A0 WL HS) as [E1 E2]; [qord|]. rewrite <- E1. exact (IH _ (mkAgg _ _ _) A1 E2 KQ HP' HG' HB').
    + destruct (within_add A (x, y) (strength r) (g_quad g) A0 WQ HS) as [E1 E2]; [qord|]. rewrite <- E1. exact (IH _ (mkAgg _ _ _) A1 KL E2 HP' HG' HB').
Qed.
End Grid.
Lemma zero_drift k : drift 0 k = 0%Qc.
Proof. unfold drift. replace (1 + 0)%Qc with 1%Qc by ring. induction k as [|k IH]; [reflexivity|]. cbn [Qcpower]. rewrite Qcmult_1_l. exact IH. Qed.
Lemma id_relative : relative 0 (fun v => v).
Proof. split; [apply Qcle_refl|]. intros v. replace (v - v)%Qc with 0%Qc by ring. change (qabs 0) with 0%Qc. rewrite Qcmult_0_l. apply Qcle_refl. Qed.

(** ** C156 *)
(** No operation of to_physical rounds, and the physical model is one of those SawatabiSolver treats exactly (C150). *)
Theorem C156_physical : forall rnd m, double rnd -> plain_model m -> m_len m = length (m_rows m) -> fits_model m ->
  fl_to_physical rnd m = fl_to_physical (fun v => v) m /\ (forall p, fl_to_physical rnd m = Ok p -> fits p).
Proof.
  intros rnd m DB HP HL (e & HE & HK & HA). destruct (fits_grid rnd (e + 2) DB ltac:(lia)) as (G0 & GA & _ & RO & _). replace (e + 2 - 2)%Z with e in * by lia. set (G := fun v => exists k, v = (qz k * two_to e)%Qc) in *.
  rewrite asum_cons in HA. pose proof (qabs_nonneg (value [] (m_offset m))) as O0. pose proof (two_to_pos e) as T0.
  assert (HB : (qz (2 ^ 49) * two_to e <= qz (2 ^ 53) * two_to e)%Qc) by (apply Qcmult_le_compat_r; [apply qz_le; lia|qord]).
  assert (HGS : Forall G (map strength (m_rows m))) by (apply Forall_forall; intros c HI; apply HK; right; exact HI).
  pose proof HP as (_ & _ & HR).
  destruct (rows_exact rnd G (qz (2 ^ 53) * two_to e) GA RO (m_rows m) 0%Qc (mkAgg [] [] []) (Qcle_refl _) ltac:(constructor) ltac:(constructor) HR HGS) as [E1 E2]; [qord|].
  assert (EQ : fl_to_physical rnd m = fl_to_physical (fun v => v) m) by (unfold fl_to_physical, visited; rewrite HL, Nat.leb_refl, firstn_all; cbn [rbind]; rewrite E1; reflexivity).
  split; [exact EQ|]. intros p EP. rewrite EQ in EP. destruct (fl_follows _ _ _ _ id_relative HP HL EP) as (g & _ & _ & _ & EG & _ & PL & PQ & PO). destruct (fl_entries _ _ _ _ id_relative HP HL EP) as [_ ES].
  rewrite zero_drift in ES. rewrite <- E1 in EG. destruct (E2 g EG) as [F1 F2]. rewrite PO, value_num in *. exists e. split; [lia|]. split.
  - intros c [<-|HI]; [apply HK; left; reflexivity|]. apply in_app_or in HI. destruct HI as [HI|HI]; unfold dvals in HI; apply in_map_iff in HI; destruct HI as (x & <- & HX).
    + rewrite PL in HX. apply filter_In in HX. rewrite Forall_forall in F1. apply F1. tauto.
    + rewrite PQ in HX. apply filter_In in HX. rewrite Forall_forall in F2. apply F2. tauto.
  - unfold coefs. rewrite asum_cons, asum_app. assert (X : ((1 + 0) * asum (map strength (m_rows m)) = asum (map strength (m_rows m)))%Qc) by ring. rewrite X in ES. qord.
Qed.
(** Every energy SawatabiSolver reports is the energy of the logical model on the reported sample, to the last bit. *)
Theorem C156_answer : forall rnd order w m p ls o out s e c,
  double rnd -> plain_model m -> m_len m = length (m_rows m) -> fits_model m -> fl_to_physical rnd m = Ok p ->
  (forall l, Permutation (order l) l) -> world_ok w -> well_indexed p ls -> legal_states p o ->
  fl_result rnd order w p o = Ok out -> In (s, e, c) (out_set out) -> e = energy [] (value_of s) m.
Proof.
  intros rnd order w m p ls o out s e c DB HP HL HF EP OR WO HW HS H HI. destruct (C156_physical rnd m DB HP HL HF) as [EQ FP]. specialize (FP p EP).
  rewrite (C150_energy _ _ _ _ _ _ _ _ _ _ DB OR WO HW HS FP H HI). rewrite EQ in EP. pose proof (C155_energy 0 (fun v => v) m p (value_of s) id_relative HP HL EP) as B.
  assert (SV : small (value_of s)).
  { destruct (C152_answer _ _ _ _ _ _ _ WO HW HS H) as (_ & _ & LG & _). destruct (LG _ _ _ HI) as (_ & LV & _). intros l. unfold value_of. destruct (dget l s) as [z|] eqn:EZ; [|exists 0%Z; split; auto].
    exists z. split; auto. rewrite Forall_forall in LV. apply dget_in in EZ. apply (in_map snd) in EZ. specialize (LV z EZ). unfold spinz. destruct (p_mtype p); cbn in LV; intuition auto. }
  specialize (B SV). rewrite zero_drift, Qcmult_0_l in B. destruct (qabs_cases (energy_physical (value_of s) p - energy [] (value_of s) m)) as [[X E]|[X E]]; rewrite E in B; qord.
Qed.
(** The labels of a model to_physical builds in this arithmetic have indices: the declared ones that are in use. *)
Theorem C156_indexed : forall rnd m p, NoDup (all_labels (m_vars m)) -> fl_to_physical rnd m = Ok p -> covered m p -> exists ls, well_indexed p ls.
Proof.
  intros rnd m p ND E HC. unfold fl_to_physical in E. destruct (visited m) as [rows|]; [|discriminate]. cbn [rbind] in E. destruct (fl_agg_rows rnd (mkAgg [] [] []) rows) as [g|]; [|discriminate]. cbn [rbind] in E.
  destruct (m_offset m) as [off| | |]; try discriminate. injection E as E. pose proof (build_fields _ _ _ _ _ _ p E) as (_ & _ & _ & _ & _ & HI).
  set (f := fun x => negb (dmem x (m_deleted m)) && mem x (p_varset p)) in *. rewrite index_labels_eq in HI; auto; [|intros ? ? []..]. cbv zeta in HI. fold f in HI. set (ls := filter f (all_labels (m_vars m))) in *.
  assert (NL : NoDup ls) by (apply NoDup_filter; exact ND). injection HI as I1 I2. exists ls. split; [exact NL|]. split; [|split].
  - intros l i. rewrite I1. cbn [app]. rewrite combine_seq_get by auto. rewrite Nat.sub_0_r. intuition lia.
  - rewrite I2. cbn [app]. apply dvals_nth; [apply combine_keys; rewrite seq_length; auto|]. intros l i. rewrite combine_seq_get'. rewrite Nat.sub_0_r. intuition lia.
  - intros l. unfold ls. rewrite filter_In. unfold f. rewrite andb_true_iff, negb_true_iff, dmem_nin, mem_in. rewrite (varset_occurs _ _ _ _ _ _ p l E). split; [tauto|]. intros HO. destruct (HC l HO). auto.
Qed.
(** ** A model with halves *)
Definition halves : lmodel := fst ((
  variables (VName "x") (ShTuple [ShInt 2]) ;;;
  add_interaction env0 (TVar (spn "x" 0)) (NStr "") (AC (CNum (qfrac 1 2))) (num 3) AtNone TsNone ;;;
  add_interaction env0 (TVar (spn "x" 0)) (NStr "again") (num (-4)) (num 1) AtNone TsNone ;;;
  add_interaction env0 (TTuple [EVar (spn "x" 1); EVar (spn "x" 0)]) (NStr "") (num 3) (num 2) AtNone TsNone ;;;
  set_offset (CNum (qfrac 5 2))) (new_model Ising)).
Definition p_halves : physical := match fl_to_physical nearest halves with Ok p => p | Err _ => wide end.
Lemma halves_covered : covered halves p_halves.
Proof.
  assert (E2 : dkeys (p_linear p_halves) = ["x[0]"]) by (vm_compute; reflexivity). assert (E3 : dkeys (p_quad p_halves) = [("x[0]", "x[1]")]) by (vm_compute; reflexivity).
  assert (E4 : all_labels (m_vars halves) = ["x[0]"; "x[1]"]) by (vm_compute; reflexivity). assert (E5 : dkeys (m_deleted halves) = []) by (vm_compute; reflexivity).
  intros l. unfold occurs. rewrite E2, E3, E4, E5. cbn. intros [[<-|[]]|(a & b & [H|[]] & HL)]; [split; auto|]. injection H as <- <-. destruct HL; subst; auto.
Qed.
Example C156_hyps : double nearest /\ plain_model halves /\ m_len halves = length (m_rows halves) /\ fits_model halves /\ fl_to_physical nearest halves = Ok p_halves /\
  NoDup (all_labels (m_vars halves)) /\ covered halves p_halves /\ legal_states p_halves o53 /\
  exists out s e c, fl_result nearest (@rev Qc) world0 p_halves o53 = Ok out /\ In (s, e, c) (out_set out) /\ e <> 0%Qc.
Proof.
  split; [apply nearest_double|]. split; [split; [reflexivity|split; [eexists; vm_compute; reflexivity|repeat constructor; eexists; vm_compute; reflexivity]]|]. split; [reflexivity|]. split; [|split; [|split; [|split; [apply halves_covered|split]]]].
  - exists (-1)%Z. split; [lia|]. split; [|vm_compute; discriminate].
    assert (K : value [] (m_offset halves) :: map strength (m_rows halves) = map (fun k => (qz k * two_to (-1))%Qc) [5; 3; -8; 12]%Z).
    { assert (MT : forall l l', map this l = map this l' -> l = l').
      { induction l as [|a l IH]; intros [|b l'] E; try discriminate; auto. cbn [map] in E. injection E as E1 E2. f_equal; auto. apply Qc_is_canon. rewrite E1. reflexivity. }
      apply MT. vm_compute. reflexivity. }
    rewrite K. intros c HI. apply in_map_iff in HI. destruct HI as (k & <- & _). eauto.
  - unfold p_halves. destruct (fl_to_physical nearest halves) as [p|] eqn:E; auto. vm_compute in E. discriminate.
  - apply nodupb_ok. reflexivity.
  - intros s l z [<-|[]] _ H. cbn in H. replace (p_mtype p_halves) with Ising by (vm_compute; reflexivity). cbn [legal]. destruct (String.eqb l "x[0]"); [inversion H; auto|]. destruct (String.eqb l "x[1]"); [inversion H; auto|discriminate].
  - assert (B : match fl_result nearest (@rev Qc) world0 p_halves o53 with Ok out => match out_set out with [(s, e, c)] => negb (Qc_eqb e 0) | _ => false end | Err _ => false end = true) by (vm_compute; reflexivity).
    destruct (fl_result nearest (@rev Qc) world0 p_halves o53) as [out|]; [|discriminate]. destruct (out_set out) as [|[[s e] c] [|]] eqn:ES; try discriminate.
    exists out, s, e, c. split; [reflexivity|]. split; [rewrite ES; left; reflexivity|]. intros HE. apply negb_true_iff in B. unfold Qc_eqb in B. destruct (Qc_eq_dec e _) as [|NE]; [discriminate|]. contradiction.
Qed.
Print Assumptions C156_physical.
Print Assumptions C156_answer.
Print Assumptions C156_indexed.
