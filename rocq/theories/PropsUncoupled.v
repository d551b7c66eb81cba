(** * PropsUncoupled: C136 a model without couplings is solved exactly by any annealing whose last sweep is cold. *)
From Coq Require Import Permutation.
From Verif Require Import PyBase PyLemmas Numbers Constraint LogicalModel Spec Physical LogicalProofs PhysicalProofs ToPhysicalProofs BqmProofs Solver SolverSpec SolverProofs PropsSolver PropsPhysical PropsAlike PropsReach Samples PropsReads PropsDetermined.
Local Open Scope string_scope.
Local Open Scope list_scope.

(** ** Energies without couplings *)
Lemma lin_assign s l v d : NoDup (dkeys d) ->
  qsum (map (fun kv : string * Qc => snd kv * assign s l v (fst kv)) d)%Qc = (qsum (map (fun kv => snd kv * s (fst kv)) d) + match dget l d with Some h => h * (v - s l) | None => 0 end)%Qc.
Proof.
  induction d as [|[k h] d IH]; intros N; [cbn; ring|]. cbn [dkeys map fst] in N. inversion N as [|? ? N1 N2]; subst. cbn [map qsum fst snd dget]. rewrite IH by exact N2.
  unfold assign at 1. rewrite String.eqb_sym. change (eqb l k) with (String.eqb l k). destruct (String.eqb_spec l k) as [->|NE]; [|ring].
  assert (X : dget k d = None) by (apply dget_none; exact N1). rewrite X. ring.
Qed.
Lemma energy_assign p s l v : NoDup (dkeys (p_linear p)) -> p_quad p = [] ->
  energy_physical (assign s l v) p = (energy_physical s p - match dget l (p_linear p) with Some h => h * (v - s l) | None => 0 end)%Qc.
Proof. intros N Q. unfold energy_physical. rewrite Q, lin_assign by exact N. cbn. ring. Qed.
(** An assignment that no change of one variable improves has the least energy. *)
Lemma settled_best p s s' : NoDup (dkeys (p_linear p)) -> p_quad p = [] ->
  (forall l, occurs p l -> s' l = s l \/ s' l = toggled (p_mtype p) (s l)) ->
  (forall l, occurs p l -> (energy_physical s p <= energy_physical (assign s l (toggled (p_mtype p) (s l))) p)%Qc) -> (energy_physical s p <= energy_physical s' p)%Qc.
Proof.
  intros N Q HV HM. assert (HH : forall l h, In (l, h) (p_linear p) -> (h * s' l <= h * s l)%Qc).
  { intros l h HI. assert (OC : occurs p l) by (left; apply (in_map fst) in HI; exact HI). assert (D : dget l (p_linear p) = Some h) by (apply in_dget; auto).
    destruct (HV l OC) as [-> | ->]; [apply Qcle_refl|]. specialize (HM l OC). rewrite energy_assign, D in HM by auto.
    apply Qcle_minus_iff in HM. apply Qcle_minus_iff. replace (h * s l + - (h * toggled (p_mtype p) (s l)))%Qc with (energy_physical s p - h * (toggled (p_mtype p) (s l) - s l) + - energy_physical s p)%Qc by ring. exact HM. }
  assert (HS : (qsum (map (fun kv : string * Qc => snd kv * s' (fst kv)) (p_linear p)) <= qsum (map (fun kv => snd kv * s (fst kv)) (p_linear p)))%Qc).
  { revert HH. clear. induction (p_linear p) as [|[l h] d IH]; intros HH; [apply Qcle_refl|]. cbn [map qsum fst snd]. apply Qcplus_le_compat; [apply HH; left; reflexivity|apply IH; intros k g HI; apply HH; right; exact HI]. }
  unfold energy_physical. rewrite Q. cbn [map qsum]. apply Qcle_minus_iff in HS. apply Qcle_minus_iff.
  match goal with |- (0 <= ?a)%Qc => replace a with (qsum (map (fun kv : string * Qc => snd kv * s (fst kv)) (p_linear p)) + - qsum (map (fun kv : string * Qc => snd kv * s' (fst kv)) (p_linear p)))%Qc by ring end. exact HS.
Qed.

(** ** A cold sweep settles every variable *)
Definition independent (E : list Z -> Qc) (n : nat) : Prop :=
  forall x y i, length x = n -> length y = n -> Forall spinz x -> Forall spinz y -> i < n -> nth_error x i = nth_error y i -> (E (flipped i x) - E x = E (flipped i y) - E y)%Qc.
Lemma flipped_twice i x : flipped i (flipped i x) = x.
Proof. revert i. induction x as [|z x IH]; intros [|i]; cbn; auto; [rewrite Z.opp_involutive; reflexivity|f_equal; apply IH]. Qed.
Lemma flipped_other i j x : i <> j -> nth_error (flipped i x) j = nth_error x j.
Proof. revert i j. induction x as [|z x IH]; intros [|i] [|j] H; cbn; auto; [contradiction|apply IH; intros ->; apply H; reflexivity]. Qed.
Lemma flipped_spins i x : Forall spinz x -> Forall spinz (flipped i x).
Proof. intros H. apply flipped_entries; auto. apply spin_opp. Qed.
Lemma flipped_length i x : length (flipped i x) = length x.
Proof. unfold flipped. apply upd_nth_length. Qed.
Lemma gain_le E x i : (E (flipped i x) <= E x)%Qc -> (0 <= E (flipped i (flipped i x)) - E (flipped i x))%Qc.
Proof. intros H. rewrite flipped_twice. apply Qcle_minus_iff in H. exact H. Qed.
Lemma visits_settle E bz t rs n x u a picks x' u' a' : (forall d pr, bz d t = Ok pr -> (pr <= 0)%Qc) -> Forall (fun v => (0 <= v)%Qc) rs -> independent E n ->
  visits E bz t rs x u a picks x' u' a' -> length x = n -> Forall spinz x -> NoDup picks -> (forall i, In i picks -> i < n) ->
  length x' = n /\ Forall spinz x' /\ (forall i, ~ In i picks -> nth_error x' i = nth_error x i) /\ (forall i, In i picks -> (0 <= E (flipped i x') - E x')%Qc).
Proof.
  intros HB HR HI V. induction V as [x u a|x u a i r x' u' a' LE V IH|x u a i r x' u' a' pr v LT EB EV VP V IH|x u a i r x' u' a' pr v LT EB EV VP V IH]; intros LX SX ND HN.
  - split; auto. split; auto. split; auto. intros i [].
  - inversion ND as [|? ? N1 N2]; subst. destruct IH as (A & B & C & D); auto; [rewrite flipped_length; reflexivity|apply flipped_spins; exact SX|intros j Hj; apply HN; right; exact Hj|].
    split; auto. split; auto. split.
    + intros j Hj. rewrite C by (intros X; apply Hj; right; exact X). apply flipped_other. intros ->. apply Hj. left. reflexivity.
    + intros j [<-|Hj]; [|apply D; exact Hj]. rewrite (HI x' (flipped i x) i); auto; [apply gain_le; exact LE|rewrite flipped_length; reflexivity|apply flipped_spins; exact SX|apply HN; left; reflexivity].
  - exfalso. apply HB in EB. apply nth_error_In in EV. rewrite Forall_forall in HR. specialize (HR v EV). apply (Qclt_not_le _ _ VP). apply Qcle_trans with 0%Qc; auto.
  - inversion ND as [|? ? N1 N2]; subst. destruct IH as (A & B & C & D); auto; [intros j Hj; apply HN; right; exact Hj|].
    split; auto. split; auto. split.
    + intros j Hj. apply C. intros X. apply Hj. right. exact X.
    + intros j [<-|Hj]; [|apply D; exact Hj]. rewrite (HI x' x i); auto; [|apply HN; left; reflexivity]. apply Qclt_le_weak in LT. apply Qcle_minus_iff in LT. exact LT.
Qed.
Lemma annealed_settle E bz rs n x u plan t picks es acc x' u' : (forall d pr, bz d t = Ok pr -> (pr <= 0)%Qc) -> Forall (fun v => (0 <= v)%Qc) rs -> independent E n ->
  annealed E bz rs x u (plan ++ [(t, picks)]) es acc x' u' -> length x = n -> Forall spinz x -> Permutation picks (seq 0 n) ->
  forall i, i < n -> (0 <= E (flipped i x') - E x')%Qc.
Proof.
  intros HB HR HI AN. remember (plan ++ [(t, picks)]) as pl eqn:EP. revert plan EP. induction AN as [x u|x u t' p' pl x1 u1 a es acc x' u' V AN IH]; intros plan EP LX SX PM i LI; [destruct plan; discriminate|].
  destruct plan as [|tp plan]; cbn [app] in EP.
  - injection EP as -> -> ->. inversion AN; subst. destruct (visits_settle E bz t rs (length x) x u 0 picks x' u' a HB HR HI V) as (_ & _ & _ & H); auto.
    + apply (Permutation_NoDup (Permutation_sym PM)), seq_NoDup.
    + intros j Hj. apply (Permutation_in _ PM) in Hj. apply in_seq in Hj. lia.
    + apply H. apply (Permutation_in _ (Permutation_sym PM)). apply in_seq. lia.
  - injection EP as _ E2. apply (IH plan); auto.
    + rewrite <- LX. clear - V. induction V; auto; rewrite ?flipped_length in *; auto.
    + eapply visits_entries; [apply spin_opp|exact V|exact SX].
Qed.

(** ** C136 *)
Lemma uncoupled_independent p ls : well_indexed p ls -> NoDup (dkeys (p_linear p)) -> p_quad p = [] -> independent (vector_energy p) (length ls).
Proof.
  intros HW N Q x y i LX LY SX SY LI HE. destruct (nth_error ls i) as [l|] eqn:EL; [|apply nth_error_None in EL; lia].
  rewrite !(flipped_sample p ls _ i l), !(vector_sample p ls), !energy_assign by auto.
  assert (HV : value_of (convert_sample (is_ising (p_mtype p)) (combine ls x)) l = value_of (convert_sample (is_ising (p_mtype p)) (combine ls y)) l).
  { rewrite !convert_combine by auto. destruct (nth_error x i) as [z|] eqn:EZ; [|apply nth_error_None in EZ; lia]. destruct HW as (ND & _).
    rewrite (value_combine ls _ l i (spin_to (is_ising (p_mtype p)) z)), (value_combine ls (map _ y) l i (spin_to (is_ising (p_mtype p)) z)); auto;
      rewrite ?map_length, ?nth_error_map, ?EZ, <- ?HE; auto. }
  rewrite HV. ring.
Qed.
(** The energies of a read whose last sweep is cold (Boltzmann factors of 0) are least. *)
Theorem C136_read : forall w p ls o out r h t s,
  world_ok w -> well_indexed p ls -> legal_states p o -> result w p o = Ok out -> In r (out_reads out) ->
  NoDup (dkeys (p_linear p)) -> p_quad p = [] ->
  d_thist r = h ++ [t] -> (forall d pr, w_boltz w d t = Ok pr -> (pr <= 0)%Qc) ->
  legal_assignment (p_mtype p) s -> (d_energy r <= energy_physical s p)%Qc.
Proof.
  intros w p ls o out r h t s WO HW HL H HR N Q HT HB HS. destruct (solve_reads _ _ _ _ _ HW WO H) as (g & HG & HC & HF & _).
  destruct (Forall2_in_r _ _ _ _ HF HR) as (s0 & I0 & RS).
  destruct (rd_run _ _ _ _ _ _ RS) as (x0 & plan & es & acc & x & rs & u & A1 & A2 & A3 & A4 & A5 & A6 & A7 & A8 & AN & D1 & D2 & D3 & D4 & D5).
  assert (S0 : Forall spinz x0) by (eapply start_spins; eauto). assert (SX : Forall spinz x) by (eapply annealed_entries; [apply spin_opp|exact AN|exact S0]).
  assert (LX : length x = length ls) by auto.
  destruct plan as [|tp plan] using rev_ind; [cbn in D4; rewrite D4 in HT; destruct h; discriminate|]. clear IHplan. destruct tp as [t' picks].
  rewrite D4, map_app in HT. cbn [map fst] in HT. apply app_inj_tail in HT. destruct HT as [_ ->].
  apply Forall_app in A7. destruct A7 as [_ A7]. inversion A7 as [|? ? PM _]; subst. cbn [snd] in PM.
  assert (R0 : Forall (fun v => (0 <= v)%Qc) rs) by (eapply Forall_impl; [|exact A6]; intros v [Hv _]; exact Hv).
  assert (HM := annealed_settle _ _ _ (length ls) _ _ _ _ _ _ _ _ _ HB R0 (uncoupled_independent p ls HW N Q) AN A1 S0 PM).
  rewrite D2, (vector_sample p ls x) by auto. apply settled_best; auto.
  - intros l OC. assert (OC' := OC). apply HW in OC'. destruct (In_nth_error _ _ OC') as [i EI].
    assert (LI : i < length ls) by (apply nth_error_Some; congruence). destruct (nth_error x i) as [z|] eqn:EZ; [|apply nth_error_None in EZ; lia].
    rewrite convert_combine by auto. rewrite (value_combine ls _ l i (spin_to (is_ising (p_mtype p)) z)); auto; [|apply HW|rewrite map_length; auto|rewrite nth_error_map, EZ; reflexivity].
    assert (ZS : spinz z) by (rewrite Forall_forall in SX; apply SX; eapply nth_error_In; eauto). destruct (HS l) as (y & -> & LY).
    destruct (p_mtype p); cbn [is_ising spin_to legal toggled] in *; destruct ZS as [-> | ->]; destruct LY as [-> | ->]; cbn; auto; right; apply Qc_is_canon; reflexivity.
  - intros l OC. apply HW in OC. destruct (In_nth_error _ _ OC) as [i EI]. assert (LI : i < length ls) by (apply nth_error_Some; congruence).
    specialize (HM i LI). rewrite (flipped_sample p ls x i l), (vector_sample p ls x) in HM by auto. apply Qcle_minus_iff. exact HM.
Qed.
(** Of the sample set: every sample has the least energy of all, when annealing is forward and the last sweep is cold. *)
Theorem C136_set : forall w p ls o out s0 e c s,
  world_ok w -> well_indexed p ls -> legal_states p o -> result w p o = Ok out -> In (s0, e, c) (out_set out) ->
  NoDup (dkeys (p_linear p)) -> p_quad p = [] ->
  o_reverse o = RNone -> (0 < o_sweeps o)%Z -> (forall d pr, w_boltz w d (o_temp o * o_rate o ^ (Z.to_nat (o_sweeps o) - 1))%Qc = Ok pr -> (pr <= 0)%Qc) ->
  legal_assignment (p_mtype p) s -> e = energy_physical (value_of s0) p /\ (e <= energy_physical s p)%Qc.
Proof.
  intros w p ls o out s0 e c s WO HW HL H HI N Q RV SW HB HS. destruct (solve_rows _ _ _ _ _ HW WO HL H) as (xs & ys & LX & NY & FY & F & SM & G & C).
  destruct (Forall2_in_l _ _ _ _ F HI) as (y & Hy & A & B & CO & P). cbn [fst snd] in *. rewrite Forall_forall in FY. destruct (FY y Hy) as [LY SY].
  split; [rewrite A, B; apply vector_sample; auto|].
  assert (HX : In y xs) by (apply (count_occ_In (list_eq_dec Z.eq_dec)); lia). destruct (Forall2_in_r _ _ _ _ G HX) as (r & HR & D1 & D2). rewrite B, <- D2.
  destruct (Z.to_nat (o_sweeps o)) as [|k] eqn:EK; [lia|].
  apply (C136_read w p ls o out r (map (fun k => o_temp o * o_rate o ^ k)%Qc (seq 0 k)) (o_temp o * o_rate o ^ k)%Qc); auto.
  - rewrite (C43_forward w p ls o out r) by auto. rewrite EK, seq_S, map_app. reflexivity.
  - cbn [Nat.sub] in HB. rewrite Nat.sub_0_r in HB. exact HB.
Qed.
(** Of logical models: without constraints, with interactions of single variables only. *)
Lemma singles_quad fd l a b : (forall r, In r l -> active r -> exists k, r_key r = K1 k) -> quad_total fd l a b = 0%Qc.
Proof.
  unfold quad_total. induction l as [|r l IH]; intros H; [reflexivity|]. cbn [map qsum]. rewrite IH by (intros r' HI; apply H; right; exact HI).
  destruct (r_removed r) eqn:E; [ring|]. destruct (H r (or_introl eq_refl) E) as [k ->]. ring.
Qed.
Theorem C136_model : forall ev evs fd m m' p w o out s0 e c s,
  m_len m = length (m_rows m) -> NoDup (all_labels (m_vars m)) -> m_constrs m = [] -> (forall r, In r (m_rows m) -> active r -> exists k, r_key r = K1 k) ->
  to_physical ev evs fd m = (m', Ok p) -> covered m p ->
  world_ok w -> legal_states p o -> result w p o = Ok out -> In (s0, e, c) (out_set out) ->
  o_reverse o = RNone -> (0 < o_sweeps o)%Z -> (forall d pr, w_boltz w d (o_temp o * o_rate o ^ (Z.to_nat (o_sweeps o) - 1))%Qc = Ok pr -> (pr <= 0)%Qc) ->
  legal_assignment (m_mtype m) s -> e = energy fd (value_of s0) m /\ (e <= energy fd s m)%Qc.
Proof.
  intros ev evs fd m m' p w o out s0 e c s HL HN HC HK E CV WO LS H HI RV SW HB HS. destruct (C67_indexed _ _ _ _ _ _ HL HN E CV) as [ls HW].
  destruct (C10_coefficients _ _ _ _ _ _ HL E) as (cms & EC & N1 & N2 & _ & _ & Q1 & _). rewrite HC in EC. cbn in EC. injection EC as <-. cbn [flat_map] in Q1. rewrite app_nil_r in Q1.
  assert (QE : p_quad p = []).
  { destruct (p_quad p) as [|[[a b] q] d] eqn:EQ; [reflexivity|]. exfalso. specialize (Q1 a b (singles_quad fd (m_rows m) a b HK)). apply dget_none in Q1. apply Q1. left. reflexivity. }
  assert (MT : p_mtype p = m_mtype m).
  { destruct (to_physical_ok _ _ _ _ _ _ HL E) as (cms' & _ & _ & EP). subst p. unfold phys, build_physical; destruct (index_labels _ _ _ _ _ _); reflexivity. }
  rewrite <- MT in HS. destruct (C136_set w p ls o out s0 e c s WO HW LS H HI N1 QE RV SW HB HS) as [A B].
  rewrite (C09_no_constraints ev evs fd m m' p HL HC E) in A, B. auto.
Qed.

(** ** The hypotheses are met *)
(** Three spins, two of them with a field (one entered in two interactions); one sweep from given states. *)
Definition fields_ops : LM unit :=
  variables (VName "x") (ShTuple [ShInt 3]) ;;;
  add_interaction env0 (TVar (spn "x" 0)) (NStr "") (num 2) (num 1) AtNone TsNone ;;;
  add_interaction env0 (TVar (spn "x" 1)) (NStr "") (num (-3)) (num 2) AtNone TsNone ;;;
  add_interaction env0 (TVar (spn "x" 1)) (NStr "more") (num 1) (num 1) AtNone TsNone ;;;
  set_offset (CNum (qz 5)).
Definition fields_model : lmodel := fst (fields_ops (new_model Ising)).
Definition fields_start : dict string Z := [("x[0]", (-1)%Z); ("x[1]", 1%Z)].
Definition fields_options : options := mkOptions 1 1 (qfrac 1 2) (qz 10) (Some [fields_start]) RNone "sequential" None.
Definition fields_physical : physical := match snd (to_physical env0 evs0 feed0 fields_model) with Ok p => p | Err _ => phys2 Ising end.
Example C136_hyps : exists m' out s0 e c, m_len fields_model = length (m_rows fields_model) /\ NoDup (all_labels (m_vars fields_model)) /\ m_constrs fields_model = [] /\
  (forall r, In r (m_rows fields_model) -> active r -> exists k, r_key r = K1 k) /\ to_physical env0 evs0 feed0 fields_model = (m', Ok fields_physical) /\ covered fields_model fields_physical /\
  world_ok world0 /\ legal_states fields_physical fields_options /\ result world0 fields_physical fields_options = Ok out /\ In (s0, e, c) (out_set out) /\
  o_reverse fields_options = RNone /\ (0 < o_sweeps fields_options)%Z /\ (forall d t pr, w_boltz world0 d t = Ok pr -> (pr <= 0)%Qc) /\ e <> energy feed0 (value_of fields_start) fields_model.
Proof.
  assert (C : match result world0 fields_physical fields_options with Ok out => match out_set out with (s, e, c) :: _ => if Qc_eq_dec e (energy feed0 (value_of fields_start) fields_model) then false else true | [] => false end | Err _ => false end = true) by (vm_compute; reflexivity).
  destruct (result world0 fields_physical fields_options) as [out|] eqn:ER; [|discriminate C]. destruct (out_set out) as [|[[s e] c] rest] eqn:EO; [discriminate C|].
  destruct (Qc_eq_dec e (energy feed0 (value_of fields_start) fields_model)) as [|NE]; [discriminate C|].
  exists (fst (to_physical env0 evs0 feed0 fields_model)), out, s, e, c.
  split; [reflexivity|]. split; [apply nodupb_ok; vm_compute; reflexivity|]. split; [reflexivity|].
  split. { intros r HI _. change (In r (m_rows fields_model)) in HI. vm_compute in HI. destruct HI as [<-|[<-|[<-|[]]]]; eexists; reflexivity. }
  split. { unfold fields_physical. assert (X : okb (to_physical env0 evs0 feed0 fields_model) = true) by (vm_compute; reflexivity). destruct (to_physical env0 evs0 feed0 fields_model) as [m' [p|x]]; [reflexivity|discriminate X]. }
  split. { intros l OC. assert (EL : dkeys (p_linear fields_physical) = ["x[0]"; "x[1]"]) by (vm_compute; reflexivity). assert (EQ : dkeys (p_quad fields_physical) = []) by (vm_compute; reflexivity).
    unfold occurs in OC. rewrite EL, EQ in OC. destruct OC as [[<-|[<-|[]]]|(a & b & [] & _)]; vm_compute; intuition discriminate. }
  split; [apply world0_ok|]. split.
  { intros st l z HS OC HD. destruct HS as [<-|[]]. assert (MT : p_mtype fields_physical = Ising) by (vm_compute; reflexivity). rewrite MT. cbn [fields_start dget] in HD.
    repeat match type of HD with context [if ?b then _ else _] => destruct b end; inversion HD; subst; cbn; auto. }
  split; [reflexivity|]. split; [rewrite EO; left; reflexivity|]. split; [reflexivity|]. split; [reflexivity|]. split; [intros d t pr HP; inversion HP; apply Qcle_refl|exact NE].
Qed.
Print Assumptions C136_read.
Print Assumptions C136_set.
Print Assumptions C136_model.
