(** * PropsExactConvert: what to_ising and to_qubo do to the energy, for any
    scales (C20), and exactly when they keep the energy differences (C19). *)
From Verif Require Import PyBase PyLemmas Constraint LogicalModel Spec LogicalProofs EnergyProofs ConvertProofs
  ConstraintProofs MergeProofs PhysicalProofs ToPhysicalProofs InteractionProofs Samples PropsPhysical PropsInteractions PropsVariables
  PropsConvert.
Open Scope list_scope.

(** The interactions that are not removed. *)
Definition live_rows (m : lmodel) : list row := filter (fun r => negb (r_removed r)) (m_rows m).

(** How much one interaction of coefficient c and scale k contributes to the
    difference between the energies after and before: with scale 1 it does not
    depend on the assignment. *)
Definition excess_ising (fd : feed) (s : assignment) (r : row) : Qc :=
  let c := value fd (r_coef r) in let k := value fd (r_scale r) in
  match r_key r with
  | K1 _ => (qfrac 1 2 * (c * (1 + k)))%Qc
  | K2 u v => (qfrac 1 4 * (c * (1 + k)) + qfrac 1 4 * (c * (k - 1) * (s u + s v)))%Qc
  end.
Definition excess_qubo (fd : feed) (x : assignment) (r : row) : Qc :=
  let c := value fd (r_coef r) in let k := value fd (r_scale r) in
  match r_key r with
  | K1 _ => (- (c * (1 + k)))%Qc
  | K2 u v => (c * (1 + k) + qz 2 * (c * (1 - k) * (x u + x v)))%Qc
  end.

Lemma excess_sum fd s (al be ha ja hb jb jc : Qc) (f : row -> Qc) l :
  (forall r, r_removed r = false -> f r =
     let c := value fd (r_coef r) in let k := value fd (r_scale r) in
     match r_key r with
     | K1 u => c * k * (al * s u + be) - ha * (c * k * s u) + hb * c
     | K2 u v => c * k * ((al * s u + be) * (al * s v + be)) - ja * (c * k * (s u * s v)) - jb * (c * (s u + s v)) + jc * c
     end)%Qc ->
  qsum (map f (filter (fun r => negb (r_removed r)) l)) =
  (csum fd (fun v => al * s v + be) l - (ha * lin fd s l + ja * quad fd s l) - jb * P fd s l + hb * S1 fd l + jc * S2 fd l)%Qc.
Proof.
  intros Hf. unfold csum, lin, quad, S1, S2, P. induction l as [|r l IH]; [cbn; ring|].
  specialize (Hf r). cbn [filter map qsum]. unfold body1_active, body2_active in *.
  destruct (r_removed r) eqn:ER; cbn [negb andb].
  - rewrite IH. assert (Ec : forall t, contribution fd t r = 0%Qc) by (intros t; unfold contribution; now rewrite ER).
    rewrite Ec. ring.
  - assert (Ec : forall t, contribution fd t r = (value fd (r_coef r) * value fd (r_scale r) * monomial t (r_key r))%Qc)
      by (intros t; unfold contribution; now rewrite ER).
    destruct (r_key r) eqn:EK; cbn [map qsum]; rewrite IH, (Hf eq_refl); cbv zeta; rewrite !Ec, ?EK; cbn [monomial pair_sum]; ring.
Qed.

(** ** C20 *)
Theorem C20_exact_effect : forall ev m m' fd, well_formed m -> resolves fd (m_offset m) ->
  (m_mtype m = Qubo -> to_ising ev m = (m', Ok tt) ->
     forall s, energy fd s m' = (energy fd (to_binary s) m + qsum (map (excess_ising fd s) (live_rows m)))%Qc) /\
  (m_mtype m = Ising -> to_qubo ev m = (m', Ok tt) ->
     forall x, energy fd x m' = (energy fd (to_spin x) m + qsum (map (excess_qubo fd x) (live_rows m)))%Qc).
Proof.
  intros ev m m' fd HW HR. split; intros HT E s.
  - unfold to_ising in E.
    destruct (convert_ok _ _ _ _ _ _ _ _ _ _ E) as (ex & off & vs & R & O & F & _ & ND & HX & HC & HV);
      [rewrite HT; auto|auto|].
    destruct (HV fd HR) as (_ & V & _ & T).
    rewrite (energy_ext fd (to_binary s) (fun v => qfrac 1 2 * s v + qfrac 1 2)%Qc).
    2: { intros l. unfold to_binary. unfold Qcdiv. replace (/ qz 2)%Qc with (qfrac 1 2) by (apply Qc_is_canon; reflexivity). ring. }
    unfold live_rows.
    rewrite (excess_sum fd s (qfrac 1 2) (qfrac 1 2) (qfrac 1 2) (qfrac 1 4) (qfrac 1 2) (qfrac 1 4) (qfrac 1 4)).
    + rewrite !energy_csum, R, csum_app, csum_conv, T, O, V. ring.
    + intros r _. unfold excess_ising. cbv zeta.
      replace (qfrac 1 4) with (qfrac 1 2 * qfrac 1 2)%Qc by (apply Qc_is_canon; reflexivity).
      destruct (r_key r); ring.
  - unfold to_qubo in E.
    destruct (convert_ok _ _ _ _ _ _ _ _ _ _ E) as (ex & off & vs & R & O & F & _ & ND & HX & HC & HV);
      [rewrite HT; auto|auto|].
    destruct (HV fd HR) as (_ & V & _ & T).
    rewrite (energy_ext fd (to_spin s) (fun v => qz 2 * s v + qz (-1))%Qc).
    2: { intros l. unfold to_spin. replace (qz (-1)) with (- (1))%Qc by (apply Qc_is_canon; reflexivity). ring. }
    unfold live_rows.
    rewrite (excess_sum fd s (qz 2) (qz (-1)) (qz 2) (qz 4) (qz (-1)) (qz (-2)) (qz 1)).
    + rewrite !energy_csum, R, csum_app, csum_conv, T, O, V. ring.
    + intros r _. unfold excess_qubo. cbv zeta.
      replace (qz (-1)) with (- (1))%Qc by (apply Qc_is_canon; reflexivity).
      replace (qz (-2)) with (- qz 2)%Qc by (apply Qc_is_canon; reflexivity).
      replace (qz 4) with (qz 2 * qz 2)%Qc by (apply Qc_is_canon; reflexivity).
      replace (qz 1) with 1%Qc by (apply Qc_is_canon; reflexivity).
      destruct (r_key r); rewrite ?qc2; ring.
Qed.

(** ** C19: exactly which scales keep the energy differences *)
(** The sum, over the live interactions between l and another variable, of
    coefficient * (scale - 1). *)
Definition at_label (l k : string) : Qc := if String.eqb k l then 1%Qc else 0%Qc.
Definition imbalance (fd : feed) (m : lmodel) (l : string) : Qc :=
  qsum (map (fun r => match r_key r with
                      | K1 _ => 0%Qc
                      | K2 u v => (value fd (r_coef r) * (value fd (r_scale r) - 1) * (at_label l u + at_label l v))%Qc
                      end) (live_rows m)).
Definition tilt (fd : feed) (m : lmodel) (s : assignment) : Qc :=
  qsum (map (fun r => match r_key r with
                      | K1 _ => 0%Qc
                      | K2 u v => (value fd (r_coef r) * (value fd (r_scale r) - 1) * (s u + s v))%Qc
                      end) (live_rows m)).
Definition level (fd : feed) (m : lmodel) (a b : Qc) : Qc :=
  qsum (map (fun r => match r_key r with
                      | K1 _ => (a * (value fd (r_coef r) * (1 + value fd (r_scale r))))%Qc
                      | K2 _ _ => (b * (value fd (r_coef r) * (1 + value fd (r_scale r))))%Qc
                      end) (live_rows m)).
Lemma excess_ising_parts fd m s :
  qsum (map (excess_ising fd s) (live_rows m)) = (level fd m (qfrac 1 2) (qfrac 1 4) + qfrac 1 4 * tilt fd m s)%Qc.
Proof.
  unfold level, tilt. induction (live_rows m) as [|r l IH]; cbn [map qsum]; [ring|].
  rewrite IH. unfold excess_ising. cbv zeta. destruct (r_key r); ring.
Qed.
Lemma excess_qubo_parts fd m x :
  qsum (map (excess_qubo fd x) (live_rows m)) = (level fd m (- (1)) 1 - qz 2 * tilt fd m x)%Qc.
Proof.
  unfold level, tilt. induction (live_rows m) as [|r l IH]; cbn [map qsum]; [ring|].
  rewrite IH. unfold excess_qubo. cbv zeta. destruct (r_key r); ring.
Qed.

(** Raising one variable by d moves the sum by d times its imbalance. *)
Lemma tilt_step fd m s l d :
  tilt fd m (fun k => s k + d * at_label l k)%Qc = (tilt fd m s + d * imbalance fd m l)%Qc.
Proof.
  unfold tilt, imbalance. induction (live_rows m) as [|r rs IH]; cbn [map qsum]; [ring|].
  rewrite IH. destruct (r_key r); ring.
Qed.
(** It is the sum over the labels. *)
Lemma pick (s : assignment) (u : string) ls : NoDup ls -> In u ls ->
  qsum (map (fun l => s l * at_label l u)%Qc ls) = s u.
Proof.
  induction 1 as [|l ls Hn Hd IH]; [intros []|]. intros Hi. cbn [map qsum]. unfold at_label at 1.
  destruct (String.eqb_spec u l) as [-> |Ne].
  - assert (Z : qsum (map (fun k => s k * at_label k l)%Qc ls) = 0%Qc).
    { clear IH Hi Hd. induction ls as [|k ls IH]; [reflexivity|]. cbn [map qsum]. rewrite IH by (intros C; apply Hn; now right).
      unfold at_label. destruct (String.eqb_spec l k) as [-> |]; [exfalso; apply Hn; now left | ring]. }
    rewrite Z. ring.
  - rewrite IH; [ring|]. destruct Hi as [-> |Hi]; [congruence | exact Hi].
Qed.
Lemma tilt_labels fd m s ls : NoDup ls ->
  (forall r u v, In r (live_rows m) -> r_key r = K2 u v -> In u ls /\ In v ls) ->
  tilt fd m s = qsum (map (fun l => s l * imbalance fd m l)%Qc ls).
Proof.
  intros Hd. unfold tilt, imbalance. induction (live_rows m) as [|r rs IH]; intros Hin; cbn [map qsum].
  - symmetry. clear. induction ls as [|l ls IH]; [reflexivity|]. cbn [map qsum]. rewrite IH. ring.
  - rewrite IH by (intros r' u v Hr; apply Hin; now right).
    pose proof (Hin r) as Hr. destruct (r_key r) as [k|u v].
    + transitivity (0 + qsum (map (fun l => s l *
         qsum (map (fun r => match r_key r with K1 _ => 0 | K2 u v =>
            value fd (r_coef r) * (value fd (r_scale r) - 1) * (at_label l u + at_label l v) end) rs)) ls))%Qc; [ring|].
      rewrite Qcplus_0_l. apply qsum_map_ext. intros l _. ring.
    + destruct (Hr u v (or_introl eq_refl) eq_refl) as [Hu Hv].
      rewrite <- (pick s u ls Hd Hu), <- (pick s v ls Hd Hv).
      rewrite <- qsum_map_add, <- qsum_map_mul, <- qsum_map_add. apply qsum_map_ext. intros l _. ring.
Qed.
Lemma tilt_zero fd m : (forall l, imbalance fd m l = 0%Qc) -> forall s, tilt fd m s = 0%Qc.
Proof.
  intros H s.
  set (ls := nodup string_dec (flat_map (fun r => match r_key r with K1 _ => [] | K2 u v => [u; v] end) (live_rows m))).
  rewrite (tilt_labels fd m s ls).
  - apply qsum_map_zero. intros l _. rewrite H. ring.
  - apply NoDup_nodup.
  - intros r u v Hr Ek. split; apply nodup_In; apply in_flat_map; exists r; (split; [exact Hr|]); rewrite Ek; [now left | right; now left].
Qed.

Theorem C19_iff : forall ev m m' fd, well_formed m -> resolves fd (m_offset m) ->
  (m_mtype m = Qubo -> to_ising ev m = (m', Ok tt) ->
     ((exists k, forall s, spin s -> energy fd s m' = (energy fd (to_binary s) m + k)%Qc) <->
      (forall l, imbalance fd m l = 0%Qc))) /\
  (m_mtype m = Ising -> to_qubo ev m = (m', Ok tt) ->
     ((exists k, forall x, binary x -> energy fd x m' = (energy fd (to_spin x) m + k)%Qc) <->
      (forall l, imbalance fd m l = 0%Qc))).
Proof.
  intros ev m m' fd HW HR. destruct (C20_exact_effect ev m m' fd HW HR) as [HI HQ].
  assert (Cancel : forall a b c : Qc, (a + b = a + c -> b = c)%Qc).
  { intros a b c H. transitivity (- a + (a + b))%Qc; [ring|]. rewrite H. ring. }
  split; intros HT E.
  - specialize (HI HT E). split.
    + intros [k Hk] l.
      assert (H : forall s, spin s -> (level fd m (qfrac 1 2) (qfrac 1 4) + qfrac 1 4 * tilt fd m s)%Qc = k).
      { intros s Hs. rewrite <- excess_ising_parts. apply (Cancel (energy fd (to_binary s) m)). now rewrite <- HI, <- Hk. }
      pose (lo := fun _ : string => (- (1))%Qc).
      pose proof (H lo ltac:(intros u; now left)) as H1.
      pose proof (H (fun u => lo u + qz 2 * at_label l u)%Qc) as H2.
      rewrite tilt_step in H2. rewrite <- H1 in H2 at 1.
      assert (H3 : (qfrac 1 4 * (tilt fd m lo + qz 2 * imbalance fd m l) = qfrac 1 4 * tilt fd m lo)%Qc).
      { apply (Cancel (level fd m (qfrac 1 2) (qfrac 1 4))). apply H2. intros u. unfold lo, at_label.
        destruct (String.eqb u l); [right | left]; apply Qc_is_canon; reflexivity. }
      transitivity (qz 2 * (qfrac 1 4 * (tilt fd m lo + qz 2 * imbalance fd m l) - qfrac 1 4 * tilt fd m lo))%Qc.
      * transitivity ((qz 2 * qfrac 1 4 * qz 2) * imbalance fd m l)%Qc; [|ring].
        replace (qz 2 * qfrac 1 4 * qz 2)%Qc with 1%Qc by (apply Qc_is_canon; reflexivity). ring.
      * rewrite H3. ring.
    + intros H. exists (level fd m (qfrac 1 2) (qfrac 1 4)). intros s _. rewrite HI, excess_ising_parts, tilt_zero by exact H. ring.
  - specialize (HQ HT E). split.
    + intros [k Hk] l.
      assert (H : forall x, binary x -> (level fd m (- (1)) 1 - qz 2 * tilt fd m x)%Qc = k).
      { intros x Hx. rewrite <- excess_qubo_parts. apply (Cancel (energy fd (to_spin x) m)). now rewrite <- HQ, <- Hk. }
      pose (lo := fun _ : string => 0%Qc).
      pose proof (H lo ltac:(intros u; now left)) as H1.
      pose proof (H (fun u => lo u + 1 * at_label l u)%Qc) as H2.
      rewrite tilt_step in H2. rewrite <- H1 in H2 at 1.
      assert (H3 : (- (qz 2 * (tilt fd m lo + 1 * imbalance fd m l)) = - (qz 2 * tilt fd m lo))%Qc).
      { apply (Cancel (level fd m (- (1)) 1)). apply H2. intros u. unfold lo, at_label.
        destruct (String.eqb u l); [right | left]; apply Qc_is_canon; reflexivity. }
      transitivity (qfrac 1 2 * (- - (qz 2 * (tilt fd m lo + 1 * imbalance fd m l)) - qz 2 * tilt fd m lo))%Qc.
      * transitivity ((qfrac 1 2 * qz 2) * imbalance fd m l)%Qc; [|ring].
        replace (qfrac 1 2 * qz 2)%Qc with 1%Qc by (apply Qc_is_canon; reflexivity). ring.
      * rewrite H3. ring.
    + intros H. exists (level fd m (- (1)) 1). intros s _. rewrite HQ, excess_qubo_parts, tilt_zero by exact H. ring.
Qed.

(** Only the labels of pairs need be looked at. *)
Definition pair_labels (m : lmodel) : list string :=
  flat_map (fun r => match r_key r with K1 _ => [] | K2 u v => [u; v] end) (live_rows m).
Definition balancedb (fd : feed) (m : lmodel) : bool := forallb (fun l => Qc_eqb (imbalance fd m l) 0%Qc) (pair_labels m).
Lemma balancedb_ok fd m : balancedb fd m = true -> forall l, imbalance fd m l = 0%Qc.
Proof.
  unfold balancedb. rewrite forallb_forall. intros H l. destruct (in_dec string_dec l (pair_labels m)) as [Hi|Hn].
  - apply Qc_eqb_eq. auto.
  - clear H. unfold imbalance, pair_labels in *. apply qsum_map_zero. intros r Hr.
    destruct (r_key r) as [k|u v] eqn:Ek; [reflexivity|].
    assert (N : forall w, w = u \/ w = v -> at_label l w = 0%Qc).
    { intros w Hw. unfold at_label. destruct (String.eqb_spec w l) as [-> |]; [|reflexivity]. exfalso. apply Hn.
      apply in_flat_map. exists r. split; [exact Hr|]. rewrite Ek. destruct Hw as [<- | <-]; [now left | right; now left]. }
    rewrite (N u), (N v) by auto. ring.
Qed.

(** Models of scales other than 1: one where the pairs of each variable do not
    cancel (C20_refuted's), one where they do. *)
Definition scaled_cycle : lmodel := fst ((variables (VName "q") (ShTuple [ShInt 2]) ;;;
  add_interaction env0 (TVar (bin "q" 0)) (NStr "") (num 7) (num 5) AtNone TsNone ;;;
  add_interaction env0 (pair (bin "q" 0) (bin "q" 1)) (NStr "") (num 3) (num 2) AtNone TsNone ;;;
  add_interaction env0 (pair (bin "q" 0) (bin "q" 1)) (NStr "other") (num (-1)) (num 4) AtNone TsNone)%py (new_model Qubo)).
Example C20_exact_hyps : exists m1 m2,
  well_formed c20_b /\ to_ising env0 c20_b = (m1, Ok tt) /\ this (imbalance [] c20_b "q[0]") = 3%Q /\
  well_formed scaled_cycle /\ resolves [] (m_offset scaled_cycle) /\ to_ising env0 scaled_cycle = (m2, Ok tt) /\
  (forall l, imbalance [] scaled_cycle l = 0%Qc).
Proof.
  exists (fst (to_ising env0 c20_b)), (fst (to_ising env0 scaled_cycle)).
  split; [apply wfb_ok; reflexivity|]. split; [apply okb_ok; vm_compute; reflexivity|]. split; [vm_compute; reflexivity|].
  split; [apply wfb_ok; reflexivity|]. split; [intros H; discriminate H|]. split; [apply okb_ok; vm_compute; reflexivity|].
  apply balancedb_ok. vm_compute. reflexivity.
Qed.
Print Assumptions C20_exact_effect.
Print Assumptions C19_iff.
