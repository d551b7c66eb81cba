(** * BqmProofs: dimod's BQMs as built from a physical model. *)
From Verif Require Import PyBase PyLemmas Numbers Constraint LogicalModel Spec PhysicalProofs Physical.
Open Scope list_scope.

(** The energy of a BQM: sum of h_i x_i + sum of J_ij x_i x_j + offset. *)
Definition energy_bqm (s : assignment) (b : bqm) : Qc :=
  (qsum (map (fun kv => snd kv * s (fst kv)) (b_linear b))
   + qsum (map (fun kv => snd kv * (s (fst (fst kv)) * s (snd (fst kv)))) (b_quad b))
   + b_offset b)%Qc.

Definition wf_bqm (b : bqm) : Prop :=
  NoDup (dkeys (b_linear b)) /\ NoDup (dkeys (b_quad b)) /\
  forall u v, In (u, v) (dkeys (b_quad b)) ->
    u <> v /\ In u (dkeys (b_linear b)) /\ In v (dkeys (b_linear b)) /\ ~ In (v, u) (dkeys (b_quad b)).

Lemma energy_bqm_dsum s b : energy_bqm s b =
  (dsum s (b_linear b) + dsum (fun ab => s (fst ab) * s (snd ab)) (b_quad b) + b_offset b)%Qc.
Proof. reflexivity. Qed.

Lemma dset_keys_in {K V} `{Eqb K} (k : K) (v : V) d x : In x (dkeys (dset k v d)) <-> x = k \/ In x (dkeys d).
Proof.
  induction d as [|[k' v'] d IH]; simpl; [intuition|].
  destruct (eqb k k') eqn:E; simpl.
  - apply eqb_eq in E. subst. intuition.
  - rewrite IH. intuition.
Qed.
Lemma dset_nodup_keys {K V} `{Eqb K} (k : K) (v : V) d : NoDup (dkeys d) -> NoDup (dkeys (dset k v d)).
Proof.
  induction d as [|[k' v'] d IH]; simpl; intros ND; [constructor; auto|].
  inversion ND; subst. destruct (eqb k k') eqn:E; simpl; constructor; auto.
  intros HI. apply dset_keys_in in HI. destruct HI as [->|HI]; [|auto]. rewrite eqb_refl in E. discriminate.
Qed.
Lemma pair_key_cases u v d : pair_key u v d = (u, v) /\ ~ In (v, u) (dkeys d) \/ pair_key u v d = (v, u) /\ In (v, u) (dkeys d).
Proof.
  unfold pair_key. destruct (dmem (v, u) d) eqn:E; [right; split; auto; apply dmem_in; auto|].
  left. split; auto. intros HI. apply dmem_in in HI. congruence.
Qed.

Lemma addv_spec v c b s : energy_bqm s (bqm_add_variable v c b) = (energy_bqm s b + c * s v)%Qc.
Proof.
  rewrite !energy_bqm_dsum. unfold bqm_add_variable. cbn [b_linear b_quad b_offset].
  rewrite dsum_dset. destruct (dget v (b_linear b)); ring.
Qed.
Lemma addv_wf v c b : wf_bqm b -> wf_bqm (bqm_add_variable v c b).
Proof.
  intros (H1 & H2 & H3). unfold wf_bqm, bqm_add_variable. cbn [b_linear b_quad b_offset].
  split; [apply dset_nodup_keys; auto|]. split; auto. intros u w HI. destruct (H3 u w HI) as (A & B & C & D).
  rewrite !dset_keys_in. auto.
Qed.
Lemma addv_vars v c b x : In x (bqm_variables (bqm_add_variable v c b)) <-> x = v \/ In x (bqm_variables b).
Proof. unfold bqm_variables, bqm_add_variable. cbn [b_linear]. apply dset_keys_in. Qed.

Lemma addi_spec u v c b b' : bqm_add_interaction u v c b = Ok b' ->
  u <> v /\ (forall s, energy_bqm s b' = energy_bqm s b + c * (s u * s v))%Qc /\
  (wf_bqm b -> wf_bqm b') /\ (forall x, In x (bqm_variables b') <-> x = u \/ x = v \/ In x (bqm_variables b)) /\
  (forall x y, In (x, y) (dkeys (b_quad b')) \/ In (y, x) (dkeys (b_quad b')) <->
     (x = u /\ y = v \/ x = v /\ y = u) \/ In (x, y) (dkeys (b_quad b)) \/ In (y, x) (dkeys (b_quad b))) /\
  b_offset b' = b_offset b /\ b_spin b' = b_spin b.
Proof.
  unfold bqm_add_interaction. destruct (String.eqb u v) eqn:EU; [discriminate|]. cbv zeta. set (b1 := bqm_add_variable v 0 (bqm_add_variable u 0 b)).
  intros E. assert (HH : forall A (x y : A), Ok x = Ok y -> x = y) by congruence. apply HH in E. subst b'. apply String.eqb_neq in EU.
  assert (HE : forall s, energy_bqm s b1 = energy_bqm s b) by (intros s; unfold b1; rewrite !addv_spec; ring).
  assert (HV : forall x, In x (bqm_variables b1) <-> x = u \/ x = v \/ In x (bqm_variables b))
    by (intros x; unfold b1; rewrite !addv_vars; intuition).
  assert (HW0 : wf_bqm b -> wf_bqm b1) by (intros HW; unfold b1; apply addv_wf, addv_wf; auto).
  assert (HQ1 : b_quad b1 = b_quad b) by reflexivity. assert (HO1 : b_offset b1 = b_offset b) by reflexivity.
  assert (HS1 : b_spin b1 = b_spin b) by reflexivity. clearbody b1.
  split; auto. split; [|split; [|split; [|split; [|split]]]].
  - intros s. rewrite <- HE, !energy_bqm_dsum. cbn [b_linear b_quad b_offset]. rewrite dsum_dset.
    rewrite HQ1.
    destruct (pair_key_cases u v (b_quad b)) as [[EP _]|[EP _]]; rewrite EP; cbn [fst snd]; match goal with |- context[dget ?k (b_quad b)] => destruct (dget k (b_quad b)) end; ring.
  - intros HW. destruct (HW0 HW) as (H1 & H2 & H3).
    unfold wf_bqm. cbn [b_linear b_quad b_offset]. split; auto. split; [apply dset_nodup_keys; auto|].
    assert (Iu : In u (dkeys (b_linear b1))) by (apply HV; auto). assert (Iv : In v (dkeys (b_linear b1))) by (apply HV; auto).
    intros x y HI. apply dset_keys_in in HI. rewrite dset_keys_in.
    destruct (pair_key_cases u v (b_quad b1)) as [[EP HN]|[EP HN]]; rewrite EP in *.
    + destruct HI as [HI|HI].
      * inversion HI; subst. split; auto. split; auto. split; auto. intros [HQ|HQ]; [inversion HQ; congruence|auto].
      * destruct (H3 x y HI) as (A & B & C & D). split; auto. split; auto. split; auto. intros [HQ|HQ]; [|auto].
        inversion HQ; subst. auto.
    + assert (HI' : In (x, y) (dkeys (b_quad b1))) by (destruct HI as [HI|HI]; [rewrite HI|]; auto).
      destruct (H3 x y HI') as (A & B & C & D). split; auto. split; auto. split; auto. intros [HQ|HQ]; [|auto]. apply D. rewrite HQ. auto.
  - exact HV.
  - intros x y. cbn [b_quad]. rewrite !dset_keys_in. rewrite HQ1.
    destruct (pair_key_cases u v (b_quad b)) as [[EP HN]|[EP HN]]; rewrite EP.
    + split.
      * intros [[HQ|HQ]|[HQ|HQ]]; auto; inversion HQ; auto.
      * intros [[[-> ->]|[-> ->]]|[HQ|HQ]]; auto.
    + split.
      * intros [[HQ|HQ]|[HQ|HQ]]; auto; inversion HQ; auto.
      * intros [[[-> ->]|[-> ->]]|[HQ|HQ]]; auto.
  - exact HO1.
  - exact HS1.
Qed.

Lemma addvs_spec l : forall b, let b' := fold_left (fun b kv => bqm_add_variable (fst kv) (snd kv) b) l b in
  (forall s, energy_bqm s b' = energy_bqm s b + dsum s l)%Qc /\ (wf_bqm b -> wf_bqm b') /\
  (forall x, In x (bqm_variables b') <-> In x (dkeys l) \/ In x (bqm_variables b)) /\
  b_quad b' = b_quad b /\ b_offset b' = b_offset b /\ b_spin b' = b_spin b.
Proof.
  induction l as [|[k c] l IH]; intros b; cbn [fold_left fst snd].
  - cbv zeta. split; [intros; unfold dsum; simpl; ring|]. split; auto. split; [simpl; intuition|auto].
  - destruct (IH (bqm_add_variable k c b)) as (H1 & H2 & H3 & H4 & H5 & H6). cbv zeta. split; [|split; [|split; [|split; [|split]]]].
    + intros s. rewrite H1, addv_spec. unfold dsum. simpl. ring.
    + intros HW. apply H2, addv_wf; auto.
    + intros x. rewrite H3, addv_vars. simpl. intuition.
    + rewrite H4. reflexivity.
    + rewrite H5. reflexivity.
    + rewrite H6. reflexivity.
Qed.
Lemma addis_spec q : forall b b', bqm_interactions q b = Ok b' ->
  Forall (fun kv => fst (fst kv) <> snd (fst kv)) q /\
  (forall s, energy_bqm s b' = energy_bqm s b + dsum (fun ab => s (fst ab) * s (snd ab)) q)%Qc /\ (wf_bqm b -> wf_bqm b') /\
  (forall x, In x (bqm_variables b') <-> (exists y, In (x, y) (dkeys q) \/ In (y, x) (dkeys q)) \/ In x (bqm_variables b)) /\
  (forall x y, In (x, y) (dkeys (b_quad b')) \/ In (y, x) (dkeys (b_quad b')) <->
     (In (x, y) (dkeys q) \/ In (y, x) (dkeys q)) \/ In (x, y) (dkeys (b_quad b)) \/ In (y, x) (dkeys (b_quad b))) /\
  b_offset b' = b_offset b /\ b_spin b' = b_spin b.
Proof.
  induction q as [|[[u v] c] q IH]; intros b b' E; cbn [bqm_interactions] in E.
  - inversion E; subst. split; [constructor|]. split; [intros; unfold dsum; simpl; ring|]. split; auto.
    split; [intros x; simpl; split; [auto|intros [[y [[]|[]]]|]; auto]|]. split; [simpl; intuition|auto].
  - destruct (bqm_add_interaction u v c b) as [b1|] eqn:E1; [|discriminate].
    destruct (addi_spec _ _ _ _ _ E1) as (A1 & A2 & A3 & A4 & A5 & A6 & A7).
    destruct (IH _ _ E) as (H1 & H2 & H3 & H4 & H5 & H6 & H7).
    split; [constructor; auto|]. split; [|split; [|split; [|split; [|split]]]].
    + intros s. rewrite H2, A2. unfold dsum. simpl. ring.
    + auto.
    + intros x. rewrite H4, A4. simpl. split.
      * intros [[y [HY|HY]]|[->|[->|HX]]]; eauto.
      * intros [[y [[HY|HY]|[HY|HY]]]|HX]; eauto; inversion HY; subst; auto.
    + intros x y. rewrite H5, A5. simpl. split.
      * intros [[HY|HY]|[[[-> ->]|[-> ->]]|[HY|HY]]]; auto.
      * intros [[[HY|HY]|[HY|HY]]|[HY|HY]]; auto; inversion HY; subst; auto.
    + congruence.
    + congruence.
Qed.
Lemma addis_ok q : forall b, Forall (fun kv => fst (fst kv) <> snd (fst kv)) q -> exists b', bqm_interactions q b = Ok b'.
Proof.
  induction q as [|[[u v] c] q IH]; intros b HF; cbn [bqm_interactions]; [eauto|]. inversion HF; subst. cbn [fst snd] in H1.
  unfold bqm_add_interaction. destruct (String.eqb u v) eqn:E; [apply String.eqb_eq in E; congruence|]. apply IH; auto.
Qed.
Lemma dsum_scale {K} (f : K -> Qc) k d : dsum f (map (fun kv => (fst kv, k * snd kv)%Qc) d) = (k * dsum f d)%Qc.
Proof. unfold dsum. rewrite map_map, <- qsum_map_mul. apply qsum_map_ext. intros; cbn [fst snd]; ring. Qed.
Lemma keys_scale {K} (k : Qc) (d : dict K Qc) : dkeys (map (fun kv => (fst kv, k * snd kv)%Qc) d) = dkeys d.
Proof. unfold dkeys. rewrite map_map. reflexivity. Qed.

(** to_bqm, any sign. *)
Lemma to_bqm_spec sg p b : to_bqm sg p = Ok b ->
  (forall s, energy_bqm s b = sg * (dsum s (p_linear p) + dsum (fun ab => s (fst ab) * s (snd ab)) (p_quad p)) + p_offset p)%Qc /\
  wf_bqm b /\ (forall x, In x (bqm_variables b) <-> occurs p x) /\
  (forall x y, In (x, y) (dkeys (b_quad b)) \/ In (y, x) (dkeys (b_quad b)) <-> In (x, y) (dkeys (p_quad p)) \/ In (y, x) (dkeys (p_quad p))) /\
  b_offset b = p_offset p /\ b_spin b = match p_mtype p with Ising => true | Qubo => false end /\
  Forall (fun kv => fst (fst kv) <> snd (fst kv)) (p_quad p).
Proof.
  unfold to_bqm, bqm_new. intros E. apply addis_spec in E.
  set (lin := map _ (p_linear p)) in *. set (sp := match p_mtype p with Ising => true | Qubo => false end) in *.
  destruct (addvs_spec lin (mkBqm sp [] [] (p_offset p))) as (A1 & A2 & A3 & A4 & A5 & A6).
  destruct E as (H1 & H2 & H3 & H4 & H5 & H6 & H7).
  split; [|split; [|split; [|split; [|split; [|split]]]]].
  - intros s. rewrite H2, A1. unfold lin. rewrite !dsum_scale, energy_bqm_dsum. unfold dsum at 1 2. simpl. ring.
  - apply H3, A2. split; [constructor|]. split; [constructor|]. intros u v [].
  - intros x. rewrite H4, A3. unfold lin. rewrite !keys_scale. unfold occurs. simpl. split.
    + intros [[y [HY|HY]]|[HX|[]]]; [right; exists x, y; auto|right; exists y, x; auto|auto].
    + intros [HX|(y & z & HY & [->| ->])]; [auto|left; exists z; auto|left; exists y; auto].
  - intros x y. rewrite H5, A4. rewrite keys_scale. simpl. tauto.
  - rewrite H6. exact A5.
  - rewrite H7. exact A6.
  - rewrite Forall_forall in H1 |- *. intros kv HI. apply (H1 (fst kv, (sg * snd kv)%Qc)). apply (in_map (fun kv => (fst kv, (sg * snd kv)%Qc)) _ _ HI).
Qed.
Lemma to_bqm_ok sg p : Forall (fun kv => fst (fst kv) <> snd (fst kv)) (p_quad p) -> exists b, to_bqm sg p = Ok b.
Proof.
  intros HF. unfold to_bqm, bqm_new. apply addis_ok. apply Forall_forall. intros kv HI. apply in_map_iff in HI.
  destruct HI as (kv' & <- & HI). rewrite Forall_forall in HF. exact (HF _ HI).
Qed.

(** ** Change of variable type *)
Lemma indicator_sum (ls : list string) u (f : string -> Qc) : NoDup ls -> In u ls ->
  qsum (map (fun l => if String.eqb u l then f l else 0%Qc) ls) = f u.
Proof.
  induction ls as [|a ls IH]; intros ND HI; [destruct HI|]. inversion ND; subst. simpl.
  destruct (String.eqb u a) eqn:E.
  - apply String.eqb_eq in E. subst a. rewrite qsum_map_zero; [ring|]. intros x Hx.
    destruct (String.eqb u x) eqn:E2; auto. apply String.eqb_eq in E2. subst. contradiction.
  - destruct HI as [->|HI]; [rewrite String.eqb_refl in E; discriminate|]. rewrite IH; auto. ring.
Qed.
Lemma adj_sum (b : bqm) (ls : list string) (f : string -> Qc) : NoDup ls ->
  (forall u v, In (u, v) (dkeys (b_quad b)) -> u <> v /\ In u ls /\ In v ls) ->
  qsum (map (fun l => f l * qsum (map snd (bqm_adj b l))) ls)%Qc =
  qsum (map (fun kv => snd kv * (f (fst (fst kv)) + f (snd (fst kv)))) (b_quad b))%Qc.
Proof.
  intros ND. unfold bqm_adj. induction (b_quad b) as [|[[u v] c] q IH]; intros HQ.
  - cbn [flat_map map qsum]. apply qsum_map_zero. intros; ring.
  - cbn [flat_map]. destruct (HQ u v) as (NE & Iu & Iv); [simpl; auto|].
    transitivity (qsum (map (fun l => f l * c * (if String.eqb u l then 1 else 0))%Qc ls) + qsum (map (fun l => f l * c * (if String.eqb v l then 1 else 0))%Qc ls)
      + qsum (map (fun l => f l * qsum (map snd (flat_map (fun kv => match kv with ((u0, v0), c0) => if String.eqb u0 l then [(v0, c0)] else if String.eqb v0 l then [(u0, c0)] else [] end) q))) ls))%Qc.
    + rewrite <- !qsum_map_add. apply qsum_map_ext. intros l Hl. rewrite map_app, qsum_app.
      destruct (String.eqb u l) eqn:E1; [|destruct (String.eqb v l) eqn:E2]; cbn [map snd qsum]; try ring.
      apply String.eqb_eq in E1. subst l. destruct (String.eqb v u) eqn:E2; [apply String.eqb_eq in E2; congruence|]. ring.
    + rewrite IH by (intros x y HI; apply HQ; simpl; auto). cbn [map qsum fst snd].
      rewrite (qsum_map_ext (fun l => f l * c * (if String.eqb u l then 1 else 0))%Qc (fun l => if String.eqb u l then (f l * c)%Qc else 0%Qc)) by (intros; destruct (String.eqb u x); ring).
      rewrite (qsum_map_ext (fun l => f l * c * (if String.eqb v l then 1 else 0))%Qc (fun l => if String.eqb v l then (f l * c)%Qc else 0%Qc)) by (intros; destruct (String.eqb v x); ring).
      rewrite !indicator_sum by auto. ring.
Qed.
Lemma half_eq : half = (/ qz 2)%Qc. Proof. apply Qc_is_canon. reflexivity. Qed.
Lemma quarter_eq : quarter = (half * half)%Qc. Proof. apply Qc_is_canon. reflexivity. Qed.
Lemma half_two : (half * qz 2 = 1)%Qc. Proof. apply Qc_is_canon. reflexivity. Qed.

Lemma to_spin_energy b s : wf_bqm b -> b_spin b = false -> energy_bqm s (bqm_to_spin b) = energy_bqm (to_binary s) b.
Proof.
  intros (H1 & _ & H3) EB. unfold bqm_to_spin. rewrite EB. unfold energy_bqm at 1. cbn [b_linear b_quad b_offset].
  rewrite !map_map. cbn [fst snd].
  assert (HT : forall l, to_binary s l = (half * (s l + 1))%Qc) by (intros; unfold to_binary, Qcdiv; rewrite half_eq; ring).
  assert (HA := adj_sum b (dkeys (b_linear b)) s H1). specialize (HA ltac:(intros u v HI; destruct (H3 u v HI); tauto)).
  unfold dkeys in HA. rewrite map_map in HA.
  rewrite (qsum_map_ext _ (fun kv : string * Qc => half * (snd kv * s (fst kv)) + quarter * (s (fst kv) * qsum (map snd (bqm_adj b (fst kv)))))%Qc) by (intros; ring).
  rewrite qsum_map_add, !qsum_map_mul. rewrite HA.
  unfold energy_bqm.
  rewrite (qsum_map_ext (fun kv : string * Qc => snd kv * to_binary s (fst kv))%Qc (fun kv => half * (snd kv * s (fst kv)) + half * snd kv)%Qc) by (intros; rewrite HT; ring).
  rewrite (qsum_map_ext (fun kv : string * string * Qc => snd kv * (to_binary s (fst (fst kv)) * to_binary s (snd (fst kv))))%Qc
    (fun kv => quarter * (snd kv * (s (fst (fst kv)) * s (snd (fst kv)))) + (quarter * (snd kv * (s (fst (fst kv)) + s (snd (fst kv)))) + quarter * snd kv))%Qc)
    by (intros; rewrite !HT, quarter_eq; ring).
  rewrite !qsum_map_add, !qsum_map_mul.
  rewrite (qsum_map_ext (fun kv : string * string * Qc => (quarter * snd kv * (s (fst (fst kv)) * s (snd (fst kv))))%Qc) (fun kv => quarter * (snd kv * (s (fst (fst kv)) * s (snd (fst kv)))))%Qc) by (intros; ring).
  rewrite qsum_map_mul. ring.
Qed.
Lemma to_spin_spin b : b_spin (bqm_to_spin b) = true.
Proof. unfold bqm_to_spin. destruct (b_spin b) eqn:E; auto. Qed.
Lemma to_spin_vars b : bqm_variables (bqm_to_spin b) = bqm_variables b.
Proof. unfold bqm_to_spin. destruct (b_spin b); auto. unfold bqm_variables, dkeys. simpl. rewrite map_map. reflexivity. Qed.
Lemma to_spin_wf b : wf_bqm b -> wf_bqm (bqm_to_spin b).
Proof.
  intros (H1 & H2 & H3). unfold bqm_to_spin. destruct (b_spin b); [split; auto|]. unfold wf_bqm, dkeys in *. simpl.
  rewrite !map_map. simpl. auto.
Qed.
