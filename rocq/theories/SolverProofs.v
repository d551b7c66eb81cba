(** * SolverProofs: the annealing walk tracks the energy exactly. *)
From Verif Require Import PyBase PyLemmas Numbers Constraint LogicalModel Spec PhysicalProofs Physical BqmProofs Solver SolverSpec.
From Coq Require Import Permutation Lqa.
Open Scope list_scope.

(** The physical model's index maps: [ls] lists the indexed labels in index order. *)
Definition index_maps (p : physical) (ls : list string) : Prop :=
  NoDup ls /\ (forall l i, dget l (p_l2i p) = Some i <-> nth_error ls i = Some l) /\ dvals (p_i2l p) = ls.
Lemma rbind_ok {A B} (m : res A) (k : A -> res B) b : rbind m k = Ok b -> exists a, m = Ok a /\ k a = Ok b.
Proof. destruct m; simpl; [eauto|discriminate]. Qed.
Lemma item_ok {A} (l : list A) i v : item l i = Ok v -> nth_error l i = Some v.
Proof. unfold item. destruct (nth_error l i); intros E; inversion E; auto. Qed.
Lemma l2i_ok p l i : l2i p l = Ok i -> dget l (p_l2i p) = Some i.
Proof. unfold l2i. destruct (dget l (p_l2i p)); intros E; inversion E; auto. Qed.

Lemma map_fst_combine {A B} (l : list A) : forall m : list B, length m = length l -> map fst (combine l m) = l.
Proof. induction l as [|a l IH]; intros [|b m] H; try discriminate; simpl; auto. rewrite IH; auto. Qed.
Lemma map_snd_combine {A B} (l : list A) : forall m : list B, length m = length l -> map snd (combine l m) = m.
Proof. induction l as [|a l IH]; intros [|b m] H; try discriminate; simpl; auto. rewrite IH; auto. Qed.
Lemma nth_error_combine {A B} (l : list A) : forall (m : list B) i, nth_error (combine l m) i =
  match nth_error l i, nth_error m i with Some a, Some b => Some (a, b) | _, _ => None end.
Proof.
  induction l as [|a l IH]; intros m [|i]; simpl; auto.
  - destruct m; auto.
  - destruct m; simpl; auto. destruct (nth_error l i); auto.
Qed.

Lemma Qcle_bool_iff x y : Qcle_bool x y = true <-> (x <= y)%Qc.
Proof. unfold Qcle_bool, Qcle. apply Qle_bool_iff. Qed.
Lemma Qcle_bool_false x y : Qcle_bool x y = false <-> (y < x)%Qc.
Proof.
  split.
  - intros H. apply Qcnot_le_lt. intros HL. apply Qcle_bool_iff in HL. congruence.
  - intros H. destruct (Qcle_bool x y) eqn:E; auto. apply Qcle_bool_iff in E. exfalso. apply (Qclt_not_le _ _ H E).
Qed.
Lemma Qclt_bool_iff x y : Qclt_bool x y = true <-> (x < y)%Qc.
Proof. unfold Qclt_bool. rewrite negb_true_iff. apply Qcle_bool_false. Qed.
Lemma Qclt_bool_false x y : Qclt_bool x y = false <-> (y <= x)%Qc.
Proof. unfold Qclt_bool. rewrite negb_false_iff. apply Qcle_bool_iff. Qed.

Lemma Qc_sub_le0 a b : (a - b <= 0)%Qc <-> (a <= b)%Qc.
Proof. unfold Qcle. rewrite this_sub. change (this 0%Qc) with 0%Q. split; intros; lra. Qed.
Lemma Qc_sub_lt0 a b : (0 < b - a)%Qc <-> (a < b)%Qc.
Proof. unfold Qclt. rewrite this_sub. change (this 0%Qc) with 0%Q. split; intros; lra. Qed.

(** ** The energy change of one flip *)
Lemma lin_flip s l d c : NoDup (dkeys d) -> In (l, c) d ->
  (dsum (assign s l (- s l)) d = dsum s d - qz 2 * (c * s l))%Qc.
Proof.
  unfold dsum. induction d as [|[k v] d IH]; intros ND HI; [destruct HI|]. inversion ND; subst. cbn [map qsum fst snd].
  destruct HI as [HI|HI].
  - inversion HI; subst k v. unfold assign at 1. rewrite String.eqb_refl.
    rewrite (qsum_map_ext (fun kv => snd kv * assign s l (- s l) (fst kv))%Qc (fun kv => snd kv * s (fst kv))%Qc).
    + change (qz 2) with (qz (1 + 1)). rewrite qz_add, qz_1. ring.
    + intros [k v] HK. unfold assign. simpl. destruct (String.eqb k l) eqn:E; auto. apply String.eqb_eq in E. subst.
      exfalso. apply H1. apply (in_map fst) in HK. exact HK.
  - rewrite (IH H2 HI). unfold assign at 1. destruct (String.eqb k l) eqn:E; [|ring].
    apply String.eqb_eq in E. subst. exfalso. apply H1. apply (in_map fst) in HI. exact HI.
Qed.
Lemma quad_flip s l b : (forall u v, In (u, v) (dkeys (b_quad b)) -> u <> v) ->
  (dsum (fun ab => assign s l (- s l) (fst ab) * assign s l (- s l) (snd ab)) (b_quad b) =
   dsum (fun ab => s (fst ab) * s (snd ab)) (b_quad b) - qz 2 * (s l * qsum (map (fun ac => s (fst ac) * snd ac) (bqm_adj b l))))%Qc.
Proof.
  unfold dsum, bqm_adj. induction (b_quad b) as [|[[u v] c] q IH]; intros HQ; [cbn [map qsum flat_map]; ring|].
  cbn [map qsum flat_map fst snd]. rewrite map_app, qsum_app. rewrite IH by (intros x y HI; apply HQ; simpl; auto).
  assert (NE : u <> v) by (apply HQ; simpl; auto). unfold assign.
  destruct (String.eqb_spec u l), (String.eqb_spec v l); subst; try congruence; cbn [map qsum fst snd];
    change (qz 2) with (qz (1 + 1)); rewrite qz_add, qz_1; ring.
Qed.
Lemma energy_flip s l b c : wf_bqm b -> In (l, c) (b_linear b) ->
  (energy_bqm (assign s l (- s l)) b =
   energy_bqm s b - qz 2 * (s l * c + s l * qsum (map (fun ac => s (fst ac) * snd ac) (bqm_adj b l))))%Qc.
Proof.
  intros (H1 & _ & H3) HI. rewrite !energy_bqm_dsum. rewrite (lin_flip s l _ c H1 HI), quad_flip; [ring|].
  intros u v HU. destruct (H3 u v HU). auto.
Qed.

(** Labels adjacent to a label are distinct. *)
Lemma adj_in b l a c : In (a, c) (bqm_adj b l) -> In (l, a) (dkeys (b_quad b)) \/ In (a, l) (dkeys (b_quad b)).
Proof.
  unfold bqm_adj. intros HI. apply in_flat_map in HI. destruct HI as ([[u v] d] & HQ & HI).
  assert (HK : In (u, v) (dkeys (b_quad b))) by (apply (in_map fst) in HQ; exact HQ).
  destruct (String.eqb_spec u l); [|destruct (String.eqb_spec v l); [|destruct HI]]; destruct HI as [HI|[]]; inversion HI; subst; auto.
Qed.
Lemma adj_nodup b l : wf_bqm b -> NoDup (map fst (bqm_adj b l)).
Proof.
  intros (_ & H2 & H3). unfold bqm_adj. revert H2 H3. induction (b_quad b) as [|[[u v] c] q IH]; intros H2 H3; [constructor|].
  cbn [flat_map]. rewrite map_app. inversion H2; subst.
  assert (IH' : NoDup (map fst (flat_map (fun kv => match kv with ((u0, v0), c0) => if String.eqb u0 l then [(v0, c0)] else if String.eqb v0 l then [(u0, c0)] else [] end) q))).
  { apply IH; auto. intros x y HI. destruct (H3 x y) as (A & B & C & D); [simpl; auto|]. split; auto. split; auto. split; auto.
    intros HX. apply D. simpl. auto. }
  assert (HX : forall a, In a (map fst (flat_map (fun kv => match kv with ((u0, v0), c0) => if String.eqb u0 l then [(v0, c0)] else if String.eqb v0 l then [(u0, c0)] else [] end) q)) ->
     In (l, a) (dkeys q) \/ In (a, l) (dkeys q)).
  { intros a HI. apply in_map_iff in HI. destruct HI as ([a' c'] & <- & HI). exact (adj_in (mkBqm true [] q 0) l a' c' HI). }
  destruct (H3 u v) as (NE & _ & _ & NR); [simpl; auto|].
  destruct (String.eqb_spec u l); [|destruct (String.eqb_spec v l)]; cbn [map app fst]; auto; constructor; auto; subst; intros HI; apply HX in HI.
  - destruct HI as [HI|HI]; [auto|]. apply NR. simpl. auto.
  - destruct HI as [HI|HI]; [|auto]. apply NR. simpl. auto.
Qed.

(** ** The coefficient arrays *)
Section Arrays.
Variables (p : physical) (ls : list string).
Hypothesis HP : index_maps p ls.

Lemma l2i_inj l l' i : dget l (p_l2i p) = Some i -> dget l' (p_l2i p) = Some i -> l = l'.
Proof. destruct HP as (_ & HX & _). rewrite !HX. congruence. Qed.

Lemma fill_linear_spec d : forall arr arr', fill_linear p d arr = Ok arr' -> NoDup (dkeys d) ->
  length arr' = length arr /\
  (forall l c, In (l, c) d -> exists i, dget l (p_l2i p) = Some i /\ nth_error arr' i = Some c) /\
  (forall j, (forall l, In l (dkeys d) -> dget l (p_l2i p) <> Some j) -> nth_error arr' j = nth_error arr j).
Proof.
  induction d as [|[l c] d IH]; intros arr arr' E ND; cbn [fill_linear] in E.
  - inversion E; subst. split; auto. split; [intros ? ? []|auto].
  - inversion ND; subst. apply rbind_ok in E. destruct E as (i & EI & E). apply l2i_ok in EI.
    destruct (set_nth i c arr) as [a1|] eqn:ES; [|discriminate]. destruct (IH _ _ E H2) as (L & A & B).
    split; [rewrite L; eapply set_nth_length; eauto|]. split.
    + intros l' c' [HI|HI]; [|auto]. inversion HI; subst l' c'. exists i. split; auto. rewrite B.
      * rewrite (set_nth_nth _ _ _ _ i ES). rewrite Nat.eqb_refl. reflexivity.
      * intros l' HL HG. assert (l' = l) by (eapply l2i_inj; eauto). subst. contradiction.
    + intros j HJ. rewrite B by (intros l' HL; apply HJ; simpl; auto). rewrite (set_nth_nth _ _ _ _ j ES).
      destruct (Nat.eqb_spec j i); auto. subst. exfalso. apply (HJ l); simpl; auto.
Qed.
Lemma fill_adj_spec b vs : forall arr arr', fill_adj p b vs arr = Ok arr' -> NoDup vs ->
  length arr' = length arr /\
  (forall l, In l vs -> exists i d, dget l (p_l2i p) = Some i /\ nth_error arr' i = Some d /\ adj_dict p (bqm_adj b l) [] = Ok d) /\
  (forall j, (forall l, In l vs -> dget l (p_l2i p) <> Some j) -> nth_error arr' j = nth_error arr j).
Proof.
  induction vs as [|l vs IH]; intros arr arr' E ND; cbn [fill_adj] in E.
  - inversion E; subst. split; auto. split; [intros ? []|auto].
  - inversion ND; subst. apply rbind_ok in E. destruct E as (i & EI & E). apply l2i_ok in EI.
    apply rbind_ok in E. destruct E as (d & ED & E).
    destruct (set_nth i d arr) as [a1|] eqn:ES; [|discriminate]. destruct (IH _ _ E H2) as (L & A & B).
    split; [rewrite L; eapply set_nth_length; eauto|]. split.
    + intros l' [HI|HI]; [|auto]. subst l'. exists i, d. split; auto. split; auto. rewrite B.
      * rewrite (set_nth_nth _ _ _ _ i ES). rewrite Nat.eqb_refl. reflexivity.
      * intros l' HL HG. assert (l' = l) by (eapply l2i_inj; eauto). subst. contradiction.
    + intros j HJ. rewrite B by (intros l' HL; apply HJ; simpl; auto). rewrite (set_nth_nth _ _ _ _ j ES).
      destruct (Nat.eqb_spec j i); auto. subst. exfalso. apply (HJ l); simpl; auto.
Qed.
Lemma adj_dict_spec l : forall acc d, adj_dict p l acc = Ok d -> NoDup (map fst l) ->
  (forall a i, In a (map fst l) -> dget a (p_l2i p) = Some i -> dget i acc = None) ->
  forall x xi t, adj_diff x xi d = Ok t ->
  (t = dsum (fun a => qz xi * match nth_error x a with Some z => qz z | None => 0 end) acc
       + qz xi * qsum (map (fun ac => spins p x (fst ac) * snd ac) l))%Qc.
Proof.
  induction l as [|[a c] l IH]; intros acc d E ND HA x xi t ET; cbn [adj_dict] in E.
  - inversion E; subst. cbn [map qsum]. clear E HA ND. revert t ET. induction d as [|[i j] d IHd]; intros t ET; cbn [adj_diff] in ET.
    + inversion ET. unfold dsum. cbn [map qsum]. ring.
    + apply rbind_ok in ET. destruct ET as (xa & EX & ET). apply item_ok in EX. apply rbind_ok in ET. destruct ET as (t' & ET' & ET).
      inversion ET. apply IHd in ET'. rewrite ET'. unfold dsum. cbn [map qsum fst snd]. rewrite EX. ring.
  - apply rbind_ok in E. destruct E as (i & EI & E). apply l2i_ok in EI. inversion ND; subst.
    rewrite (IH _ _ E H2) with (x := x) (xi := xi) (t := t); auto.
    + rewrite dsum_dset. rewrite (HA a i) by (simpl; auto). cbn [map qsum fst snd]. unfold spins at 2. rewrite EI. ring.
    + intros a' i' HI HG. destruct (Nat.eq_dec i' i) as [->|EE].
      * exfalso. apply H1. rewrite (l2i_inj a a' i EI HG). exact HI.
      * rewrite dget_dset_other by auto. apply (HA a' i'); simpl; auto.
Qed.
Lemma adj_dict_keys l : forall acc d, adj_dict p l acc = Ok d ->
  (forall i, In i (dkeys acc) -> i < length ls) -> forall i, In i (dkeys d) -> i < length ls.
Proof.
  induction l as [|[a c] l IH]; intros acc d E HA; cbn [adj_dict] in E; [inversion E; subst; auto|].
  apply rbind_ok in E. destruct E as (i & EI & E). apply l2i_ok in EI. eapply IH; eauto.
  intros j HJ. apply dset_keys_in in HJ. destruct HJ as [->|HJ]; auto. destruct HP as (_ & HX & _). apply HX in EI.
  apply nth_error_Some. congruence.
Qed.
Lemma adj_diff_total x xi d : (forall i, In i (dkeys d) -> i < length x) -> exists t, adj_diff x xi d = Ok t.
Proof.
  induction d as [|[i j] d IH]; intros HD; cbn [adj_diff]; [eauto|]. unfold item.
  destruct (nth_error x i) eqn:EX; [|apply nth_error_None in EX; specialize (HD i (or_introl eq_refl)); lia]. cbn [rbind].
  destruct IH as [t ->]; [intros; apply HD; simpl; auto|]. cbn [rbind]. eauto.
Qed.
Lemma fill_linear_total d : forall arr, length arr = length ls -> (forall l, In l (dkeys d) -> In l ls) -> exists arr', fill_linear p d arr = Ok arr'.
Proof.
  induction d as [|[l c] d IH]; intros arr HL HD; cbn [fill_linear]; [eauto|].
  destruct (In_nth_error ls l) as [i EI]; [apply HD; simpl; auto|]. destruct HP as (_ & HX & _).
  unfold l2i. rewrite (proj2 (HX l i) EI). cbn [rbind]. destruct (set_nth_some i c arr) as [a' ES]; [rewrite HL; apply nth_error_Some; congruence|].
  rewrite ES. apply IH; [rewrite (set_nth_length _ _ _ _ ES); auto|intros; apply HD; simpl; auto].
Qed.
Lemma adj_dict_total l : forall acc, (forall a, In a (map fst l) -> In a ls) -> exists d, adj_dict p l acc = Ok d.
Proof.
  induction l as [|[a c] l IH]; intros acc HD; cbn [adj_dict]; [eauto|].
  destruct (In_nth_error ls a) as [i EI]; [apply HD; simpl; auto|]. destruct HP as (_ & HX & _).
  unfold l2i. rewrite (proj2 (HX a i) EI). cbn [rbind]. apply IH. intros; apply HD; simpl; auto.
Qed.
Lemma fill_adj_total b vs : forall arr, length arr = length ls -> (forall l, In l vs -> In l ls) ->
  (forall l a, In a (map fst (bqm_adj b l)) -> In a ls) -> exists arr', fill_adj p b vs arr = Ok arr'.
Proof.
  induction vs as [|l vs IH]; intros arr HL HD HB; cbn [fill_adj]; [eauto|].
  destruct (In_nth_error ls l) as [i EI]; [apply HD; simpl; auto|]. destruct HP as (_ & HX & _).
  unfold l2i. rewrite (proj2 (HX l i) EI). cbn [rbind]. destruct (adj_dict_total (bqm_adj b l) [] (HB l)) as [d ED]. rewrite ED. cbn [rbind].
  destruct (set_nth_some i d arr) as [a' ES]; [rewrite HL; apply nth_error_Some; congruence|].
  rewrite ES. apply IH; auto; [rewrite (set_nth_length _ _ _ _ ES); auto|intros; apply HD; simpl; auto].
Qed.
Lemma make_sample_eq x : length x = length ls -> make_sample p x = combine ls x.
Proof.
  intros HL. destruct HP as (ND & _ & HV). unfold make_sample. rewrite HV.
  assert (HG : forall (l : list string) (y : list Z) acc, NoDup l -> (forall a, In a l -> ~ In a (dkeys acc)) -> length y = length l ->
    dupdate acc (combine l y) = acc ++ combine l y).
  { unfold dupdate. induction l as [|a l IH]; intros [|z y] acc HN HA HY; try discriminate; cbn [combine fold_left fst snd]; [rewrite app_nil_r; auto|].
    inversion HN; subst. assert (HD : dset a z acc = acc ++ [(a, z)]).
    { assert (HI : ~ In a (dkeys acc)) by (apply HA; simpl; auto). clear - HI. induction acc as [|[k v] acc IH]; simpl; auto.
      destruct (String.eqb a k) eqn:E; [apply String.eqb_eq in E; subst; exfalso; apply HI; simpl; auto|]. rewrite IH; auto. intros H; apply HI; simpl; auto. }
    rewrite HD, IH; auto.
    - rewrite <- app_assoc. reflexivity.
    - intros b HB HI. unfold dkeys in HI. rewrite map_app, in_app_iff in HI. destruct HI as [HI|[HI|[]]].
      + apply (HA b); simpl; auto.
      + simpl in HI. subst. contradiction.
  }
  apply (HG ls x []); auto.
Qed.
Lemma value_of_spins x : length x = length ls -> forall l, value_of (make_sample p x) l = spins p x l.
Proof.
  intros HL l. rewrite make_sample_eq by auto. destruct HP as (ND & HX & _). unfold value_of, spins.
  destruct (dget l (p_l2i p)) as [i|] eqn:EI.
  - apply HX in EI. destruct (nth_error x i) as [z|] eqn:EZ; [|apply nth_error_None in EZ; assert (i < length ls) by (apply nth_error_Some; congruence); lia].
    rewrite (in_dget l z); auto.
    + unfold dkeys. rewrite map_fst_combine; auto.
    + apply nth_error_In with i. rewrite nth_error_combine, EI, EZ. reflexivity.
  - destruct (dget l (combine ls x)) as [z|] eqn:EG; auto. apply dget_in in EG. apply in_combine_l in EG.
    destruct (In_nth_error _ _ EG) as [i Hi]. apply HX in Hi. congruence.
Qed.
End Arrays.

(** ** A prepared solver *)
Record prepared (p : physical) (ls : list string) (orig b : bqm) (lin : list Qc) (adj : list (dict nat Qc)) : Prop := mkPrepared {
  pr_maps : index_maps p ls;
  pr_bqm : to_bqm 1 p = Ok orig;
  pr_spin : b = bqm_to_spin orig;
  pr_lin : fill_linear p (b_linear b) (repeat 0%Qc (length (b_linear b))) = Ok lin;
  pr_adj : fill_adj p b (bqm_variables b) (repeat [] (length (b_linear b))) = Ok adj;
  pr_vars : forall l, In l ls -> occurs p l }.

Section Prepared.
Variables (p : physical) (ls : list string) (orig b : bqm) (lin : list Qc) (adj : list (dict nat Qc)).
Hypothesis HS : prepared p ls orig b lin adj.
Notation n := (length (b_linear b)).

Lemma pr_wf : wf_bqm b.
Proof. rewrite (pr_spin _ _ _ _ _ _ HS). apply to_spin_wf. destruct (to_bqm_spec _ _ _ (pr_bqm _ _ _ _ _ _ HS)) as (_ & H & _). exact H. Qed.
Lemma pr_offset : b_offset orig = p_offset p.
Proof. destruct (to_bqm_spec _ _ _ (pr_bqm _ _ _ _ _ _ HS)) as (_ & _ & _ & _ & H & _). exact H. Qed.
Lemma pr_energy s : (- energy_bqm s b = spin_energy p s - qz 2 * p_offset p)%Qc.
Proof.
  destruct (to_bqm_spec _ _ _ (pr_bqm _ _ _ _ _ _ HS)) as (H1 & HW & _ & _ & _ & H6 & _).
  unfold spin_energy. rewrite (pr_spin _ _ _ _ _ _ HS). change (qz 2) with (qz (1 + 1)). rewrite qz_add, qz_1. destruct (p_mtype p).
  - unfold bqm_to_spin. rewrite H6. rewrite H1. unfold energy_physical. unfold dsum. ring.
  - rewrite to_spin_energy by auto. rewrite H1. unfold energy_physical. unfold dsum. ring.
Qed.
Lemma pr_in l : In l (bqm_variables b) <-> In l ls.
Proof.
  destruct (to_bqm_spec _ _ _ (pr_bqm _ _ _ _ _ _ HS)) as (_ & _ & HV & _). split.
  - intros HI. destruct (fill_linear_spec p ls (pr_maps _ _ _ _ _ _ HS) _ _ _ (pr_lin _ _ _ _ _ _ HS)) as (_ & H & _); [apply pr_wf|].
    unfold bqm_variables, dkeys in HI. apply in_map_iff in HI. destruct HI as ([l' c] & <- & HI). destruct (H _ _ HI) as (i & HG & _).
    destruct (pr_maps _ _ _ _ _ _ HS) as (_ & HX & _). apply HX in HG. apply nth_error_In in HG. exact HG.
  - intros HI. apply (pr_vars _ _ _ _ _ _ HS) in HI. rewrite (pr_spin _ _ _ _ _ _ HS), to_spin_vars. apply HV. exact HI.
Qed.
Lemma pr_n : n = length ls.
Proof.
  destruct pr_wf as (H1 & _). assert (length (bqm_variables b) = n) by (unfold bqm_variables, dkeys; apply map_length).
  rewrite <- H. apply Nat.le_antisymm; apply NoDup_incl_length; auto.
  - intros l. apply pr_in.
  - destruct (pr_maps _ _ _ _ _ _ HS); auto.
  - intros l. apply pr_in.
Qed.
Lemma pr_occurs l : occurs p l <-> In l ls.
Proof.
  split; [|apply (pr_vars _ _ _ _ _ _ HS)]. intros HO. apply pr_in. rewrite (pr_spin _ _ _ _ _ _ HS), to_spin_vars.
  destruct (to_bqm_spec _ _ _ (pr_bqm _ _ _ _ _ _ HS)) as (_ & _ & HV & _). apply HV. exact HO.
Qed.
Lemma energy_bqm_ext (s s' : assignment) : (forall l, s l = s' l) -> energy_bqm s b = energy_bqm s' b.
Proof.
  intros H. unfold energy_bqm. f_equal. f_equal; apply qsum_map_ext; intros; rewrite ?H; auto.
Qed.
Lemma nth_upd (x : list Z) (i j : nat) : nth_error (upd_nth i Z.opp x) j =
  if Nat.eqb j i then match nth_error x j with Some z => Some (- z)%Z | None => None end else nth_error x j.
Proof.
  revert i j. induction x as [|z x IH]; intros [|i] [|j]; simpl; auto. destruct (Nat.eqb j i); auto.
Qed.
Lemma spins_flip x idx l : nth_error ls idx = Some l -> length x = n ->
  forall k, spins p (upd_nth idx Z.opp x) k = assign (spins p x) l (- spins p x l)%Qc k.
Proof.
  intros HL HX k. destruct (pr_maps _ _ _ _ _ _ HS) as (ND & HM & _). unfold assign, spins. rewrite (proj2 (HM l idx) HL).
  destruct (String.eqb k l) eqn:E.
  - apply String.eqb_eq in E. subst k. rewrite (proj2 (HM l idx) HL), nth_upd, Nat.eqb_refl.
    destruct (nth_error x idx); [apply qz_opp|ring].
  - destruct (dget k (p_l2i p)) as [j|] eqn:EK; auto. rewrite nth_upd. destruct (Nat.eqb_spec j idx); auto. subst j.
    apply HM in EK. rewrite HL in EK. inversion EK; subst. rewrite String.eqb_refl in E. discriminate.
Qed.
(** calc_energy_diff is the energy change of the flip. *)
Lemma calc_spec idx x d : calc_energy_diff lin adj idx x = Ok d -> length x = n -> idx < n /\ (d = spin_energy p (spins p (upd_nth idx Z.opp x)) - spin_energy p (spins p x))%Qc.
Proof.
  unfold calc_energy_diff. intros E HX. apply rbind_ok in E. destruct E as (xi & E1 & E). apply rbind_ok in E. destruct E as (h & E2 & E).
  apply rbind_ok in E. destruct E as (dd & E3 & E). apply rbind_ok in E. destruct E as (t & E4 & E). apply item_ok in E1, E2, E3.
  assert (LT : idx < n) by (rewrite <- HX; apply nth_error_Some; congruence). split; auto.
  destruct (nth_error ls idx) as [l|] eqn:EL; [|apply nth_error_None in EL; rewrite <- pr_n in EL; lia].
  pose proof (pr_maps _ _ _ _ _ _ HS) as HM. pose proof HM as (ND & HX' & _). assert (HL := proj2 (HX' l idx) EL).
  assert (HV : In l (bqm_variables b)) by (apply pr_in; apply nth_error_In in EL; exact EL).
  assert (HI := HV). unfold bqm_variables, dkeys in HI. apply in_map_iff in HI. destruct HI as ([l' c] & HI1 & HI). simpl in HI1. subst l'.
  destruct (fill_linear_spec p ls HM _ _ _ (pr_lin _ _ _ _ _ _ HS)) as (_ & HF & _); [apply pr_wf|].
  destruct (HF _ _ HI) as (i & HG & HN). rewrite HL in HG. inversion HG; subst i. rewrite E2 in HN. inversion HN; subst h.
  destruct (fill_adj_spec p ls HM b _ _ _ (pr_adj _ _ _ _ _ _ HS)) as (_ & HA & _); [apply pr_wf|].
  destruct (HA _ HV) as (i & d' & HG' & HN' & HD). rewrite HL in HG'. inversion HG'; subst i. rewrite E3 in HN'. inversion HN'; subst d'.
  assert (ET := adj_dict_spec p ls HM _ _ _ HD (adj_nodup b l pr_wf) (fun _ _ _ _ => eq_refl) _ _ _ E4).
  assert (EF := energy_flip (spins p x) l b c pr_wf HI).
  assert (EX : spins p x l = qz xi) by (unfold spins; rewrite HL, E1; auto).
  inversion E as [E5]. rewrite ET. unfold dsum. cbn [map qsum]. rewrite EX in EF.
  assert (P1 := pr_energy (spins p x)). assert (P2 := pr_energy (spins p (upd_nth idx Z.opp x))).
  rewrite (energy_bqm_ext _ (assign (spins p x) l (- spins p x l)%Qc)) in P2 by (apply spins_flip; auto).
  rewrite EX in P2. rewrite EF in P2.
  transitivity (spin_energy p (spins p (upd_nth idx Z.opp x)) - qz 2 * p_offset p - (spin_energy p (spins p x) - qz 2 * p_offset p))%Qc; [|ring].
  rewrite <- P1, <- P2. ring.
Qed.
Lemma calc_total idx x : idx < n -> length x = n -> exists d, calc_energy_diff lin adj idx x = Ok d.
Proof.
  intros LT HX. unfold calc_energy_diff, item. destruct (nth_error x idx) eqn:E1; [|apply nth_error_None in E1; lia]. cbn [rbind].
  pose proof (pr_maps _ _ _ _ _ _ HS) as HM. pose proof HM as (ND & HX' & _).
  destruct (fill_linear_spec p ls HM _ _ _ (pr_lin _ _ _ _ _ _ HS)) as (HL & _ & _); [apply pr_wf|]. rewrite repeat_length in HL.
  destruct (nth_error lin idx) eqn:E2; [|apply nth_error_None in E2; lia]. cbn [rbind].
  destruct (fill_adj_spec p ls HM b _ _ _ (pr_adj _ _ _ _ _ _ HS)) as (HA & HB & _); [apply pr_wf|]. rewrite repeat_length in HA.
  destruct (nth_error adj idx) eqn:E3; [|apply nth_error_None in E3; lia]. cbn [rbind].
  destruct (nth_error ls idx) as [l|] eqn:EL; [|apply nth_error_None in EL; rewrite <- pr_n in EL; lia].
  destruct (HB l) as (i & d' & HG & HN & HD); [apply pr_in; apply nth_error_In in EL; exact EL|].
  apply HX' in EL. rewrite EL in HG. inversion HG; subst i. rewrite E3 in HN. inversion HN; subst d'.
  destruct (adj_diff_total x z d) as [t ->]; [|cbn [rbind]; eauto].
  intros i HI. rewrite HX, pr_n. eapply adj_dict_keys; eauto. intros j [].
Qed.

(** ** Visits *)
Notation E := (vector_energy p).
Definition tracked (x : list Z) (e : Qc) : Prop := length x = n /\ e = (E x - qz 2 * p_offset p)%Qc.
Lemma flip_spec w rs temp k i k' : flip w lin adj rs temp k i = Ok k' -> tracked (k_x k) (k_energy k) ->
  tracked (k_x k') (k_energy k') /\ i < n /\
  forall r x' u' a', visits E (w_boltz w) temp rs (k_x k') (k_used k') (k_acc k') r x' u' a' ->
                     visits E (w_boltz w) temp rs (k_x k) (k_used k) (k_acc k) (i :: r) x' u' a'.
Proof.
  intros H (HL & HE). unfold flip in H. apply rbind_ok in H. destruct H as (d & HD & H). apply rbind_ok in H. destruct H as ([acc u] & HA & H).
  destruct (calc_spec _ _ _ HD HL) as [LT ED]. change (upd_nth i Z.opp (k_x k)) with (flipped i (k_x k)) in *.
  fold (E (flipped i (k_x k))) in ED. fold (E (k_x k)) in ED.
  assert (TF : tracked (flipped i (k_x k)) (k_energy k + d)%Qc).
  { split; [unfold flipped; rewrite upd_nth_length; auto|]. rewrite HE, ED. ring. }
  unfold is_acceptable in HA. cbn [fst snd] in H. destruct (Qcle_bool d 0) eqn:EB.
  - inversion HA; subst acc u. inversion H; subst k'. cbn [k_x k_energy k_used k_acc]. split; auto. split; auto.
    intros r x' u' a' HV. apply v_down; auto. apply Qcle_bool_iff in EB. rewrite ED in EB.
    apply Qc_sub_le0. exact EB.
  - apply Qcle_bool_false in EB. apply rbind_ok in HA. destruct HA as (pr & HP & HA). apply rbind_ok in HA. destruct HA as (v & HR & HA).
    apply item_ok in HR. inversion HA; subst acc u.
    assert (UP : (E (k_x k) < E (flipped i (k_x k)))%Qc).
    { apply Qc_sub_lt0. rewrite <- ED. exact EB. }
    rewrite ED in HP. destruct (Qclt_bool v pr) eqn:EV; inversion H; subst k'; cbn [k_x k_energy k_used k_acc]; (split; [auto; split; auto|split; auto]);
      intros r x' u' a' HV.
    + apply v_up with pr v; auto. apply Qclt_bool_iff; auto.
    + apply v_stay with pr v; auto. apply Qclt_bool_false; auto.
Qed.
Lemma flips_spec w rs temp : forall idxs k k', flips w lin adj rs temp k idxs = Ok k' -> tracked (k_x k) (k_energy k) ->
  tracked (k_x k') (k_energy k') /\
  visits E (w_boltz w) temp rs (k_x k) (k_used k) (k_acc k) idxs (k_x k') (k_used k') (k_acc k').
Proof.
  induction idxs as [|i r IH]; intros k k' H HT; cbn [flips] in H.
  - inversion H; subst. split; auto. constructor.
  - apply rbind_ok in H. destruct H as (k1 & H1 & H). destruct (flip_spec _ _ _ _ _ _ H1 HT) as (T1 & _ & HV).
    destruct (IH _ _ H T1) as (T2 & V2). split; auto.
Qed.
Lemma flips_total w rs temp : (forall d, (0 < d)%Qc -> exists pr, w_boltz w d temp = Ok pr) ->
  forall idxs k, tracked (k_x k) (k_energy k) -> Forall (fun i => i < n) idxs -> k_used k + length idxs <= length rs ->
  exists k', flips w lin adj rs temp k idxs = Ok k'.
Proof.
  intros HB. induction idxs as [|i r IH]; intros k HT HI HU; cbn [flips]; [eauto|]. inversion HI; subst. cbn [length] in HU.
  assert (HF : exists k1, flip w lin adj rs temp k i = Ok k1 /\ k_used k1 <= S (k_used k)).
  { unfold flip. destruct HT as [HL HE]. destruct (calc_total i (k_x k)) as [d ->]; auto. cbn [rbind]. unfold is_acceptable.
    destruct (Qcle_bool d 0) eqn:EB; cbn [rbind fst snd]; [eexists; split; [reflexivity|simpl; lia]|].
    apply Qcle_bool_false in EB. destruct (HB d EB) as [pr ->]. cbn [rbind]. unfold item.
    destruct (nth_error rs (k_used k)) as [v|] eqn:EN; [|apply nth_error_None in EN; lia]. cbn [rbind fst snd].
    destruct (Qclt_bool v pr); eexists; (split; [reflexivity|simpl; lia]). }
  destruct HF as (k1 & E1 & U1). rewrite E1. cbn [rbind]. destruct (flip_spec _ _ _ _ _ _ E1 HT) as (T1 & _ & _). apply IH; auto. lia.
Qed.
End Prepared.

(** ** Properties of visits *)
Lemma visits_used E bz temp rs x u a picks x' u' a' : visits E bz temp rs x u a picks x' u' a' ->
  u <= u' <= u + length picks /\ a <= a' <= a + length picks /\ length x' = length x /\ (u <= length rs -> u' <= length rs).
Proof.
  induction 1; unfold flipped in *; rewrite ?upd_nth_length in *; cbn [length] in *.
  - lia.
  - lia.
  - assert (u < length rs) by (apply nth_error_Some; congruence). lia.
  - assert (u < length rs) by (apply nth_error_Some; congruence). lia.
Qed.
Lemma visits_none E bz temp rs x u a picks x' u' a' : visits E bz temp rs x u a picks x' u' a' -> a' = a ->
  x' = x /\ forall i, In i picks -> (E x < E (flipped i x))%Qc.
Proof.
  induction 1; intros HA.
  - split; auto. intros i [].
  - apply visits_used in H0. lia.
  - apply visits_used in H3. lia.
  - destruct (IHvisits HA) as [-> HI]. split; auto. intros j [<-|HJ]; auto.
Qed.
Lemma flipped_entries (P : Z -> Prop) i x : (forall z, P z -> P (- z)%Z) -> Forall P x -> Forall P (flipped i x).
Proof.
  unfold flipped. intros HP. revert i. induction x as [|z x IH]; intros [|i] HF; simpl; auto; inversion HF; subst; constructor; auto.
Qed.
Lemma visits_entries (P : Z -> Prop) E bz temp rs x u a picks x' u' a' : (forall z, P z -> P (- z)%Z) ->
  visits E bz temp rs x u a picks x' u' a' -> Forall P x -> Forall P x'.
Proof. intros HP. induction 1; intros HF; auto; apply IHvisits; auto; apply flipped_entries; auto. Qed.
(** With a Boltzmann factor of at most 0 (temperature 0) no flip raises the energy. *)
Lemma visits_greedy E bz temp rs x u a picks x' u' a' :
  (forall d pr, bz d temp = Ok pr -> (pr <= 0)%Qc) -> Forall (fun v => (0 <= v)%Qc) rs ->
  visits E bz temp rs x u a picks x' u' a' -> (E x' <= E x)%Qc.
Proof.
  intros HB HR. induction 1; auto.
  - apply Qcle_refl.
  - eapply Qcle_trans; eauto.
  - apply HB in H0. rewrite Forall_forall in HR. apply nth_error_In in H1. apply HR in H1.
    exfalso. clear - H0 H1 H2. qc2q. lra.
Qed.
Lemma annealed_facts E bz rs x u plan es acc x' u' : annealed E bz rs x u plan es acc x' u' ->
  length es = length plan /\ length acc = length plan /\ length x' = length x /\ (u <= length rs -> u' <= length rs) /\
  u' <= u + list_sum (map (fun tp => length (snd tp)) plan) /\ Forall2 (fun a tp => a <= length (snd tp)) acc plan.
Proof.
  induction 1; cbn [length map list_sum fold_right snd].
  - repeat split; auto; lia.
  - apply visits_used in H. destruct H as (H1 & H2 & H3 & H4). destruct IHannealed as (I1 & I2 & I3 & I4 & I5 & I6).
    unfold list_sum in *. repeat split; auto; try lia. constructor; auto. simpl; lia.
Qed.
Lemma annealed_entries (P : Z -> Prop) E bz rs x u plan es acc x' u' : (forall z, P z -> P (- z)%Z) ->
  annealed E bz rs x u plan es acc x' u' -> Forall P x -> Forall P x'.
Proof. intros HP. induction 1; auto. intros HF. apply IHannealed. eapply visits_entries; eauto. Qed.
Lemma annealed_app E bz rs x u p1 e1 a1 x1 u1 p2 e2 a2 x' u' : annealed E bz rs x u p1 e1 a1 x1 u1 ->
  annealed E bz rs x1 u1 p2 e2 a2 x' u' -> annealed E bz rs x u (p1 ++ p2) (e1 ++ e2) (a1 ++ a2) x' u'.
Proof. induction 1; intros H2; cbn [app]; auto. econstructor; eauto. Qed.
(** The last sweep: when it accepted nothing the final spins are a strict local minimum. *)
Lemma annealed_last E bz rs x u plan t picks es acc x' u' :
  annealed E bz rs x u (plan ++ [(t, picks)]) es (acc ++ [0]) x' u' -> forall i, In i picks -> (E x' < E (flipped i x'))%Qc.
Proof.
  remember (plan ++ [(t, picks)]) as pl eqn:EP. remember (acc ++ [0]) as ac eqn:EA. intros H. revert plan acc EP EA.
  induction H as [x u|x u t' p' pl x1 u1 a es ac x' u' HV HA IH]; intros plan acc EP EA i HI; [destruct plan; discriminate|].
  destruct plan as [|tp plan]; cbn [app] in EP; inversion EP; subst.
  - inversion HA; subst. destruct acc as [|a1 [|b acc]]; cbn [app] in EA; inversion EA; subst.
    destruct (visits_none _ _ _ _ _ _ _ _ _ _ _ HV eq_refl) as [-> HV']. auto.
  - destruct acc as [|a1 acc]; cbn [app] in EA; inversion EA; subst.
    + inversion HA. destruct plan; discriminate.
    + eapply IH; eauto.
Qed.

(** ** Temperatures *)
Definition phase (o : options) (k : nat) (st : sweepst) : Prop :=
  s_temp st = temp_at o k /\
  match o_reverse o with
  | RNone => s_reversing st = false
  | RDict d => exists rt per, dget "reverse_temperature" d = Some rt /\ dget "reverse_period" d = Some per /\
      (if s_reversing st then s_target st = (rt * o_rate o ^ k)%Qc else (per <= qz (Z.of_nat k))%Qc)
  | ROther _ => False
  end.
Definition picked (g : generator) (o : options) (n : nat) (idxs : list nat) : Prop :=
  if String.eqb (o_pickup o) "random" then exists tr, idxs = g_perm g (RPermutation n :: tr) else idxs = seq 0 n.

Section Sweeps.
Variables (p : physical) (ls : list string) (orig b : bqm) (lin : list Qc) (adj : list (dict nat Qc)).
Hypothesis HS : prepared p ls orig b lin adj.
Variables (w : world) (g : generator) (o : options).
Notation n := (length (b_linear b)).
Notation E := (vector_energy p).
Notation tracked := (tracked p b).

Lemma sweep_spec rs st k st' : sweep_once w g o lin adj n rs st k = Ok st' -> tracked (k_x (s_walk st)) (k_energy (s_walk st)) ->
  tracked (k_x (s_walk st')) (k_energy (s_walk st')) /\
  exists idxs a, picked g o n idxs /\
    visits E (w_boltz w) (s_temp st) rs (k_x (s_walk st)) (k_used (s_walk st)) 0 idxs (k_x (s_walk st')) (k_used (s_walk st')) a /\
    s_ehist st' = s_ehist st ++ [E (k_x (s_walk st)) - qz 2 * p_offset p]%Qc /\
    s_thist st' = s_thist st ++ [s_temp st] /\ s_ahist st' = s_ahist st ++ [a].
Proof.
  intros H HT. unfold sweep_once in H. apply rbind_ok in H. destruct H as (rv & HR & H).
  destruct (pickups g (o_pickup o) n (s_trace st)) as [idxs tr] eqn:EP. apply rbind_ok in H. destruct H as (k' & HF & H).
  apply rbind_ok in H. destruct H as ([t' tg] & HTT & H).
  destruct (flips_spec _ _ _ _ _ _ HS _ _ _ _ _ _ HF) as (T1 & V1); [exact HT|]. cbn [k_x k_used k_acc] in V1.
  inversion H; subst st'. cbn [s_walk s_ehist s_thist s_ahist]. split; auto. exists idxs, (k_acc k'). split.
  - unfold picked, pickups in *. destruct (String.eqb (o_pickup o) "random"); inversion EP; subst; eauto.
  - split; auto. split; auto. destruct HT as [_ ->]. reflexivity.
Qed.
Lemma sweep_phase rs st k st' : sweep_once w g o lin adj n rs st k = Ok st' -> phase o k st -> phase o (S k) st'.
Proof.
  intros H (HT & HP). unfold sweep_once in H. apply rbind_ok in H. destruct H as (rv & HR & H).
  destruct (pickups g (o_pickup o) n (s_trace st)) as [idxs tr] eqn:EP. apply rbind_ok in H. destruct H as (k' & HF & H).
  apply rbind_ok in H. destruct H as ([t' tg] & HTT & H). inversion H; subst st'. clear H HF EP. unfold phase. cbn [s_temp s_reversing s_target fst snd].
  unfold temp_at in *. destruct (o_reverse o) as [|d|?]; [| |destruct HP].
  - rewrite HP in HR. inversion HR; subst rv. inversion HTT; subst. split; auto. rewrite HT. cbn [Qcpower]. ring.
  - destruct HP as (rt & per & D1 & D2 & HP). rewrite D1, D2 in *. unfold rev_get in *. rewrite ?D1, ?D2 in *. cbn [rbind] in *.
    cbn [reverse_temp]. destruct (s_reversing st).
    + inversion HR; subst rv. destruct (Qcle_bool per (qz (Z.of_nat k))) eqn:EB; cbn [negb] in *; inversion HTT; subst.
      * rewrite HT. split; auto. exists rt, per. split; auto. split; auto. apply Qcle_bool_iff in EB. eapply Qcle_trans; eauto. apply qz_le. lia.
      * rewrite HP. split; [cbn [Qcpower]; ring|]. exists rt, per. split; auto. split; auto. cbn [Qcpower]. ring.
    + inversion HR; subst rv. inversion HTT; subst. rewrite (proj2 (Qcle_bool_iff _ _) HP). rewrite HT. split; auto.
      exists rt, per. split; auto. split; auto. eapply Qcle_trans; eauto. apply qz_le. lia.
Qed.
Lemma sweeps_spec rs : forall ks st st', sweeps w g o lin adj n rs st ks = Ok st' -> tracked (k_x (s_walk st)) (k_energy (s_walk st)) ->
  tracked (k_x (s_walk st')) (k_energy (s_walk st')) /\
  exists plan es acc,
    annealed E (w_boltz w) rs (k_x (s_walk st)) (k_used (s_walk st)) plan es acc (k_x (s_walk st')) (k_used (s_walk st')) /\
    s_ehist st' = s_ehist st ++ map (fun e => e - qz 2 * p_offset p)%Qc es /\
    s_thist st' = s_thist st ++ map fst plan /\ s_ahist st' = s_ahist st ++ acc /\
    length plan = length ks /\ Forall (fun tp => picked g o n (snd tp)) plan.
Proof.
  induction ks as [|k ks IH]; intros st st' H HT; cbn [sweeps] in H.
  - inversion H; subst. split; auto. exists [], [], []. split; [constructor|]. rewrite !app_nil_r. auto.
  - apply rbind_ok in H. destruct H as (st1 & H1 & H). destruct (sweep_spec _ _ _ _ H1 HT) as (T1 & idxs & a & P1 & V1 & E1 & E2 & E3).
    destruct (IH _ _ H T1) as (T2 & plan & es & acc & A & F1 & F2 & F3 & F4 & F5). split; auto.
    exists ((s_temp st, idxs) :: plan), (E (k_x (s_walk st)) :: es), (a :: acc). split; [econstructor; eauto|].
    rewrite F1, F2, F3, E1, E2, E3, <- !app_assoc. cbn [map app fst length]. repeat split; auto.
Qed.
Lemma sweeps_temps rs : forall m k st st', sweeps w g o lin adj n rs st (seq k m) = Ok st' -> phase o k st ->
  s_thist st' = s_thist st ++ map (temp_at o) (seq k m).
Proof.
  induction m as [|m IH]; intros k st st' H HP; cbn [seq sweeps] in H.
  - inversion H; subst. cbn [seq map]. rewrite app_nil_r. auto.
  - apply rbind_ok in H. destruct H as (st1 & H1 & H). rewrite (IH _ _ _ H (sweep_phase _ _ _ _ H1 HP)).
    assert (E2 : s_thist st1 = s_thist st ++ [s_temp st]).
    { unfold sweep_once in H1. apply rbind_ok in H1. destruct H1 as (? & _ & H1). destruct (pickups _ _ _ _). apply rbind_ok in H1. destruct H1 as (? & _ & H1).
      apply rbind_ok in H1. destruct H1 as (? & _ & H1). inversion H1; subst. reflexivity. }
    rewrite E2. destruct HP as [-> _]. rewrite <- app_assoc. reflexivity.
Qed.
Lemma picked_lt idxs : rng_ok g -> picked g o n idxs -> Permutation idxs (seq 0 n).
Proof.
  unfold picked. intros HG. destruct (String.eqb (o_pickup o) "random"); [intros [tr ->]; apply (rng_perm _ HG)|intros ->; auto].
Qed.
Lemma sweeps_total rs : rng_ok g -> (forall d k, (0 < d)%Qc -> exists pr, w_boltz w d (temp_at o k) = Ok pr) ->
  forall m k st, tracked (k_x (s_walk st)) (k_energy (s_walk st)) -> phase o k st ->
  k_used (s_walk st) + m * n <= length rs -> exists st', sweeps w g o lin adj n rs st (seq k m) = Ok st'.
Proof.
  intros HG HB. induction m as [|m IH]; intros k st HT HP HU; cbn [seq sweeps]; [eauto|].
  assert (H1 : exists st1, sweep_once w g o lin adj n rs st k = Ok st1).
  { unfold sweep_once. assert (HR : exists rv, (if s_reversing st then rbind (rev_get "reverse_period" (o_reverse o)) (fun per => Ok (negb (Qcle_bool per (qz (Z.of_nat k))))) else Ok false) = Ok rv
        /\ (rv = true -> exists d, o_reverse o = RDict d)).
    { destruct HP as [_ HP]. destruct (o_reverse o) as [|d|?].
      - rewrite HP. eexists; split; eauto. discriminate.
      - destruct HP as (rt & per & D1 & D2 & _). unfold rev_get. rewrite D2. destruct (s_reversing st); eexists; split; try reflexivity; eauto.
      - destruct HP. }
    destruct HR as (rv & -> & HV). cbn [rbind]. destruct (pickups g (o_pickup o) n (s_trace st)) as [idxs tr] eqn:EP.
    assert (HI : Permutation idxs (seq 0 n)).
    { apply picked_lt; auto. unfold picked, pickups in *. destruct (String.eqb (o_pickup o) "random"); inversion EP; subst; eauto. }
    destruct (flips_total _ _ _ _ _ _ HS w rs (s_temp st)) with (idxs := idxs) (k := mkWalk (k_x (s_walk st)) (k_energy (s_walk st)) (k_used (s_walk st)) 0) as [k' ->].
    - destruct HP as [-> _]. intros d HD. apply HB; auto.
    - exact HT.
    - apply Forall_forall. intros i Hi. apply (Permutation_in i HI) in Hi. apply in_seq in Hi. lia.
    - rewrite (Permutation_length HI), seq_length. cbn [k_used]. lia.
    - cbn [rbind]. destruct rv; [|cbn [rbind]; eauto]. destruct (HV eq_refl) as [d ED]. destruct HP as [_ HP]. rewrite ED in *.
      destruct HP as (rt & per & D1 & _). unfold rev_get. rewrite D1. cbn [rbind]. eauto. }
  destruct H1 as [st1 H1]. rewrite H1. cbn [rbind]. destruct (sweep_spec _ _ _ _ H1 HT) as (T1 & idxs & a & P1 & V1 & _).
  apply IH; auto; [eapply sweep_phase; eauto|]. apply visits_used in V1. apply picked_lt in P1; auto. apply Permutation_length in P1.
  rewrite seq_length in P1. lia.
Qed.
End Sweeps.

(** ** One read *)
Lemma lin_energy_ok s : forall d t, lin_energy s d = Ok t -> t = dsum (value_of s) d.
Proof.
  unfold dsum. induction d as [|[l c] d IH]; intros t H; cbn [lin_energy] in H; [inversion H; auto|].
  apply rbind_ok in H. destruct H as (v & HV & H). apply rbind_ok in H. destruct H as (t' & HT & H). inversion H. cbn [map qsum fst snd].
  rewrite (IH _ HT). unfold spin_in in HV. unfold value_of at 2. destruct (dget l s); inversion HV; auto.
Qed.
Lemma quad_energy_ok s : forall d t, quad_energy s d = Ok t -> t = dsum (fun ab => value_of s (fst ab) * value_of s (snd ab))%Qc d.
Proof.
  unfold dsum. induction d as [|[[a b] c] d IH]; intros t H; cbn [quad_energy] in H; [inversion H; auto|].
  apply rbind_ok in H. destruct H as (v & HV & H). apply rbind_ok in H. destruct H as (v2 & HV2 & H). apply rbind_ok in H. destruct H as (t' & HT & H).
  inversion H. cbn [map qsum fst snd]. rewrite (IH _ HT). unfold spin_in in *. unfold value_of at 3 4.
  destruct (dget a s); inversion HV; destruct (dget b s); inversion HV2; auto.
Qed.
Lemma bqm_energy_ok b s e : bqm_energy b s = Ok e -> e = energy_bqm (value_of s) b.
Proof.
  unfold bqm_energy. intros H. apply rbind_ok in H. destruct H as (l & HL & H). apply rbind_ok in H. destruct H as (q & HQ & H).
  apply lin_energy_ok in HL. apply quad_energy_ok in HQ. inversion H. rewrite energy_bqm_dsum. subst. auto.
Qed.
Lemma bqm_energy_total b s : wf_bqm b -> (forall l, In l (bqm_variables b) -> exists z, dget l s = Some z) -> exists e, bqm_energy b s = Ok e.
Proof.
  intros (_ & _ & W3) HA. unfold bqm_energy.
  assert (HL : exists t, lin_energy s (b_linear b) = Ok t).
  { unfold bqm_variables in HA. revert HA. clear W3. induction (b_linear b) as [|[l c] d IH]; intros HA; cbn [lin_energy]; [eauto|].
    unfold spin_in. destruct (HA l) as [z ->]; [simpl; auto|]. cbn [rbind]. destruct IH as [t ->]; [intros; apply HA; simpl; auto|]. cbn [rbind]. eauto. }
  assert (HQ : exists t, quad_energy s (b_quad b) = Ok t).
  { assert (HB : forall u v, In (u, v) (dkeys (b_quad b)) -> (exists z, dget u s = Some z) /\ (exists z, dget v s = Some z)).
    { intros u v HI. destruct (W3 u v HI) as (_ & H1 & H2 & _). auto. }
    clear W3 HL HA. revert HB. induction (b_quad b) as [|[[u v] c] d IH]; intros HB; cbn [quad_energy]; [eauto|].
    unfold spin_in. destruct (HB u v) as [[z1 ->] [z2 ->]]; [simpl; auto|]. cbn [rbind]. destruct IH as [t ->]; [intros; apply HB; simpl; auto|]. cbn [rbind]. eauto. }
  destruct HL as [t1 ->], HQ as [t2 ->]. cbn [rbind]. eauto.
Qed.

Definition spinz (z : Z) : Prop := z = 1%Z \/ z = (-1)%Z.
Lemma spin_opp z : spinz z -> spinz (- z)%Z.
Proof. unfold spinz. lia. Qed.
Lemma spin_bits l : Forall spinz (map spin_of_bit l).
Proof. induction l as [|[] l IH]; constructor; unfold spinz; auto. Qed.

Section Reads.
Variables (p : physical) (ls : list string) (orig b : bqm) (lin : list Qc) (adj : list (dict nat Qc)).
Hypothesis HS : prepared p ls orig b lin adj.
Variables (w : world) (g : generator) (o : options).
Hypothesis HG : rng_ok g.
Notation n := (length (b_linear b)).
Notation E := (vector_energy p).

Lemma fill_state_spec s0 vs : forall x x', fill_state p vs s0 x = Ok x' -> NoDup vs ->
  length x' = length x /\
  (forall v, In v vs -> exists i z, dget v (p_l2i p) = Some i /\ dget v s0 = Some z /\ nth_error x' i = Some z) /\
  (forall j, (forall v, In v vs -> dget v (p_l2i p) <> Some j) -> nth_error x' j = nth_error x j).
Proof.
  induction vs as [|v vs IH]; intros x x' H ND; cbn [fill_state] in H.
  - inversion H; subst. split; auto. split; [intros ? []|auto].
  - inversion ND; subst. apply rbind_ok in H. destruct H as (i & EI & H). apply l2i_ok in EI.
    destruct (dget v s0) as [z|] eqn:EZ; [|discriminate]. destruct (set_nth i z x) as [x1|] eqn:ES; [|discriminate].
    destruct (IH _ _ H H3) as (L & A & B). split; [rewrite L; eapply set_nth_length; eauto|]. split.
    + intros v' [HI|HI]; [|auto]. subst v'. exists i, z. split; auto. split; auto. rewrite B.
      * rewrite (set_nth_nth _ _ _ _ i ES), Nat.eqb_refl. reflexivity.
      * intros v' HV HG'. assert (v' = v) by (eapply (l2i_inj p ls (pr_maps _ _ _ _ _ _ HS)); eauto). subst. contradiction.
    + intros j HJ. rewrite B by (intros; apply HJ; simpl; auto). rewrite (set_nth_nth _ _ _ _ j ES).
      destruct (Nat.eqb_spec j i); auto. subst. exfalso. apply (HJ v); simpl; auto.
Qed.
Lemma fill_state_total s0 vs : forall x, length x = n -> (forall v, In v vs -> In v ls /\ exists z, dget v s0 = Some z) ->
  exists x', fill_state p vs s0 x = Ok x'.
Proof.
  induction vs as [|v vs IH]; intros x HX HV; cbn [fill_state]; [eauto|]. destruct (HV v) as [HL [z EZ]]; [simpl; auto|].
  destruct (In_nth_error _ _ HL) as [i EI]. destruct (pr_maps _ _ _ _ _ _ HS) as (_ & HM & _).
  unfold l2i. rewrite (proj2 (HM v i) EI), EZ. cbn [rbind].
  destruct (set_nth_some i z x) as [x1 ES]; [rewrite HX, (pr_n _ _ _ _ _ _ HS); apply nth_error_Some; congruence|].
  rewrite ES. apply IH; [rewrite (set_nth_length _ _ _ _ ES); auto|intros; apply HV; simpl; auto].
Qed.
(** The initial spins: drawn, or the given state. *)
Definition starts (s0 : option (dict string Z)) (x : list Z) : Prop :=
  match s0 with
  | None => Forall spinz x
  | Some s => forall i l, nth_error ls i = Some l -> exists z, dget l s = Some z /\ nth_error x i = Some z
  end.
Lemma initial_spec s0 tr x tr' : initial_spins g p b s0 tr = Ok (x, tr') -> length x = n /\ starts s0 x.
Proof.
  unfold initial_spins. destruct s0 as [s|]; intros H.
  - apply rbind_ok in H. destruct H as (x1 & HF & H). inversion H; subst. destruct (fill_state_spec _ _ _ _ HF) as (L & A & _).
    { apply (pr_wf _ _ _ _ _ _ HS). }
    rewrite repeat_length in L. split; auto. intros i l HN. destruct (A l) as (j & z & H1 & H2 & H3).
    { apply (pr_in _ _ _ _ _ _ HS). eapply nth_error_In; eauto. }
    destruct (pr_maps _ _ _ _ _ _ HS) as (_ & HM & _). apply HM in HN. rewrite HN in H1. inversion H1; subst. eauto.
  - inversion H; subst. rewrite map_length, (rng_bits _ HG). split; auto. apply spin_bits.
Qed.
Lemma initial_total s0 tr : (forall s, s0 = Some s -> forall l, In l ls -> exists z, dget l s = Some z) ->
  exists xt, initial_spins g p b s0 tr = Ok xt.
Proof.
  unfold initial_spins. destruct s0 as [s|]; intros HI; [|eauto].
  destruct (fill_state_total s (bqm_variables b) (repeat 1%Z n)) as [x ->]; [apply repeat_length| |cbn [rbind]; eauto].
  intros v HV. apply (pr_in _ _ _ _ _ _ HS) in HV. eauto.
Qed.

(** What one read returns. *)
Record read_spec (s0 : option (dict string Z)) (d : read) : Prop := mkReadSpec {
  rd_run : exists x0 plan es acc x rs u,
    length x0 = length ls /\ starts s0 x0 /\ length x = length ls /\
    length plan = Z.to_nat (o_sweeps o) /\ length rs = length plan * length ls /\
    Forall (fun v => (0 <= v)%Qc /\ (v < 1)%Qc) rs /\
    Forall (fun tp => Permutation (snd tp) (seq 0 (length ls))) plan /\
    (o_pickup o <> "random"%string -> Forall (fun tp => snd tp = seq 0 (length ls)) plan) /\
    annealed E (w_boltz w) rs x0 0 plan es acc x u /\
    d_sample d = combine ls x /\ d_energy d = E x /\
    d_ehist d = map (fun e => e - qz 2 * p_offset p)%Qc es /\ d_thist d = map fst plan /\ d_ahist d = acc;
  rd_temps : Z.to_nat (o_sweeps o) = 0 \/ reverse_ok (o_reverse o) -> d_thist d = map (temp_at o) (seq 0 (Z.to_nat (o_sweeps o))) }.

Lemma annealing_spec s0 tr d tr' : annealing w g o p orig b lin adj s0 tr = Ok (d, tr') -> read_spec s0 d.
Proof.
  intros H. unfold annealing in H. apply rbind_ok in H. destruct H as ([x0 t1] & H0 & H). cbn [fst snd] in H.
  destruct (initial_spec _ _ _ _ H0) as (L0 & S0). apply rbind_ok in H. destruct H as (e0 & HE & H). apply bqm_energy_ok in HE.
  apply rbind_ok in H. destruct H as ([tm tg] & HTT & H). destruct (o_sweeps o * Z.of_nat n <? 0)%Z eqn:EN; [discriminate|].
  apply rbind_ok in H. destruct H as (st & HW & H). inversion H; subst d tr'. clear H. apply Z.ltb_ge in EN.
  pose proof (pr_n _ _ _ _ _ _ HS) as HN. pose proof (pr_maps _ _ _ _ _ _ HS) as HM.
  assert (HT : tracked p b x0 (- (1) * e0)%Qc).
  { split; auto. rewrite HE. rewrite (energy_bqm_ext b (value_of (make_sample p x0)) (spins p x0)).
    - transitivity (- energy_bqm (spins p x0) b)%Qc; [ring|]. apply (pr_energy _ _ _ _ _ _ HS).
    - apply (value_of_spins p ls HM). congruence. }
  match type of HW with sweeps _ _ _ _ _ _ ?R ?S _ = _ => set (rs := R) in *; set (st0 := S) in * end.
  destruct (sweeps_spec _ _ _ _ _ _ HS w g o rs _ _ _ HW HT) as (T2 & plan & es & acc & A & F1 & F2 & F3 & F4 & F5).
  cbn [st0 s_ehist s_thist s_ahist s_walk k_x k_used app] in A, F1, F2, F3. rewrite seq_length in F4.
  destruct (annealed_facts _ _ _ _ _ _ _ _ _ _ A) as (_ & _ & LX & _). split.
  - exists x0, plan, es, acc, (k_x (s_walk st)), rs, (k_used (s_walk st)). rewrite <- HN. split; auto. split; auto. split; [congruence|].
    split; auto. split.
    { unfold rs. rewrite (proj1 (rng_floats _ HG _ _)), F4. destruct (Z.le_gt_cases 0 (o_sweeps o)) as [HZ|HZ].
      - rewrite Z2Nat.inj_mul by lia. rewrite Nat2Z.id. reflexivity.
      - replace (Z.to_nat (o_sweeps o)) with 0 by lia. assert (Z.of_nat n = 0%Z) by nia. rewrite H. rewrite Z.mul_0_r. reflexivity. }
    split; [apply (rng_floats _ HG)|]. split; [eapply Forall_impl; [|exact F5]; intros tp HP; apply (picked_lt b g o (snd tp) HG HP)|].
    split; [intros NR; eapply Forall_impl; [|exact F5]; intros tp HP; unfold picked in HP; destruct (String.eqb_spec (o_pickup o) "random"); [contradiction|exact HP]|].
    split; auto. cbn [d_sample d_energy d_ehist d_thist d_ahist]. split; [apply (make_sample_eq p ls HM); congruence|].
    split; auto. destruct T2 as [_ ->]. rewrite (pr_offset _ _ _ _ _ _ HS). ring.
  - cbn [d_thist]. intros [HZ|HR].
    + rewrite HZ in *. cbn [seq sweeps] in HW. inversion HW; subst st. reflexivity.
    + rewrite (sweeps_temps b lin adj w g o rs _ _ _ _ HW); [reflexivity|].
      unfold phase, temp_at. cbn [st0 s_temp s_reversing s_target fst snd]. destruct (o_reverse o) as [|dd|]; [| |destruct HR].
      * inversion HTT; subst. split; auto. cbn [Qcpower]. cbn [fst]. ring.
      * destruct HR as [[per HR1] [rt HR2]]. rewrite HR1, HR2. assert (TR : rev_truthy (RDict dd) = true) by (destruct dd; [discriminate|reflexivity]).
        rewrite TR in HTT. unfold rev_get in HTT. rewrite HR2 in HTT. cbn [rbind] in HTT. inversion HTT; subst. split; auto.
        exists tg, per. split; auto. split; auto. cbn [Qcpower]. ring.
Qed.
Lemma annealing_total s0 tr : (0 <= o_sweeps o)%Z -> (o_sweeps o = 0%Z /\ (forall t, o_reverse o <> ROther t) \/ reverse_ok (o_reverse o)) ->
  (forall d k, (0 < d)%Qc -> exists pr, w_boltz w d (temp_at o k) = Ok pr) ->
  (forall s, s0 = Some s -> forall l, In l ls -> exists z, dget l s = Some z) ->
  (forall d, o_reverse o = RDict d -> d <> [] -> exists v, dget "reverse_temperature" d = Some v) ->
  exists dt, annealing w g o p orig b lin adj s0 tr = Ok dt.
Proof.
  intros HZ HR HB HI HD. unfold annealing. destruct (initial_total s0 tr HI) as [[x0 t1] H0]. rewrite H0. cbn [rbind fst snd].
  destruct (initial_spec _ _ _ _ H0) as (L0 & S0). pose proof (pr_n _ _ _ _ _ _ HS) as HN. pose proof (pr_maps _ _ _ _ _ _ HS) as HM.
  destruct (bqm_energy_total b (make_sample p x0)) as [e0 HE].
  { apply (pr_wf _ _ _ _ _ _ HS). }
  { intros l HL. apply (pr_in _ _ _ _ _ _ HS) in HL. rewrite (make_sample_eq p ls HM) by congruence. apply dget_some_in. unfold dkeys. rewrite map_fst_combine; [auto|congruence]. }
  rewrite HE. cbn [rbind]. apply bqm_energy_ok in HE.
  assert (HT : tracked p b x0 (- (1) * e0)%Qc).
  { split; auto. rewrite HE. rewrite (energy_bqm_ext b (value_of (make_sample p x0)) (spins p x0)).
    - transitivity (- energy_bqm (spins p x0) b)%Qc; [ring|]. apply (pr_energy _ _ _ _ _ _ HS).
    - apply (value_of_spins p ls HM). congruence. }
  assert (HTT : exists tt, (if rev_truthy (o_reverse o) then rbind (rev_get "reverse_temperature" (o_reverse o)) (fun rt => Ok (tiny, rt)) else Ok (o_temp o, 0%Qc)) = Ok tt).
  { destruct (o_reverse o) as [|d|t]; cbn [rev_truthy]; eauto.
    - destruct d as [|kv d]; cbn [length Nat.eqb negb]; [eauto|]. destruct (HD _ eq_refl) as [v HV]; [discriminate|]. unfold rev_get. rewrite HV. cbn [rbind]. eauto.
    - destruct HR as [[_ HR]|[]]. exfalso. apply (HR t eq_refl). }
  destruct HTT as [[tm tg] HTT]. rewrite HTT. cbn [rbind fst snd]. destruct (o_sweeps o * Z.of_nat n <? 0)%Z eqn:EN; [apply Z.ltb_lt in EN; nia|].
  destruct HR as [[HR _]|HR].
  - rewrite HR. cbn [Z.to_nat seq sweeps rbind]. eauto.
  - match goal with |- context [sweeps _ _ _ _ _ _ ?R ?S _] => set (rs := R); set (st0 := S) end.
    destruct (sweeps_total _ _ _ _ _ _ HS w g o rs HG HB (Z.to_nat (o_sweeps o)) 0 st0) as [st ->]; [exact HT| | |cbn [rbind]; eauto].
    + unfold phase, temp_at. cbn [st0 s_temp s_reversing s_target fst snd]. destruct (o_reverse o) as [|dd|]; [| |destruct HR].
      * inversion HTT; subst. split; auto. cbn [Qcpower]. ring.
      * destruct HR as [[per HR1] [rt HR2]]. rewrite HR1, HR2. assert (TR : rev_truthy (RDict dd) = true) by (destruct dd; [discriminate|reflexivity]).
        rewrite TR in HTT. unfold rev_get in HTT. rewrite HR2 in HTT. cbn [rbind] in HTT. inversion HTT; subst. split; auto.
        exists tg, per. split; auto. split; auto. cbn [Qcpower]. ring.
    + unfold rs. rewrite (proj1 (rng_floats _ HG _ _)). cbn [st0 s_walk k_used]. rewrite Z2Nat.inj_mul by lia. rewrite Nat2Z.id. lia.
Qed.
Lemma reads_spec : forall inits tr l, reads w g o p orig b lin adj inits tr = Ok l -> Forall2 read_spec inits l.
Proof.
  induction inits as [|s0 inits IH]; intros tr l H; cbn [reads] in H; [inversion H; constructor|].
  apply rbind_ok in H. destruct H as ([d t1] & H1 & H). apply rbind_ok in H. destruct H as (l' & H2 & H). inversion H; subst.
  constructor; [|eauto]. eapply annealing_spec; eauto.
Qed.
Lemma reads_total : (0 <= o_sweeps o)%Z -> reverse_ok (o_reverse o) ->
  (forall d k, (0 < d)%Qc -> exists pr, w_boltz w d (temp_at o k) = Ok pr) ->
  forall inits tr, (forall s, In (Some s) inits -> forall l, In l ls -> exists z, dget l s = Some z) ->
  exists l, reads w g o p orig b lin adj inits tr = Ok l.
Proof.
  intros HZ HR HB. induction inits as [|s0 inits IH]; intros tr HI; cbn [reads]; [eauto|].
  destruct (annealing_total s0 tr) as [[d t1] ->]; auto.
  - intros s ->. apply HI. simpl; auto.
  - intros d HD _. rewrite HD in HR. destruct HR; auto.
  - cbn [rbind fst snd]. destruct (IH t1) as [l ->]; [intros; eapply HI; simpl; eauto|]. cbn [rbind]. eauto.
Qed.
End Reads.

(** ** The sample set *)
Lemma combine_eqb (ls : list string) x y : NoDup ls -> length x = length ls -> length y = length ls ->
  sample_eqb (combine ls x) (combine ls y) = true <-> x = y.
Proof.
  intros ND HX HY. unfold sample_eqb, dict_eqb. split.
  - intros H. apply andb_true_iff in H. destruct H as [_ H]. rewrite forallb_forall in H.
    apply nth_ext with (d := 0%Z) (d' := 0%Z); [congruence|]. intros i Hi.
    destruct (nth_error x i) as [z|] eqn:EX; [|apply nth_error_None in EX; lia].
    destruct (nth_error y i) as [z'|] eqn:EY; [|apply nth_error_None in EY; lia].
    destruct (nth_error ls i) as [l|] eqn:EL; [|apply nth_error_None in EL; lia].
    rewrite (nth_error_nth _ _ _ EX), (nth_error_nth _ _ _ EY).
    specialize (H (l, z)). cbn [fst snd] in H. rewrite (in_dget l z' (combine ls y)) in H.
    + apply eqb_eq. apply H. apply nth_error_In with i. rewrite nth_error_combine, EL, EX. reflexivity.
    + unfold dkeys. rewrite map_fst_combine; auto.
    + apply nth_error_In with i. rewrite nth_error_combine, EL, EY. reflexivity.
  - intros ->. apply andb_true_iff. split; [apply Nat.eqb_refl|]. apply forallb_forall. intros [l z] HI. cbn [fst snd].
    rewrite (in_dget l z); [apply eqb_eq; auto| |auto]. unfold dkeys. rewrite map_fst_combine; auto.
Qed.
Definition vector_of (ls : list string) (r : srow) (x : list Z) : Prop := length x = length ls /\ fst (fst r) = combine ls x.
Definition count (r : srow) : nat := snd r.
Section Aggregate.
Variables (ls : list string) (E : list Z -> Qc).
Hypothesis ND : NoDup ls.
(** Rows of the aggregation [l] of the spin vectors [xs]. *)
Definition agg (l : list srow) (xs : list (list Z)) : Prop :=
  exists ys, NoDup ys /\ Forall2 (fun r y => length y = length ls /\ fst (fst r) = combine ls y /\ snd (fst r) = E y /\
                                             snd r = count_occ (list_eq_dec Z.eq_dec) xs y /\ 0 < snd r) l ys /\
             (forall x, In x xs -> In x ys).
Lemma agg_add l xs x : length x = length ls -> agg l xs -> agg (aggregate_add (combine ls x) (E x) l) (xs ++ [x]).
Proof.
  intros HX (ys & N & F & C). 
  assert (HC : forall y, count_occ (list_eq_dec Z.eq_dec) (xs ++ [x]) y = count_occ (list_eq_dec Z.eq_dec) xs y + (if list_eq_dec Z.eq_dec x y then 1 else 0)).
  { intros y. rewrite count_occ_app. cbn [count_occ]. destruct (list_eq_dec Z.eq_dec x y); lia. }
  assert (HF : forall l ys, ~ In x ys -> Forall2 (fun (r : srow) y => length y = length ls /\ fst (fst r) = combine ls y /\ snd (fst r) = E y /\
      snd r = count_occ (list_eq_dec Z.eq_dec) xs y /\ 0 < snd r) l ys ->
    Forall2 (fun (r : srow) y => length y = length ls /\ fst (fst r) = combine ls y /\ snd (fst r) = E y /\
      snd r = count_occ (list_eq_dec Z.eq_dec) (xs ++ [x]) y /\ 0 < snd r) l ys).
  { intros l0 ys0 HN H. induction H as [|r y l0 ys0 (A & B & C0 & D & P) H IH]; constructor; [|apply IH; intros HI; apply HN; simpl; auto].
    rewrite HC. destruct (list_eq_dec Z.eq_dec x y) as [->|]; [exfalso; apply HN; simpl; auto|]. repeat split; auto. lia. }
  destruct (in_dec (list_eq_dec Z.eq_dec) x ys) as [HI|HI].
  - exists ys. split; auto. split; [|intros z HZ; apply in_app_or in HZ; destruct HZ as [HZ|[<-|[]]]; auto].
    clear C. induction F as [|r y l ys (A & B & C0 & D & P) F IH]; [destruct HI|]. destruct r as [[s e] c]. cbn [fst snd] in *. cbn [aggregate_add].
    inversion N; subst. destruct (sample_eqb (combine ls y) (combine ls x)) eqn:EQ.
    + apply combine_eqb in EQ; auto. subst y. constructor; [|apply HF; auto]. cbn [fst snd]. rewrite HC.
      destruct (list_eq_dec Z.eq_dec x x); [|congruence]. repeat split; auto; lia.
    + assert (NE : x <> y) by (intros ->; rewrite (proj2 (combine_eqb ls y y ND A A) eq_refl) in EQ; discriminate).
      constructor; [|apply IH; auto; destruct HI; [congruence|auto]]. cbn [fst snd]. rewrite HC. destruct (list_eq_dec Z.eq_dec x y); [congruence|]. repeat split; auto; lia.
  - exists (ys ++ [x]). split; [apply NoDup_app_iff; split; auto; split; [constructor; [intros []|constructor]|intros z HZ [<-|[]]; auto]|]. split.
    + assert (HZ : count_occ (list_eq_dec Z.eq_dec) xs x = 0).
      { apply count_occ_not_In. auto. }
      clear C. induction F as [|r y l ys (A & B & C0 & D & P) F IH].
      * cbn [aggregate_add app]. constructor; [|constructor]. cbn [fst snd]. rewrite HC, HZ. destruct (list_eq_dec Z.eq_dec x x); [|congruence]. repeat split; auto.
      * destruct r as [[s e] c]. cbn [fst snd] in *. cbn [aggregate_add]. subst s.
        destruct (sample_eqb (combine ls y) (combine ls x)) eqn:EQ.
        { apply combine_eqb in EQ; auto. subst y. exfalso. apply HI. simpl; auto. }
        inversion N; subst. cbn [app]. constructor; [|apply IH; auto; intros HI'; apply HI; simpl; auto]. cbn [fst snd]. rewrite HC.
        destruct (list_eq_dec Z.eq_dec x y) as [->|]; [exfalso; apply HI; simpl; auto|]. repeat split; auto; lia.
    + intros z HZ. apply in_or_app. apply in_app_or in HZ. destruct HZ as [HZ|[<-|[]]]; [left; auto|right; simpl; auto].
Qed.
Lemma aggregate_spec l xs : Forall2 (fun r x => length x = length ls /\ d_sample r = combine ls x /\ d_energy r = E x) l xs -> agg (aggregate l) xs.
Proof.
  unfold aggregate. intros H.
  assert (HG : forall l xs acc done, Forall2 (fun r x => length x = length ls /\ d_sample r = combine ls x /\ d_energy r = E x) l xs -> agg acc done ->
    agg (fold_left (fun acc r => aggregate_add (d_sample r) (d_energy r) acc) l acc) (done ++ xs)).
  { intros l0 xs0 acc done H0. revert acc done. induction H0 as [|r x l0 xs0 (A & B & C) H0 IH]; intros acc done HA; cbn [fold_left].
    - rewrite app_nil_r. auto.
    - rewrite B, C. specialize (IH _ _ (agg_add _ _ _ A HA)). rewrite <- app_assoc in IH. exact IH. }
  apply (HG l xs [] [] H). exists []. split; [constructor|]. split; [constructor|intros ? []].
Qed.
Lemma agg_total l xs : agg l xs -> list_sum (map snd l) = length xs.
Proof.
  intros (ys & N & F & C). assert (HS : list_sum (map snd l) = list_sum (map (count_occ (list_eq_dec Z.eq_dec) xs) ys)).
  { clear N C. induction F as [|r y l ys (_ & _ & _ & D & _) F IH]; cbn [map list_sum fold_right]; auto. }
  rewrite HS. clear F HS. revert ys N C. induction xs as [|x xs IH]; intros ys N C.
  - cbn [length]. clear. induction ys; auto.
  - assert (HX : In x ys) by (apply C; simpl; auto). apply in_split in HX. destruct HX as (y1 & y2 & ->).
    assert (HZ : forall zs, ~ In x zs -> map (count_occ (list_eq_dec Z.eq_dec) (x :: xs)) zs = map (count_occ (list_eq_dec Z.eq_dec) xs) zs).
    { intros zs HN. apply map_ext_in. intros z Hz. cbn [count_occ]. destruct (list_eq_dec Z.eq_dec x z); auto. subst. contradiction. }
    apply NoDup_remove in N as N'. destruct N' as [_ N']. rewrite in_app_iff in N'.
    specialize (IH (y1 ++ x :: y2) N (fun z Hz => C z (or_intror Hz))). rewrite map_app, list_sum_app in *. cbn [map] in *.
    rewrite !HZ by tauto. cbn [count_occ]. destruct (list_eq_dec Z.eq_dec x x); [|congruence].
    unfold list_sum in *. cbn [fold_right length] in *. lia.
Qed.
End Aggregate.
