(** * PropsNHotSample: C107, the sample models with an n-hot constraint and what the
    exact solver answers. *)
From Coq Require Import Permutation.
From Verif Require Import PyBase PyLemmas Numbers Constraint LogicalModel Spec LogicalProofs ConstraintProofs PhysicalProofs ToPhysicalProofs Samples Physical BqmProofs
  History PropsHistory PropsConstraints PropsPhysical PropsBqm PropsState PropsAlike Solver SolverSpec PropsSolver Services PropsSolvers PropsPenalty
  NppStream PropsNppStream SampleModels PropsSampleModels PropsDetermined PropsConverts HeapProofs.
Local Open Scope string_scope.
Local Open Scope list_scope.

(** ** Specification *)

(** The variables name[0], ..., name[N-1]. *)
Definition cell (name : string) (i : nat) : string := name +++ "[" +++ str_of_nat i +++ "]".
Definition a_cell (name : string) (N : nat) (l : string) : Prop := exists i, i < N /\ l = cell name i.
(** The program builds a model, it can be converted, and the exact solver answers with
    every assignment of the N variables, each once. *)
Definition solves_cells (prog : LM unit) (t : mtype) (name : string) (N : nat) (ev : env) (evs : nat -> env) (fd : feed) (neal : sampler) (rows : list srow) : Prop :=
  exists m1 m2 p, prog (new_model t) = (m1, Ok tt) /\ to_physical ev evs fd m1 = (m2, Ok p) /\ local_solve true neal (Some p) = Ok rows /\
    NoDup (map (fun r : srow => fst (fst r)) rows) /\
    (forall s e c, In (s, e, c) rows -> NoDup (dkeys s) /\ (forall l, In l (dkeys s) <-> a_cell name N l) /\ Forall (legal t) (dvals s)) /\
    (forall f : nat -> Z, (forall i, i < N -> legal t (f i)) -> exists s e c, In (s, e, c) rows /\ forall i, i < N -> dget (cell name i) s = Some (f i)).
(** The energy of k ones: strength times the distance from n squared, up to a constant
    that depends on the type of the model only. *)
Definition hot_energy (t : mtype) (N n k : Z) (strength offset : Qc) : Qc :=
  (offset + strength * qz ((k - n) * (k - n) - n * n) +
   match t with Qubo => 0 | Ising => strength * qz (N * (4 * n - 1 - N)) / qz 2 end)%Qc.

(** ** The model *)
Definition cells (t : mtype) (name : string) (N : nat) : list var := map (fun i => mkVar (cell name i) (vt_of t)) (seq 0 N).
Definition hot_model (t : mtype) (name : string) (N : nat) (n : Z) (label : string) (st q : Qc) : lmodel :=
  with_offset (CNum q) (with_constrs [(label, NHot (cells t name N) n label st)] (with_vars [(name, mkArray [Z.of_nat N] (cells t name N))] (new_model t))).
Lemma cell_inj name i j : cell name i = cell name j -> i = j.
Proof.
  unfold cell. intros E. apply append_inj_l in E. change (brackets [i] = brackets [j]) in E. apply brackets_inj in E. congruence.
Qed.
Lemma cells_labels t name N : map v_label (cells t name N) = map (cell name) (seq 0 N).
Proof. unfold cells. now rewrite map_map. Qed.
Lemma nodup_cells name N : NoDup (map (cell name) (seq 0 N)).
Proof. apply FinFun.Injective_map_NoDup; [intros a b; apply cell_inj | apply seq_NoDup]. Qed.
Lemma cells_nodup t name N : NoDup (cells t name N).
Proof. eapply NoDup_map_inv. rewrite cells_labels. apply nodup_cells. Qed.
Lemma array_cells t name N : 0 < N -> has_char "*"%char name = false ->
  array_create name [Z.of_nat N] (vt_of t) = Ok (mkArray [Z.of_nat N] (cells t name N)).
Proof.
  intros HN HS. unfold array_create. rewrite HS. cbn [forallb]. destruct (Z.ltb_spec 0 (Z.of_nat N)) as [_|]; [|lia]. cbn [andb].
  do 2 f_equal. cbn [map indices]. rewrite Nat2Z.id. unfold cells. generalize (seq 0 N). induction l as [|i l IH]; [reflexivity|].
  cbn [flat_map map app]. f_equal. exact IH.
Qed.
Lemma declare_cells t name N : 0 < N -> has_char "*"%char name = false ->
  declare name [Z.of_nat N] (new_model t) = (with_vars [(name, mkArray [Z.of_nat N] (cells t name N))] (new_model t), Ok (mkArray [Z.of_nat N] (cells t name N))).
Proof.
  intros HN HS. unfold declare, bind. cbn [variables map check_shape sh_ints]. cbn [m_mtype new_model]. rewrite (array_cells t name N HN HS).
  cbn [dset m_vars new_model]. unfold get_variables_by_name, bind, get.
  assert (EG : forall v : array, dget name [(name, v)] = Some v) by (intros v; cbn [dget]; rewrite PyLemmas.eqb_refl; reflexivity).
  cbn [with_vars m_vars]. rewrite EG. reflexivity.
Qed.
Lemma prog_model t name N n label st q : 0 < N -> (0 < n)%Z -> label <> "" -> has_char "*"%char name = false ->
  (n_hot_model name N n label st ;;; set_offset (CNum q)) (new_model t) = (hot_model t name N n label st q, Ok tt).
Proof.
  intros HN Hn HL HS. unfold bind, n_hot_model at 1. unfold bind. rewrite (declare_cells t name N HN HS). cbn [a_bits].
  unfold mk_nhot. destruct (String.eqb_spec label ""); [congruence|]. cbn [check_variables_and_to_set].
  rewrite to_set_app by apply cells_nodup. destruct (Z.leb_spec n 0); [lia|]. reflexivity.
Qed.
Lemma hot_reachable t name N n label st q : 0 < N -> has_char "*"%char name = false -> reachable (hot_model t name N n label st q).
Proof.
  intros HN HS. pose proof (r_op env0 evs0 (OVariables (VName name) (ShTuple [ShInt (Z.of_nat N)])) _ (r_new t)) as R1.
  assert (E1 : fst (do_op env0 evs0 (OVariables (VName name) (ShTuple [ShInt (Z.of_nat N)])) (new_model t)) = with_vars [(name, mkArray [Z.of_nat N] (cells t name N))] (new_model t)).
  { cbn [do_op variables map check_shape sh_ints m_mtype new_model]. rewrite (array_cells t name N HN HS). reflexivity. }
  rewrite E1 in R1. apply (r_op env0 evs0 (OAddConstraint (Some (NHot (cells t name N) n label st)))) in R1.
  apply (r_op env0 evs0 (OOffset (CNum q))) in R1. exact R1.
Qed.

(** ** Its energy *)
Lemma hot_offset fd t name N n label st q a : energy fd a (hot_model t name N n label st q) = q.
Proof. unfold energy. cbn. ring. Qed.
Lemma hot_energies ev evs fd t name N n label st q m2 p a : lawful t a ->
  to_physical ev evs fd (hot_model t name N n label st q) = (m2, Ok p) ->
  energy_physical a p = hot_energy t (Z.of_nat N) n (Z.of_nat (hot_count a (cells t name N))) st q.
Proof.
  intros LA E. assert (HC : Forall constr_ok (dvals (m_constrs (hot_model t name N n label st q)))) by (constructor; [apply cells_nodup | constructor]).
  assert (HE : forall x k, hot x (cells t name N) = qz k -> penalties x (dvals (m_constrs (hot_model t name N n label st q))) = (st * qz ((k - n) * (k - n) - n * n))%Qc).
  { intros x k Hk. unfold penalties. cbn [m_constrs hot_model with_offset with_constrs dvals map snd qsum fold_right penalty]. rewrite Hk, qz_sub, !qz_mul, !qz_sub. ring. }
  unfold hot_energy. destruct t.
  - rewrite (C09_ising ev evs fd (hot_model Ising name N n label st q) m2 p a eq_refl eq_refl HC E LA), hot_offset, (HE _ (Z.of_nat (hot_count a (cells Ising name N)))).
    + f_equal. cbn [m_constrs hot_model with_offset with_constrs dvals map snd qsum fold_right ising_shift]. unfold count, cells.
      rewrite map_length, seq_length, !qz_mul, !qz_sub, !qz_mul, qz_1. field. discriminate.
    + rewrite hot_is_count by (apply PhysicalProofs.spin_to_binary, LA). now rewrite count_spin by apply LA.
  - rewrite (C09_qubo ev evs fd (hot_model Qubo name N n label st q) m2 p a eq_refl eq_refl HC E LA), hot_offset, (HE _ (Z.of_nat (hot_count a (cells Qubo name N)))).
    + ring.
    + apply hot_is_count, LA.
Qed.
(** The energy distinguishes numbers of ones that lie on one side of n. *)
Lemma hot_energy_lt t N n j k st q : (0 < st)%Qc -> (hot_energy t N n j st q <= hot_energy t N n k st q)%Qc <-> ((j - n) * (j - n) <= (k - n) * (k - n))%Z.
Proof.
  intros HS. unfold hot_energy. set (w := match t with Ising => _ | Qubo => _ end).
  assert (X : forall x y : Z, (st * qz x <= st * qz y)%Qc <-> (x <= y)%Z).
  { intros x y. rewrite <- (qz_le x y). split; intros H.
    - apply Qcmult_lt_0_le_reg_r with st; auto. rewrite !(Qcmult_comm _ st). auto.
    - rewrite !(Qcmult_comm st). apply Qcmult_le_compat_r; auto. apply Qclt_le_weak; auto. }
  assert (Y : forall x y, (q + st * qz x + w <= q + st * qz y + w)%Qc <-> (x <= y)%Z).
  { intros x y. rewrite <- X. split; intros H; qlin. }
  rewrite Y. lia.
Qed.

(** ** Its answers *)
Lemma hot_cells t name N a : hot_count a (cells t name N) = length (filter (fun i => Qc_eqb (a (cell name i)) 1%Qc) (seq 0 N)).
Proof. unfold hot_count, cells. generalize (seq 0 N). induction l as [|i l IH]; [reflexivity|]. cbn [map filter v_label]. destruct (Qc_eqb _ _); cbn [length]; auto. Qed.
Definition fill (t : mtype) (name : string) (k : nat) : assignment := fun l => if mem l (map (cell name) (seq 0 k)) then 1%Qc else qz (low t).
Lemma fill_lawful t name k : lawful t (fill t name k).
Proof. destruct t; intros l; unfold fill; destruct (mem _ _); auto. Qed.
Lemma fill_cell t name k i : fill t name k (cell name i) = qz (first_ones t k i).
Proof.
  unfold fill, first_ones. destruct (mem _ _) eqn:EM.
  - apply mem_in in EM. apply in_map_iff in EM as (j & EJ & HJ). apply cell_inj in EJ. subst j. apply in_seq in HJ. destruct (Nat.ltb_spec i k); [reflexivity|lia].
  - apply mem_nin in EM. destruct (Nat.ltb_spec i k) as [L|]; auto. exfalso. apply EM, in_map, in_seq. lia.
Qed.
Lemma first_count t N k : k <= N -> length (filter (fun i => Qc_eqb (qz (first_ones t k i)) 1%Qc) (seq 0 N)) = k.
Proof.
  intros HK. replace N with (k + (N - k)) by lia. rewrite seq_app, filter_app, app_length. cbn [plus].
  assert (F1 : forall l, (forall i, In i l -> i < k) -> length (filter (fun i => Qc_eqb (qz (first_ones t k i)) 1%Qc) l) = length l).
  { induction l as [|i l IH]; intros H; [reflexivity|]. cbn [filter]. unfold first_ones at 1. destruct (Nat.ltb_spec i k) as [|L].
    - change (Qc_eqb (qz 1) 1) with true. cbn [length]. rewrite IH; auto. intros; apply H; now right.
    - specialize (H i (or_introl eq_refl)). lia. }
  assert (F2 : forall l, (forall i, In i l -> k <= i) -> length (filter (fun i => Qc_eqb (qz (first_ones t k i)) 1%Qc) l) = 0).
  { induction l as [|i l IH]; intros H; [reflexivity|]. cbn [filter]. unfold first_ones at 1. destruct (Nat.ltb_spec i k) as [L|].
    - specialize (H i (or_introl eq_refl)). lia.
    - assert (EZ : Qc_eqb (qz (low t)) 1 = false) by (destruct t; reflexivity). rewrite EZ. apply IH. intros; apply H; now right. }
  rewrite F1, F2, seq_length by (intros i Hi; apply in_seq in Hi; lia). lia.
Qed.
Lemma fill_count t name N k : k <= N -> hot_count (fill t name k) (cells t name N) = k.
Proof.
  intros HK. rewrite hot_cells. etransitivity; [|exact (first_count t N k HK)]. f_equal. apply filter_ext. intros i. now rewrite fill_cell.
Qed.
Lemma hot_occurs ev evs fd t name N n label st q m2 p l : 0 < N -> (0 < st)%Qc -> has_char "*"%char name = false ->
  to_physical ev evs fd (hot_model t name N n label st q) = (m2, Ok p) -> (occurs p l <-> a_cell name N l).
Proof.
  intros HN HS HP E. pose proof (hot_reachable t name N n label st q HN HP) as HR.
  destruct (phys_facts _ _ _ _ _ _ HR eq_refl E) as (HT & _). change (m_mtype (hot_model t name N n label st q)) with t in HT.
  rewrite (C105_variables _ _ _ _ _ _ l HR eq_refl E). unfold depends_on. rewrite HT. split.
  - intros (a & b & LA & LB & D & NE). destruct (in_dec string_dec l (map (cell name) (seq 0 N))) as [HI|HI].
    + apply in_map_iff in HI as (i & <- & HI). apply in_seq in HI. exists i. split; [lia|reflexivity].
    + exfalso. apply NE. rewrite (hot_energies _ _ _ _ _ _ _ _ _ _ _ _ a LA E), (hot_energies _ _ _ _ _ _ _ _ _ _ _ _ b LB E). do 2 f_equal.
      rewrite !hot_cells. f_equal. apply filter_ext_in. intros i Hi. rewrite D; auto. intros <-. apply HI. now apply in_map.
  - intros (i & Hi & ->). exists (fill t name i), (fill t name (S i)). split; [apply fill_lawful|]. split; [apply fill_lawful|]. split.
    + intros k NK. unfold fill. rewrite seq_S, map_app. cbn [map plus].
      destruct (mem k (map (cell name) (seq 0 i))) eqn:E1; destruct (mem k (map (cell name) (seq 0 i) ++ [cell name i])) eqn:E2; auto; exfalso.
      * apply mem_in in E1. apply mem_nin in E2. apply E2, in_or_app. auto.
      * apply mem_nin in E1. apply mem_in, in_app_or in E2. destruct E2 as [E2|[E2|[]]]; auto.
    + rewrite (hot_energies _ _ _ _ _ _ _ _ _ _ _ _ _ (fill_lawful t name i) E), (hot_energies _ _ _ _ _ _ _ _ _ _ _ _ _ (fill_lawful t name (S i)) E).
      rewrite !fill_count by lia. intros EQ. assert (E1 := Qcle_refl (hot_energy t (Z.of_nat N) n (Z.of_nat i) st q)). assert (E2 := E1).
      rewrite EQ in E1 at 1. rewrite EQ in E2 at 2. apply (hot_energy_lt _ _ _ _ _ _ _ HS) in E1, E2. lia.
Qed.
Definition complete (t : mtype) (s : dict string Z) : assignment := fun l => match dget l s with Some z => qz z | None => 1%Qc end.
Lemma complete_lawful t s : Forall (legal t) (dvals s) -> lawful t (complete t s).
Proof.
  intros H. assert (X : forall l z, dget l s = Some z -> legal t z).
  { intros l z E. apply dget_in in E. rewrite Forall_forall in H. apply H. apply in_map_iff. exists (l, z). auto. }
  destruct t; intros l; unfold complete; destruct (dget l s) as [z|] eqn:E; auto; destruct (X _ _ E) as [-> | ->]; auto.
Qed.
Lemma complete_count t name N s : NoDup (dkeys s) -> (forall l, In l (dkeys s) <-> a_cell name N l) -> hot_count (complete t s) (cells t name N) = ones s.
Proof.
  intros ND HK. unfold ones. rewrite (dvals_keys s ND).
  assert (P : Permutation (dkeys s) (map (cell name) (seq 0 N))).
  { apply NoDup_Permutation; auto; [apply nodup_cells|]. intros l. rewrite HK, in_map_iff. split.
    - intros (i & Hi & ->). exists i. split; auto. apply in_seq. lia.
    - intros (i & <- & Hi). apply in_seq in Hi. exists i. split; [lia|reflexivity]. }
  rewrite (filter_length_perm _ _ _ (Permutation_map _ P)), map_map, hot_cells.
  assert (X : forall i, i < N -> exists z, dget (cell name i) s = Some z).
  { intros i Hi. apply dget_some_in. apply HK. exists i. auto. }
  assert (Y : forall l, (forall i, In i l -> i < N) -> length (filter (fun i => Qc_eqb (complete t s (cell name i)) 1%Qc) l) =
    length (filter (Z.eqb 1) (map (fun x => match dget (cell name x) s with Some z => z | None => 0%Z end) l))).
  { induction l as [|i l IH]; intros H; [reflexivity|]. destruct (X i) as [z Ez]; [apply H; now left|]. cbn [filter map].
    unfold complete at 1. rewrite Ez. assert (EB : Qc_eqb (qz z) 1 = (1 =? z)%Z).
    { destruct (Z.eqb_spec 1 z) as [<-|D]; [reflexivity|]. apply not_true_is_false. intros T. apply Qc_eqb_eq in T. rewrite <- qz_1 in T. apply qz_inj in T. congruence. }
    rewrite EB. destruct (1 =? z)%Z; cbn [length]; rewrite IH; auto; intros; apply H; now right. }
  apply Y. intros i Hi. apply in_seq in Hi. lia.
Qed.

(** With N variables and an n-hot constraint of positive strength, for any offset, the
    model is accepted and converted, the exact solver answers with all 2^N assignments
    with their energy, and those of lowest energy are exactly those with n ones (all N
    of them if n > N). *)
Theorem C107_n_hot : forall t name N n label st q ev evs fd neal,
  0 < N -> (0 < n)%Z -> (0 < st)%Qc -> label <> "" -> has_char "*"%char name = false -> has_char " " name = false ->
  (t = Ising -> forall k, plain_clock (evs k)) ->
  exists rows, solves_cells (n_hot_model name N n label st ;;; set_offset (CNum q)) t name N ev evs fd neal rows /\
    forall s e c, In (s, e, c) rows ->
      e = hot_energy t (Z.of_nat N) n (Z.of_nat (ones s)) st q /\ (best e rows <-> ones s = Nat.min (Z.to_nat n) N).
Proof.
  intros t name N n label st q ev evs fd neal HN Hn HS HL H1 H2 HC. set (m := hot_model t name N n label st q).
  destruct (C106_to_physical_succeeds ev evs fd m) as (m2 & p & E).
  { repeat split; constructor. }
  { constructor. }
  { split; [intros r []|]. cbn. discriminate. }
  { constructor; [|constructor]. change (simple_labels (NHot (cells t name N) n label st)); unfold simple_labels; change (all_labels_of (NHot (cells t name N) n label st)) with (map v_label (cells t name N)); rewrite cells_labels; split; [apply nodup_cells|].
    apply Forall_forall. intros l HI. apply in_map_iff in HI as (i & <- & _). unfold cell. rewrite !has_char_app, H1, H2, !str_of_nat_no_char; [split; reflexivity | |];
      intros d H; cbn in H; intuition (subst; discriminate). }
  { exact HC. }
  { intros r []. }
  pose proof (hot_reachable t name N n label st q HN H1) as HR. fold m in HR.
  destruct (phys_facts _ _ _ _ _ _ HR eq_refl E) as (HT & _). change (m_mtype m) with t in HT.
  assert (OC : forall l, occurs p l <-> a_cell name N l) by (intros l; eapply hot_occurs; eauto).
  destruct (C75_succeeds neal p) as (rows & ER).
  { destruct (p_linear p) eqn:E1; [|left; discriminate]. destruct (p_quad p) eqn:E2; [|right; discriminate]. exfalso.
    assert (HO : occurs p (cell name 0)) by (apply OC; exists 0; auto). unfold occurs in HO. rewrite E1, E2 in HO. cbn in HO. destruct HO as [[]|(x & y & [] & _)]. }
  { apply (proj1 (C37_succeeds_iff (- (1))%Qc p)). eapply C37_from_logical; [exact HR | reflexivity | exact E]. }
  destruct (C75_exact _ _ _ ER) as (RP & ND & _ & CP). rewrite HT in CP.
  assert (K : forall s e c, In (s, e, c) rows -> NoDup (dkeys s) /\ (forall l, In l (dkeys s) <-> a_cell name N l) /\ Forall (legal t) (dvals s)).
  { intros s e c HI. destruct (RP _ _ _ HI) as (_ & K1 & K2 & K3). rewrite HT in K3. split; auto. split; auto. intros l. rewrite K2. apply OC. }
  assert (EN : forall s e c, In (s, e, c) rows -> e = hot_energy t (Z.of_nat N) n (Z.of_nat (ones s)) st q /\ ones s <= N).
  { intros s e c HI. destruct (K _ _ _ HI) as (K1 & K2 & K3). destruct (RP _ _ _ HI) as (EE & _ & K2' & _). split.
    - rewrite EE. transitivity (energy_physical (complete t s) p); [apply energy_physical_ext|].
      + intros l HO. apply K2' in HO. apply dget_some_in in HO as [z Ez]. unfold value_of, complete. now rewrite Ez.
      + rewrite (hot_energies _ _ _ _ _ _ _ _ _ _ _ _ _ (complete_lawful t s K3) E). now rewrite (complete_count t name N s K1 K2).
    - rewrite <- (complete_count t name N s K1 K2), hot_cells. etransitivity; [apply filter_length_le'|]. now rewrite seq_length. }
  assert (AL : forall f : nat -> Z, (forall i, i < N -> legal t (f i)) -> exists s e c, In (s, e, c) rows /\ forall i, i < N -> dget (cell name i) s = Some (f i)).
  { intros f Hf. assert (exists g : assignment, forall i, i < N -> g (cell name i) = qz (f i)) as [g Hg].
    { clear. induction N as [|N [g IH]]; [exists (fun _ => 0%Qc); lia|].
      exists (fun x => if string_dec x (cell name N) then qz (f N) else g x). intros i Hi. destruct (string_dec (cell name i) (cell name N)) as [E|D].
      - apply cell_inj in E. now subst.
      - apply IH. assert (i <> N) by congruence. lia. }
    destruct (CP g) as (s & e & c & HI & HV).
    { intros x Hx. apply OC in Hx as (i & Hi & ->). exists (f i). split; [apply Hf, Hi | apply Hg, Hi]. }
    exists s, e, c. split; auto. intros i Hi. assert (HM : occurs p (cell name i)) by (apply OC; exists i; auto).
    specialize (HV _ HM). destruct (K _ _ _ HI) as (_ & K2 & _). assert (HI2 : In (cell name i) (dkeys s)) by (apply K2; exists i; auto).
    apply dget_some_in in HI2 as [z Ez]. rewrite Ez. f_equal. unfold value_of in HV. rewrite Ez, Hg in HV by auto. now apply qz_inj. }
  exists rows. split.
  { exists m, m2, p. split; [apply prog_model; auto|]. auto. }
  assert (EX : forall k, k <= N -> exists s e c, In (s, e, c) rows /\ ones s = k).
  { intros k Hk. destruct (AL (first_ones t k)) as (s & e & c & HI & HV).
    { intros i _. unfold first_ones. destruct (i <? k)%nat, t; cbn; auto. }
    exists s, e, c. split; auto. destruct (K _ _ _ HI) as (K1 & K2 & _). rewrite <- (complete_count t name N s K1 K2), hot_cells.
    etransitivity; [|exact (first_count t N k Hk)]. f_equal. apply filter_ext_in. intros i Hi. apply in_seq in Hi. unfold complete. rewrite HV by lia. reflexivity. }
  assert (ZN : n = Z.of_nat (Z.to_nat n)) by lia.
  intros s e c HI. destruct (EN _ _ _ HI) as [EE LE]. split; auto. rewrite ZN in EE. split.
  - intros HB. destruct (EX (Nat.min (Z.to_nat n) N)) as (s' & e' & c' & HI' & E'); [lia|]. specialize (HB _ _ _ HI'). destruct (EN _ _ _ HI') as [EE' _].
    rewrite ZN in EE'. rewrite EE, EE', E' in HB. apply (hot_energy_lt _ _ _ _ _ _ _ HS) in HB. now apply (sq_min (ones s) (Z.to_nat n) N LE).
  - intros EO s' e' c' HI'. destruct (EN _ _ _ HI') as [EE' LE']. rewrite ZN in EE'. rewrite EE, EE', EO. apply (hot_energy_lt _ _ _ _ _ _ _ HS).
    exact (sq_min_le (ones s') (Z.to_nat n) N LE').
Qed.

(** sample/model/constraint/n_hot_constraint.py: for every s and n. *)
Theorem C107_s_of_n : forall t s n ev evs fd neal, 0 < s -> (0 < n)%Z -> (t = Ising -> forall k, plain_clock (evs k)) ->
  exists rows, solves_cells (n_hot_s_of_n s n) t "x" s ev evs fd neal rows /\
    forall x e c, In (x, e, c) rows -> (best e rows <-> ones x = Nat.min (Z.to_nat n) s).
Proof.
  intros t s n ev evs fd neal HS Hn HC. destruct (C107_n_hot t "x" s n "n-hot" 1%Qc 0%Qc ev evs fd neal) as (rows & (m1 & m2 & p & E1 & R) & HB); auto.
  { reflexivity. } { discriminate. }
  exists rows. split; [|intros x e c HI; apply (HB _ _ _ HI)]. exists m1, m2, p. split; auto.
  assert (L : "n-hot" <> "") by discriminate. rewrite (prog_model t "x" s n "n-hot" 1%Qc 0%Qc HS Hn L eq_refl) in E1.
  unfold n_hot_s_of_n, n_hot_model, bind. rewrite (declare_cells t "x" s HS eq_refl). cbn [a_bits].
  unfold mk_nhot. change ("n-hot" =? "") with false. cbn [check_variables_and_to_set]. rewrite to_set_app by apply cells_nodup. destruct (Z.leb_spec n 0); [lia|].
  rewrite <- E1. reflexivity.
Qed.

(** _solver_helper.py, _create_qubo_model: "only one of the variables is 1", with energy 0
    (the square is completed by the offset). *)
Theorem C107_helper_qubo : forall ev evs fd neal,
  exists rows, solves_cells helper_qubo Qubo "a" 4 ev evs fd neal rows /\
    forall s e c, In (s, e, c) rows -> e = qz ((Z.of_nat (ones s) - 1) * (Z.of_nat (ones s) - 1)) /\ (best e rows <-> ones s = 1).
Proof.
  intros ev evs fd neal. destruct (C107_n_hot Qubo "a" 4 1 "Default N-hot Constraint" 1%Qc 1%Qc ev evs fd neal) as (rows & HS & HB); auto; try reflexivity; try discriminate; try lia.
  exists rows. split; [exact HS|]. intros s e c HI. destruct (HB _ _ _ HI) as [EE HM]. split; [|exact HM].
  rewrite EE. unfold hot_energy. rewrite (qz_sub _ (1 * 1)). change (qz (1 * 1)) with 1%Qc. ring.
Qed.

(** ** Examples *)
Example C107_hyps : 0 < 3 /\ (0 < 2)%Z /\ (0 < qz 5)%Qc /\ "label" <> "" /\ has_char "*"%char "spin" = false /\ has_char " " "spin" = false /\ (forall k, plain_clock (evs0 k)).
Proof.
  split; [lia|]. split; [lia|]. split; [reflexivity|]. split; [discriminate|]. split; [reflexivity|]. split; [reflexivity|].
  intros k i. cbn [e_clock_str evs0]. rewrite !has_char_app, !str_of_nat_no_char; [reflexivity | |]; intros d H; cbn in H; intuition (subst; discriminate).
Qed.
(** Two of three spins: three of the eight answers have the lowest energy. *)
Example C107_two_of_three : exists m p rows, to_physical env0 evs0 feed0 (hot_model Ising "spin" 3 2 "label" (qz 5) 0%Qc) = (m, Ok p) /\
  local_solve true (fun _ => Err ValueError) (Some p) = Ok rows /\ length rows = 8 /\
  length (filter (fun r : srow => Qc_eqb (snd (fst r)) (hot_energy Ising 3 2 2 (qz 5) 0%Qc)) rows) = 3.
Proof. do 3 eexists. split; [vm_compute; reflexivity|]. split; [vm_compute; reflexivity|]. split; vm_compute; reflexivity. Qed.
Print Assumptions C107_n_hot.
Print Assumptions C107_s_of_n.
Print Assumptions C107_helper_qubo.
