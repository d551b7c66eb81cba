(** * PropsNppStream: C62 and C79, number partitioning on a stream. *)
From Coq Require Import Lqa Sorted Permutation.
From Verif Require Import PyBase PyLemmas Numbers Constraint LogicalModel Spec LogicalProofs EnergyProofs ConvertProofs ConstraintProofs MergeProofs
  PhysicalProofs ToPhysicalProofs PropsPhysical PropsInteractions PropsState PropsVariables Samples
  Solver SolverProofs Services Stream StreamSpec PropsStream NppStream NppStreamSpec.
Local Open Scope string_scope.
Local Open Scope list_scope.

(** ** Labels, names and keys *)
Definition lab (i : nat) : string := "x[" +++ str_of_nat i +++ "]".
Definition sv (i : nat) : var := mkVar (lab i) Spin.
Definition pkey (i j : nat) : ikey := if String.ltb (lab i) (lab j) then K2 (lab i) (lab j) else K2 (lab j) (lab i).
Definition pname (i j : nat) : string := if String.ltb (lab i) (lab j) then lab i +++ "*" +++ lab j else lab j +++ "*" +++ lab i.

Lemma lab_brackets i : lab i = "x" +++ brackets [i].
Proof. reflexivity. Qed.
Lemma lab_inj i j : lab i = lab j -> i = j.
Proof. rewrite !lab_brackets. intros E. apply append_inj_l in E. apply brackets_inj in E. congruence. Qed.
Lemma lab_star i : has_char "*"%char (lab i) = false.
Proof.
  unfold lab. rewrite !has_char_app. rewrite str_of_nat_no_char; [reflexivity|].
  intros d H. intros <-. cbn in H. intuition discriminate.
Qed.
Lemma star_split a b c d : has_char "*"%char a = false -> has_char "*"%char c = false ->
  a +++ "*" +++ b = c +++ "*" +++ d -> a = c /\ b = d.
Proof. intros H1 H2 E. apply (split_first_sep "*"%char) in E; auto. Qed.
Lemma pname_inj i j a b : pname i j = pname a b -> (i = a /\ j = b) \/ (i = b /\ j = a).
Proof.
  unfold pname. destruct (String.ltb (lab i) (lab j)), (String.ltb (lab a) (lab b)); intros E;
    apply star_split in E; try apply lab_star; destruct E as [E1 E2]; apply lab_inj in E1, E2; auto.
Qed.
Lemma pname_nonempty i j : pname i j <> "".
Proof. unfold pname. destruct (String.ltb _ _); discriminate. Qed.
Lemma pkey_touches i j l : key_touches l (pkey i j) = (String.eqb (lab i) l || String.eqb (lab j) l).
Proof. unfold pkey. destruct (String.ltb _ _); cbn; auto. apply orb_comm. Qed.

Lemma lab_flip i j : i <> j -> String.ltb (lab i) (lab j) = false -> String.ltb (lab j) (lab i) = true.
Proof.
  intros NE E. rewrite (ltb_total (lab j) (lab i)); [rewrite E; reflexivity|].
  intros C; apply lab_inj in C; congruence.
Qed.

(** ** Adding one interaction *)
Lemma denotes_pair_inv i j it dn : denotes (TTuple [EVar (sv i); EVar (sv j)]) it dn ->
  inter_key it = pkey i j /\ dn = pname i j.
Proof.
  unfold pkey, pname. intros D. inversion D as [|? ? L|? ? L]; subst; cbn [v_label sv] in *.
  - rewrite L. auto.
  - assert (HX : String.ltb (lab i) (lab j) = false) by (apply ltb_asym; auto). rewrite HX. auto.
Qed.
Lemma denotes_pair_ex i j : i <> j -> exists it, denotes (TTuple [EVar (sv i); EVar (sv j)]) it (pname i j).
Proof.
  intros NE. unfold pname. destruct (String.ltb (lab i) (lab j)) eqn:E.
  - eexists. apply (denotes_pair (sv i) (sv j)). exact E.
  - eexists. apply (denotes_swap (sv i) (sv j)). apply (lab_flip i j); auto.
Qed.

(** The row of a pair. *)
Definition row_for (r : row) (p : num_el * num_el) : Prop :=
  r_key r = pkey (el_idx (fst p)) (el_idx (snd p)) /\ r_name r = pname (el_idx (fst p)) (el_idx (snd p)) /\
  r_coef r = CNum (- (1) * el_val (fst p) * el_val (snd p))%Qc /\ r_scale r = CNum 1%Qc /\ r_removed r = false /\
  key_ok r.
(** The model grew by the rows of the pairs. *)
Definition grown (m m' : lmodel) (ps : list (num_el * num_el)) : Prop :=
  same_rest m m' /\ (aligned m -> aligned m') /\
  exists new, m_rows m' = m_rows m ++ new /\ Forall2 row_for new ps.
Lemma grown_refl m : grown m m [].
Proof. split; [repeat split|]. split; auto. exists []. rewrite app_nil_r. split; auto. Qed.
Lemma grown_trans m1 m2 m3 p q : grown m1 m2 p -> grown m2 m3 q -> grown m1 m3 (p ++ q).
Proof.
  intros ((A1 & A2 & A3 & A4 & A5 & A6 & A7) & AL & n1 & E1 & F1) ((B1 & B2 & B3 & B4 & B5 & B6 & B7) & BL & n2 & E2 & F2).
  split; [repeat split; congruence|]. split; [auto|]. exists (n1 ++ n2). split; [rewrite E2, E1, app_assoc; reflexivity|].
  apply Forall2_app; auto.
Qed.
Lemma grown_names m m' ps : grown m m' ps -> names m' = names m ++ map (fun p => pname (el_idx (fst p)) (el_idx (snd p))) ps.
Proof.
  intros (_ & _ & new & E & F). unfold names. rewrite E, map_app. f_equal.
  clear E. induction F as [|r p new ps [_ [H _]] F IH]; cbn [map]; congruence.
Qed.

Definition pair_name (p : num_el * num_el) : string := pname (el_idx (fst p)) (el_idx (snd p)).
(** The array x has at least n entries. *)
Definition has_spins (x : array) (n : nat) : Prop := forall i, i < n -> array_get x [i] = Ok (sv i).

Lemma add_one text clock x i j m n : has_spins x n -> el_idx i < n -> el_idx j < n -> el_idx i <> el_idx j ->
  (el_ts j < el_ts i)%Qc -> aligned m -> ~ In (pair_name (i, j)) (names m) ->
  exists m', npp_add text clock x i j m = (m', Ok tt) /\ grown m m' [(i, j)].
Proof.
  intros HX Hi Hj NE HT AL NI. unfold npp_add. rewrite (proj2 (Qclt_bool_iff _ _) HT).
  unfold bind at 1. rewrite (HX _ Hi). cbn [lift ret]. unfold bind at 1. rewrite (HX _ Hj). cbn [lift ret].
  set (at_ := AtDict _). assert (AW : attrs_wf at_).
  { intros d E. injection E as <-. cbn. repeat constructor; cbn; intuition discriminate. }
  destruct (denotes_pair_ex _ _ NE) as [it D].
  destruct (proj2 (C03_succeeds_iff (clock i j) (TTuple [EVar (sv (el_idx i)); EVar (sv (el_idx j))]) (NStr "") (AC (CNum (- (1) * el_val i * el_val j)%Qc)) (AC (CNum 1%Qc)) at_ TsNone m AL AW)) as [m' E].
  { do 4 eexists. exists (pname (el_idx i) (el_idx j)). repeat split; try discriminate; eauto. left; auto. }
  exists m'. split; auto.
  destruct (C03_effect _ _ _ _ _ _ _ _ _ AL AW E) as (c & s & it' & dn & nm & E1 & E2 & D' & SN & _ & ER & SR & AL' & _).
  injection E1 as <-. injection E2 as <-. destruct (denotes_pair_inv _ _ _ _ D') as [K ->].
  assert (nm = pname (el_idx i) (el_idx j)) as ->.
  { destruct SN as [[_ ->]|[C ?]]; auto. congruence. }
  split; auto. split; auto. eexists. split; [exact ER|]. constructor; [|constructor].
  repeat split; cbn; auto. rewrite K. unfold pkey. destruct (String.ltb (lab (el_idx i)) (lab (el_idx j))) eqn:EL; auto.
  apply lab_flip; auto.
Qed.

Definition earlier_than (i j : num_el) : bool := Qclt_bool (el_ts j) (el_ts i).
Definition pairs_with (els : list num_el) (i : num_el) : list (num_el * num_el) := map (fun j => (i, j)) (filter (earlier_than i) els).

Lemma add_inner text clock x i n els : has_spins x n -> el_idx i < n ->
  (forall j, In j els -> el_idx j < n) -> (forall j, In j els -> (el_ts j < el_ts i)%Qc -> el_idx j <> el_idx i) ->
  forall m, aligned m -> NoDup (names m ++ map pair_name (pairs_with els i)) ->
  exists m', mfor els (npp_add text clock x i) m = (m', Ok tt) /\ grown m m' (pairs_with els i).
Proof.
  intros HX Hi. induction els as [|j els IH]; intros Hj NE m AL ND.
  - exists m. split; [reflexivity | apply grown_refl].
  - cbn [mfor]. unfold pairs_with in *. cbn [filter] in *.
    destruct (earlier_than i j) eqn:E.
    + cbn [map] in *. apply Qclt_bool_iff in E. 
      assert (E1 : NoDup ((names m ++ [pair_name (i, j)]) ++ map pair_name (map (fun j0 => (i, j0)) (filter (earlier_than i) els)))) by (rewrite <- app_assoc; exact ND).
      destruct (add_one text clock x i j m n) as (m1 & A1 & G1); auto.
      { apply Hj; now left. } { intros C. apply (NE j); auto. now left. }
      { apply NoDup_app_iff in E1 as (E1 & _). apply NoDup_snoc in E1. tauto. }
      unfold bind. rewrite A1.
      destruct (IH (fun j H => Hj j (or_intror H)) (fun j H => NE j (or_intror H)) m1) as (m2 & A2 & G2).
      { apply G1; auto. } { rewrite (grown_names _ _ _ G1). exact E1. }
      exists m2. split; auto. apply (grown_trans _ _ _ _ _ G1 G2).
    + unfold bind. unfold npp_add at 1. change (Qclt_bool (el_ts j) (el_ts i)) with (earlier_than i j). rewrite E. cbn [ret]. apply IH; auto.
      * intros; apply Hj; now right. * intros; apply NE; auto; now right.
Qed.

Lemma add_outer text clock x n els : has_spins x n -> (forall j, In j els -> el_idx j < n) ->
  forall inc, (forall i, In i inc -> el_idx i < n) ->
  (forall i j, In i inc -> In j els -> (el_ts j < el_ts i)%Qc -> el_idx j <> el_idx i) ->
  forall m, aligned m -> NoDup (names m ++ map pair_name (flat_map (pairs_with els) inc)) ->
  exists m', mfor inc (fun i => mfor els (npp_add text clock x i)) m = (m', Ok tt) /\ grown m m' (flat_map (pairs_with els) inc).
Proof.
  intros HX Hj. induction inc as [|i inc IH]; intros Hi NE m AL ND.
  - exists m. split; [reflexivity | apply grown_refl].
  - cbn [mfor flat_map] in *. rewrite map_app, app_assoc in ND.
    destruct (add_inner text clock x i n els) with (m := m) as (m1 & A1 & G1); auto.
    { apply Hi; now left. } { intros. apply NE; auto; now left. } { now apply NoDup_app_iff in ND as (ND & _). }
    unfold bind. rewrite A1.
    destruct (IH (fun j H => Hi j (or_intror H)) (fun i j H => NE i j (or_intror H)) m1) as (m2 & A2 & G2).
    { apply G1; auto. } { rewrite (grown_names _ _ _ G1). exact ND. }
    exists m2. split; auto. apply (grown_trans _ _ _ _ _ G1 G2).
Qed.

(** ** Deleting variables *)
Definition rdata (r : row) : ikey * coef * coef := (r_key r, r_coef r, r_scale r).
Definition untouched (ds : list num_el) (k : ikey * coef * coef) : bool :=
  forallb (fun o => negb (key_touches (spin_of o) (fst (fst k)))) ds.
Definition named_pairs (n : nat) (rows : list row) : Prop :=
  Forall (fun r => exists a b, a < n /\ b < n /\ r_name r = pname a b /\ r_key r = pkey a b) rows.

Lemma live_dropped l rows : map rdata (filter (fun r => negb (r_removed r)) (map (dropped l) rows)) =
  filter (fun k => negb (key_touches l (fst (fst k)))) (map rdata (filter (fun r => negb (r_removed r)) rows)).
Proof.
  induction rows as [|r rows IH]; auto. cbn [map filter]. unfold dropped at 1 2, touches.
  destruct (key_touches l (r_key r)) eqn:E.
  - cbn [r_removed set_dirty set_removed negb]. rewrite IH. destruct (r_removed r); cbn [negb]; auto.
    cbn [map filter rdata fst]. rewrite E. reflexivity.
  - destruct (r_removed r); cbn [negb map]; auto. cbn [filter rdata fst]. rewrite E. cbn [negb]. f_equal. exact IH.
Qed.
Lemma dropped_name l r : r_name (dropped l r) = r_name r /\ r_key (dropped l r) = r_key r /\ r_inter (dropped l r) = r_inter r.
Proof. unfold dropped. destruct (touches l r); auto. Qed.
Lemma filter_nil_true {A} (l : list A) : filter (fun _ => true) l = l.
Proof. induction l; cbn; congruence. Qed.

(** The fields the sample relies on. *)
Definition shape_ok (m : lmodel) (n : nat) : Prop :=
  m_mtype m = Ising /\ m_offset m = CNum 0%Qc /\ m_constrs m = [] /\ aligned m /\ well_formed m /\ named_pairs n (m_rows m).

Lemma delete_loop x n ds : has_spins x n -> (forall o, In o ds -> el_idx o < n) ->
  forall m, shape_ok m n ->
  exists m', mfor ds (fun o => (v <- lift (array_get x [el_idx o]) ;; delete_variable (TVar v))%py) m = (m', Ok tt) /\
    shape_ok m' n /\ m_vars m' = m_vars m /\
    map rdata (live m') = filter (untouched ds) (map rdata (live m)).
Proof.
  intros HX. induction ds as [|o ds IH]; intros HD m S.
  - exists m. split; [reflexivity|]. split; auto. split; auto. unfold untouched. cbn. now rewrite filter_nil_true.
  - cbn [mfor]. unfold bind at 1. unfold bind at 1. rewrite (HX (el_idx o)) by (apply HD; now left). cbn [lift ret].
    destruct S as (S1 & S2 & S3 & S4 & [S5 S6] & S7).
    assert (HN : forall r, In r (m_rows m) -> r_name r <> "").
    { intros r HI. unfold named_pairs in S7. rewrite Forall_forall in S7. destruct (S7 r HI) as (a & b & _ & _ & -> & _). apply pname_nonempty. }
    destruct (C16_delete_succeeds_partial (sv (el_idx o)) m S4 S5 HN) as (m1 & E & EC & ER).
    { rewrite S3. constructor. } { rewrite S3. intros l c []. }
    destruct (C15_delete (sv (el_idx o)) m m1 S5 E) as (_ & _ & _ & F1 & F2 & F3 & F4 & F5 & F6 & F7 & F8 & _).
    rewrite E. destruct (IH (fun o H => HD o (or_intror H)) m1) as (m2 & E2 & S' & V' & L').
    { split; [congruence|]. split; [congruence|]. split; [rewrite EC, S3; reflexivity|]. split; [|split; [split|]].
      - destruct S4 as (A & B & C & D). split; [rewrite F8, ER, map_length; auto|]. rewrite F6, F7, F8. auto.
      - unfold names_unique, names in *. rewrite ER, map_map. erewrite map_ext; [exact S5|]. intros r. apply dropped_name.
      - rewrite ER. apply Forall_forall. intros r HI. apply in_map_iff in HI as (r0 & <- & HI). rewrite Forall_forall in S6.
        specialize (S6 r0 HI). unfold key_ok in *. destruct (dropped_name (v_label (sv (el_idx o))) r0) as (_ & K & I). rewrite K, I. auto.
      - rewrite ER. apply Forall_forall. intros r HI. apply in_map_iff in HI as (r0 & <- & HI). unfold named_pairs in S7. rewrite Forall_forall in S7.
        specialize (S7 r0 HI). destruct (dropped_name (v_label (sv (el_idx o))) r0) as (-> & -> & _). auto. }
    exists m2. split; auto. split; auto. split; [congruence|]. rewrite L'. unfold live. rewrite ER, live_dropped.
    rewrite filter_filter'. apply filter_ext. intros k. reflexivity.
Qed.

(** ** The variables *)
Definition vars_ok (m : lmodel) (n : nat) : Prop :=
  (m_vars m = [] /\ n = 0) \/
  (exists a, m_vars m = [("x", a)] /\ array_create "x" [Z.of_nat n] Spin = Ok a).

Lemma vars_size m n : vars_ok m n -> get_all_size m = Z.of_nat n.
Proof.
  intros [[E ->]|(a & E & C)]; unfold get_all_size; rewrite E; [reflexivity|].
  cbn [fold_left snd]. rewrite (array_create_shape _ _ _ _ C). cbn [fold_left]. lia.
Qed.
Lemma create_spins n a : array_create "x" [Z.of_nat n] Spin = Ok a -> has_spins a n.
Proof.
  intros C i Hi. erewrite array_get_create; [|exact C|constructor; [lia|constructor]]. reflexivity.
Qed.
Lemma create_x n : 0 < n -> exists a, array_create "x" [Z.of_nat n] Spin = Ok a.
Proof. intros H. apply array_create_ok; [reflexivity|discriminate|constructor; [lia|constructor]]. Qed.

Lemma max_index_ge l e : In e l -> (Z.of_nat (el_idx e) <= max_index l)%Z.
Proof.
  induction l as [|x l IH]; [intros []|]. change (max_index (x :: l)) with (Z.max (Z.of_nat (el_idx x)) (max_index l)).
  intros [->|H]; [|specialize (IH H)]; lia.
Qed.
Lemma max_index_in l : l <> [] -> exists e, In e l /\ max_index l = Z.of_nat (el_idx e).
Proof.
  induction l as [|x l IH]; [congruence|]. intros _. destruct l as [|y l].
  - exists x. split; [now left|]. cbn. lia.
  - destruct IH as (e & HI & E); [discriminate|]. change (max_index (x :: y :: l)) with (Z.max (Z.of_nat (el_idx x)) (max_index (y :: l))).
    destruct (Z.max_spec (Z.of_nat (el_idx x)) (max_index (y :: l))) as [[_ ->]|[_ ->]].
    + exists e. split; [now right | auto].
    + exists x. split; [now left | auto].
Qed.

Definition next_size (n : nat) (inc : list num_el) : nat :=
  match inc with [] => n | _ => Z.to_nat (max_index inc + 1) end.

Lemma variables_step m n inc : m_mtype m = Ising -> vars_ok m n -> (inc = [] -> 0 < n) ->
  (forall e, In e inc -> n <= el_idx e) ->
  exists m' x, npp_variables inc m = (m', Ok x) /\ has_spins x (next_size n inc) /\ vars_ok m' (next_size n inc) /\
    exists vs, m' = with_vars vs m.
Proof.
  intros HM HV H0 HI. destruct inc as [|e inc].
  - destruct HV as [[_ ->]|(a & E & C)]; [specialize (H0 eq_refl); lia|].
    exists m, a. cbn [npp_variables next_size]. unfold get_variables_by_name, bind, get, lift. rewrite E. cbn. split; auto.
    split; [now apply create_spins|]. split; [right; eauto|]. exists (m_vars m). destruct m; reflexivity.
  - cbn [next_size]. set (inc' := e :: inc) in *. destruct (max_index_in inc') as (e' & HI' & EM); [discriminate|].
    assert (HL : n <= el_idx e') by auto. set (n' := Z.to_nat (max_index inc' + 1)).
    assert (En : Z.of_nat n' = (max_index inc' + 1)%Z) by (unfold n'; lia).
    destruct (create_x n') as [a' C']; [lia|].
    assert (EA : append (VName "x") (ShTuple [ShInt (max_index inc' - get_all_size m + 1)]) m = (with_vars [("x", a')] m, Ok tt)).
    { rewrite (vars_size _ _ HV). unfold append. cbn [check_shape sh_ints].
      destruct HV as [[E ->]|(a & E & C)]; rewrite E; cbn [dget].
      - unfold variables. cbn [check_shape sh_ints]. rewrite HM. cbn [vt_of].
        replace (max_index inc' - Z.of_nat 0 + 1)%Z with (Z.of_nat n') by lia. rewrite C', E. reflexivity.
      - change (eqb "x" "x") with true. cbn iota. rewrite (array_create_shape _ _ _ _ C). rewrite HM. cbn [vt_of].
        assert (EE : LogicalModel.elementwise_add [Z.of_nat n] [(max_index inc' - Z.of_nat n + 1)%Z] = [Z.of_nat n']) by (unfold LogicalModel.elementwise_add; cbn -[max_index Z.add Z.sub]; f_equal; lia).
        rewrite EE, C'. reflexivity. }
    exists (with_vars [("x", a')] m), a'. split.
    { unfold npp_variables, inc'. fold inc'. unfold bind at 1, get. unfold bind at 1. rewrite EA. reflexivity. }
    split; [now apply create_spins|]. split; [right; exists a'; split; auto|]. eauto.
Qed.

(** ** Pairs *)
Definition later_el (a b : num_el) : Prop := (el_ts a < el_ts b)%Qc /\ el_idx a < el_idx b.
Definition asc (l : list num_el) : Prop := StronglySorted later_el l.
Lemma asc_app a b : asc (a ++ b) <-> asc a /\ asc b /\ forall x y, In x a -> In y b -> later_el x y.
Proof.
  unfold asc. induction a as [|x a IH]; cbn [app].
  - split; [|tauto]. intros H. split; [constructor|]. split; auto. intros ? ? [].
  - split.
    + intros H. inversion H as [|? ? H1 H2]; subst. apply IH in H1 as (A & B & C). rewrite Forall_app in H2. destruct H2 as [F1 F2].
      split; [constructor; auto|]. split; auto. intros u v [<-|Hu] Hv; [|auto]. rewrite Forall_forall in F2; auto.
    + intros (A & B & C). inversion A as [|? ? A1 A2]; subst. constructor.
      * apply IH. split; auto. split; auto. intros u v Hu Hv. apply C; auto. now right.
      * apply Forall_app. split; auto. apply Forall_forall. intros v Hv. apply C; auto. now left.
Qed.
Lemma asc_in l a b : asc l -> In a l -> In b l -> el_idx a = el_idx b -> a = b.
Proof.
  intros H. induction H as [|x l H IH F]; [intros []|]. rewrite Forall_forall in F.
  intros [<-|Ha] [<-|Hb] E; auto; [specialize (F _ Hb)|specialize (F _ Ha)]; destruct F; lia.
Qed.
Lemma asc_ts l a b : asc l -> In a l -> In b l -> (el_ts a < el_ts b)%Qc -> el_idx a < el_idx b.
Proof.
  intros H. induction H as [|x l H IH F]; [intros []|]. rewrite Forall_forall in F.
  intros [<-|Ha] [<-|Hb] E; auto.
  - exfalso. qord.
  - destruct (F _ Hb); auto.
  - destruct (F _ Ha). exfalso. qord.
Qed.
Lemma asc_nodup l : asc l -> NoDup l.
Proof.
  intros H. induction H as [|x l H IH F]; constructor; auto. intros C. rewrite Forall_forall in F. destruct (F _ C). lia.
Qed.

Lemma pairs_snoc {A} (l : list A) x : Permutation (pairs (l ++ [x])) (pairs l ++ map (fun j => (x, j)) l).
Proof.
  induction l as [|y l IH]; cbn [app pairs map]; auto.
  rewrite map_app. cbn [map]. rewrite <- !app_assoc. apply Permutation_app_head. cbn [app].
  eapply perm_trans; [apply perm_skip, IH|]. apply Permutation_middle.
Qed.
Lemma earlier_all (l : list num_el) i : asc (l ++ [i]) -> filter (earlier_than i) (l ++ [i]) = l.
Proof.
  intros H. apply asc_app in H as (_ & _ & H). rewrite filter_app. cbn [filter]. unfold earlier_than at 2.
  replace (Qclt_bool (el_ts i) (el_ts i)) with false by (symmetry; apply Qclt_bool_false; apply Qcle_refl). rewrite app_nil_r.
  assert (HF : forall j, In j l -> earlier_than i j = true) by (intros j Hj; apply Qclt_bool_iff; apply H; cbn; auto).
  clear H. induction l as [|x l IH]; auto. cbn [filter]. rewrite HF by (now left). f_equal. apply IH. intros; apply HF; now right.
Qed.
Lemma earlier_drop (l : list num_el) i k : (el_ts i <= el_ts k)%Qc -> filter (earlier_than i) (l ++ [k]) = filter (earlier_than i) l.
Proof.
  intros H. rewrite filter_app. cbn [filter]. unfold earlier_than at 2. rewrite (proj2 (Qclt_bool_false _ _) H). apply app_nil_r.
Qed.
Lemma pairs_grow kept inc : asc (kept ++ inc) ->
  Permutation (pairs (kept ++ inc)) (pairs kept ++ flat_map (pairs_with (kept ++ inc)) inc).
Proof.
  revert kept. induction inc as [|i inc IH] using rev_ind; intros kept H.
  - cbn. rewrite !app_nil_r. reflexivity.
  - rewrite app_assoc in *. rewrite flat_map_app. cbn [flat_map]. rewrite app_nil_r.
    eapply perm_trans; [apply pairs_snoc|]. unfold pairs_with at 2. rewrite earlier_all by auto. rewrite app_assoc.
    apply Permutation_app_tail. apply asc_app in H as (H1 & _ & H2).
    eapply perm_trans; [apply IH; auto|]. apply Permutation_app_head.
    rewrite !flat_map_concat_map. erewrite map_ext_in; [reflexivity|]. intros a Ha. unfold pairs_with. rewrite earlier_drop; auto.
    destruct (H2 a i); [apply in_app_iff; now right | now left|]. apply Qclt_le_weak; auto.
Qed.
(** The key, the coefficient and the scale of the row of a pair, where the scale is
    [sc] of the pair. *)
Definition pdata_s (sc : num_el * num_el -> Qc) (p : num_el * num_el) : ikey * coef * coef :=
  (pkey (el_idx (fst p)) (el_idx (snd p)), CNum (- (1) * el_val (fst p) * el_val (snd p))%Qc, CNum (sc p)).
Definition plain (p : num_el * num_el) : Qc := 1%Qc.
Notation pdata := (pdata_s plain).
Lemma pairs_in {A} (l : list A) a b : In (a, b) (pairs l) -> In a l /\ In b l.
Proof.
  induction l as [|x l IH]; cbn [pairs]; [intros []|]. rewrite in_app_iff, in_map_iff.
  intros [(y & E & H)|H]; [inversion E; subst; split; [now right | now left]|]. apply IH in H. split; right; tauto.
Qed.
Lemma untouched_pdata sc ds p : untouched ds (pdata_s sc p) = true <-> ~ In (el_idx (fst p)) (map el_idx ds) /\ ~ In (el_idx (snd p)) (map el_idx ds).
Proof.
  unfold untouched. rewrite forallb_forall. cbn [pdata_s fst]. split.
  - intros H. split; intros C; apply in_map_iff in C as (o & E & Ho); specialize (H o Ho); rewrite pkey_touches in H;
      change (spin_of o) with (lab (el_idx o)) in H; rewrite E, String.eqb_refl, ?orb_true_r in H; discriminate.
  - intros [H1 H2] o Ho. rewrite pkey_touches. change (spin_of o) with (lab (el_idx o)).
    assert (HE : forall i, ~ In i (map el_idx ds) -> String.eqb (lab i) (lab (el_idx o)) = false).
    { intros i NI. apply String.eqb_neq. intros C. apply lab_inj in C. apply NI. rewrite C. now apply in_map. }
    rewrite !HE; auto.
Qed.
Lemma filter_all {A} (f : A -> bool) l : (forall a, In a l -> f a = true) -> filter f l = l.
Proof. induction l as [|x l IH]; intros H; auto. cbn. rewrite H by (now left). f_equal. apply IH. intros; apply H; now right. Qed.
Lemma filter_none {A} (f : A -> bool) l : (forall a, In a l -> f a = false) -> filter f l = [].
Proof. induction l as [|x l IH]; intros H; auto. cbn. rewrite H by (now left). apply IH. intros; apply H; now right. Qed.
Lemma filter_pdata sc ds (l : list (num_el * num_el)) : filter (untouched ds) (map (pdata_s sc) l) = map (pdata_s sc) (filter (fun p => untouched ds (pdata_s sc p)) l).
Proof. induction l as [|p l IH]; auto. cbn [map filter]. destruct (untouched ds (pdata_s sc p)); cbn [map]; congruence. Qed.
Lemma pairs_shrink sc out kept : asc (out ++ kept) ->
  forall ds, incl out ds -> (forall a, In a kept -> ~ In (el_idx a) (map el_idx ds)) ->
  filter (untouched ds) (map (pdata_s sc) (pairs (out ++ kept))) = map (pdata_s sc) (pairs kept).
Proof.
  induction out as [|o out IH]; cbn [app]; intros H ds HI HK.
  - apply filter_all. intros k Hk. apply in_map_iff in Hk as ([a b] & <- & Hk). apply pairs_in in Hk. apply untouched_pdata. cbn. firstorder.
  - cbn [pairs]. rewrite map_app, filter_app. rewrite filter_none.
    + cbn [app]. inversion H; subst. apply IH; auto. intros x Hx; apply HI; now right.
    + intros k Hk. rewrite map_map in Hk. apply in_map_iff in Hk as (y & <- & Hy).
      destruct (untouched ds (pdata_s sc (y, o))) eqn:E; auto. apply untouched_pdata in E. exfalso. apply E. cbn. apply in_map, HI. now left.
Qed.

(** ** npp_mapping keeps the pairs of the current elements *)
Definition inv_s (sc : num_el * num_el -> Qc) (m : lmodel) (els : list num_el) (n : nat) : Prop :=
  shape_ok m n /\ vars_ok m n /\ (forall e, In e els -> el_idx e < n) /\
  Permutation (map rdata (live m)) (map (pdata_s sc) (pairs els)).
Notation inv := (inv_s plain).

Lemma rows_for_data new ps : Forall2 row_for new ps ->
  map rdata (filter (fun r => negb (r_removed r)) new) = map pdata ps.
Proof.
  intros F. induction F as [|r p new ps (K & N & C & S & R & _) F IH]; auto. cbn [filter]. rewrite R. cbn [negb map]. f_equal; auto.
  unfold rdata, pdata_s, plain. congruence.
Qed.
Lemma named_mono n n' rows : n <= n' -> named_pairs n rows -> named_pairs n' rows.
Proof. intros L. apply Forall_impl. intros r (a & b & A & B & E). exists a, b. split; [lia|]. split; [lia|auto]. Qed.

Lemma mapping_step_s sc sc' text clock m n out kept inc :
  (forall p, In p (pairs kept) -> sc' p = sc p) -> (forall p, In (fst p) inc -> sc' p = 1%Qc) ->
  inv_s sc m (out ++ kept) n -> asc (out ++ kept ++ inc) -> kept ++ inc <> [] -> (forall e, In e inc -> n <= el_idx e) ->
  exists m', npp_mapping text clock (kept ++ inc) inc out m = (m', Ok tt) /\ inv_s sc' m' (kept ++ inc) (next_size n inc).
Proof.
  intros SC1 SC2 ((S1 & S2 & S3 & S4 & S5 & S6) & HV & HB & HP) HA HN HI.
  destruct (variables_step m n inc) as (m1 & x & E1 & HX & HV1 & vs & Em1); auto.
  { intros ->. rewrite app_nil_r in HN. destruct kept as [|k kept]; [congruence|]. assert (el_idx k < n) by (apply HB, in_app_iff; right; now left). lia. }
  set (n' := next_size n inc) in *.
  assert (Ln : n <= n').
  { unfold n', next_size. destruct inc as [|i inc]; [lia|]. pose proof (max_index_ge (i :: inc) i (or_introl eq_refl)).
    specialize (HI i (or_introl eq_refl)). lia. }
  assert (Hinc : forall e, In e inc -> el_idx e < n').
  { intros e He. unfold n', next_size. destruct inc as [|i inc]; [destruct He|]. pose proof (max_index_ge (i :: inc) e He). lia. }
  assert (Hkept : forall e, In e kept -> el_idx e < n') by (intros e He; specialize (HB e); rewrite in_app_iff in HB; specialize (HB (or_intror He)); lia).
  assert (Hels : forall e, In e (kept ++ inc) -> el_idx e < n') by (intros e He; apply in_app_iff in He as [He|He]; auto).
  assert (HA' : asc (kept ++ inc)) by (apply asc_app in HA; tauto).
  assert (A1 : aligned m1) by (subst m1; exact S4).
  assert (En1 : names m1 = names m) by (subst m1; reflexivity).
  assert (Hord : forall p, In p (flat_map (pairs_with (kept ++ inc)) inc) -> In (fst p) inc /\ In (snd p) (kept ++ inc) /\ (el_ts (snd p) < el_ts (fst p))%Qc).
  { intros p Hp. apply in_flat_map in Hp as (i & Hi & Hp). apply in_map_iff in Hp as (j & <- & Hj). apply filter_In in Hj as [Hj Ht].
    apply Qclt_bool_iff in Ht. auto. }
  assert (ND : NoDup (names m1 ++ map pair_name (flat_map (pairs_with (kept ++ inc)) inc))).
  { rewrite En1. apply NoDup_app_iff. split; [apply S5|]. split.
    - apply NoDup_map_inj.
      + intros [a b] [c d] H1 H2 E. apply Hord in H1 as (A & B & C), H2 as (D & F & G). cbn [fst snd] in *.
        assert (A' : In a (kept ++ inc)) by (apply in_app_iff; now right). assert (D' : In c (kept ++ inc)) by (apply in_app_iff; now right).
        unfold pair_name in E. cbn [fst snd] in E. apply pname_inj in E as [[X1 X2]|[X1 X2]].
        * apply (asc_in _ _ _ HA') in X1, X2; auto. congruence.
        * apply (asc_ts _ _ _ HA') in C, G; auto. lia.
      + apply NoDup_flat_map.
        * apply asc_app in HA'. apply asc_nodup; tauto.
        * intros i _. apply FinFun.Injective_map_NoDup; [intros u v Q; congruence|]. apply NoDup_filter, asc_nodup; auto.
        * intros i i' p Hi Hi' Hp Hp'. apply in_map_iff in Hp as (j & <- & _), Hp' as (j' & Q & _). congruence.
    - intros nm H1 H2. unfold names in H1. apply in_map_iff in H1 as (r & <- & Hr). unfold named_pairs in S6. rewrite Forall_forall in S6.
      destruct (S6 r Hr) as (a & b & La & Lb & E & _). rewrite E in H2. apply in_map_iff in H2 as (p & E' & Hp). apply Hord in Hp as (A & B & C).
      specialize (HI _ A). unfold pair_name in E'. apply pname_inj in E' as [[X1 X2]|[X1 X2]]; lia. }
  destruct (add_outer text clock x n' (kept ++ inc) HX Hels inc Hinc) with (m := m1) as (m2 & E2 & G2); auto.
  { intros i j Hi Hj Ht C. apply (asc_ts _ _ _ HA') in Ht; auto; [lia|]. apply in_app_iff; now right. }
  pose proof G2 as ((R1 & R2 & R3 & R4 & R5 & R6 & R7) & AL & new & ER & F2).
  assert (Em : m_mtype m1 = m_mtype m /\ m_offset m1 = m_offset m /\ m_constrs m1 = m_constrs m /\ m_rows m1 = m_rows m) by (subst m1; auto).
  destruct Em as (M1 & M2 & M3 & M4).
  assert (SH : shape_ok m2 n').
  { split; [congruence|]. split; [congruence|]. split; [congruence|]. split; [auto|]. split; [split|].
    - unfold names_unique. rewrite (grown_names _ _ _ G2).
      exact ND.
    - rewrite ER, M4. apply Forall_app. split; [apply S5|]. clear -F2. induction F2 as [|r p l l' H F IH]; constructor; auto. apply H.
    - rewrite ER, M4. apply Forall_app. split; [now apply (named_mono n)|].
      assert (HQ : Forall (fun p => el_idx (fst p) < n' /\ el_idx (snd p) < n') (flat_map (pairs_with (kept ++ inc)) inc)).
      { apply Forall_forall. intros p Hp. apply Hord in Hp as (A & B & _). auto. }
      clear -F2 HQ. induction F2 as [|r p l l' (K & N & _) F IH]; constructor; inversion HQ; subst; auto.
      exists (el_idx (fst p)), (el_idx (snd p)). tauto. }
  destruct (delete_loop x n' out HX) with (m := m2) as (m3 & E3 & SH3 & V3 & L3); auto.
  { intros o Ho. assert (el_idx o < n) by (apply HB, in_app_iff; now left). lia. }
  exists m3. split.
  { unfold npp_mapping. unfold bind at 1. rewrite E1. unfold bind at 1. rewrite E2. exact E3. }
  split; [auto|]. split; [|split; [auto|]].
  { unfold vars_ok in *. rewrite V3, R2. exact HV1. }
  rewrite L3. unfold live at 1. rewrite ER, M4, filter_app, map_app, filter_app, (rows_for_data _ _ F2).
  assert (HOK : forall a, In a (kept ++ inc) -> ~ In (el_idx a) (map el_idx out)).
  { intros a Ha C. apply in_map_iff in C as (o & E & Ho). apply asc_app in HA as (_ & _ & HA2). destruct (HA2 o a); auto. lia. }
  eapply perm_trans.
  { apply Permutation_app; [apply filter_perm, HP|].
    rewrite filter_all; [apply Permutation_refl|]. intros k Hk. apply in_map_iff in Hk as (p & <- & Hp). apply Hord in Hp as (A & B & _).
    apply untouched_pdata. split; apply HOK; auto. apply in_app_iff; now right. }
  rewrite pairs_shrink with (ds := out) (sc := sc); [|rewrite app_assoc in HA; apply asc_app in HA; tauto|apply incl_refl|intros a Ha; apply HOK, in_app_iff; now left].
  rewrite (map_ext_in (pdata_s sc) (pdata_s sc')).
  2:{ intros p Hp. unfold pdata_s. now rewrite SC1. }
  rewrite (map_ext_in pdata (pdata_s sc')).
  2:{ intros p Hp. unfold pdata_s, plain. rewrite SC2; auto. now apply Hord in Hp. }
  rewrite <- map_app. apply Permutation_map. symmetry. apply pairs_grow; auto.
Qed.
Lemma mapping_step text clock m n out kept inc :
  inv m (out ++ kept) n -> asc (out ++ kept ++ inc) -> kept ++ inc <> [] -> (forall e, In e inc -> n <= el_idx e) ->
  exists m', npp_mapping text clock (kept ++ inc) inc out m = (m', Ok tt) /\ inv m' (kept ++ inc) (next_size n inc).
Proof. apply mapping_step_s; reflexivity. Qed.

(** ** Energies *)
Lemma live_sum fd s rows :
  qsum (map (contribution fd s) rows) =
  qsum (map (fun k => value fd (snd (fst k)) * value fd (snd k) * monomial s (fst (fst k)))%Qc
            (map rdata (filter (fun r => negb (r_removed r)) rows))).
Proof.
  induction rows as [|r rows IH]; auto. cbn [map filter]. unfold contribution at 1. destruct (r_removed r) eqn:E; cbn [negb].
  - cbn [qsum fold_right]. fold (qsum (map (contribution fd s) rows)). rewrite IH. unfold qsum. ring.
  - cbn [map qsum fold_right]. fold (qsum (map (contribution fd s) rows)). rewrite IH. reflexivity.
Qed.
Lemma pair_energy_perm s a b : Permutation a b -> pair_energy s a = pair_energy s b.
Proof.
  unfold pair_energy. intros P. induction P as [|x l l' P IH|x y l|l l' l'' P1 IH1 P2 IH2]; auto.
  - cbn [pairs]. rewrite !map_app, !qsum_app, IH. f_equal. apply qsum_perm. rewrite !map_map. now apply Permutation_map.
  - cbn [pairs map app]. rewrite !map_app. cbn [fst snd]. set (f := map _ (map _ l)). set (g := map _ (map _ l)). set (h := map _ (pairs l)).
    set (q1 := (_ * _ * _)%Qc). set (q2 := (_ * _ * _)%Qc). assert (E : q1 = q2) by (unfold q1, q2; ring). rewrite E.
    change (q2 :: f ++ g ++ h) with ([q2] ++ f ++ g ++ h). change (q2 :: g ++ f ++ h) with ([q2] ++ g ++ f ++ h).
    rewrite !qsum_app. ring.
  - congruence.
Qed.
(** The same sum with a weight for each pair. *)
Definition weighted_energy (sc : num_el * num_el -> Qc) (s : assignment) (els : list num_el) : Qc :=
  qsum (map (fun p => sc p * (el_val (fst p) * el_val (snd p) * (s (spin_of (fst p)) * s (spin_of (snd p)))))%Qc (pairs els)).
Lemma weighted_plain s els : weighted_energy plain s els = pair_energy s els.
Proof. unfold weighted_energy, pair_energy, plain. f_equal. apply map_ext. intros p. ring. Qed.
Lemma inv_energy_s sc m els n fd s : inv_s sc m els n -> energy fd s m = weighted_energy sc s els.
Proof.
  intros ((_ & S2 & _) & _ & _ & P). unfold energy. rewrite S2, live_sum.
  fold (live m). rewrite (qsum_perm _ _ (Permutation_map _ P)). rewrite map_map. unfold weighted_energy, value. cbn [ceval pdata_s fst snd].
  set (f := fun p : num_el * num_el => _). set (g := fun p : num_el * num_el => _).
  assert (HFG : forall p, f p = (- (1) * g p)%Qc).
  { intros p. unfold f, g, pkey. destruct (String.ltb _ _); cbn [monomial]; unfold spin_of, lab; ring. }
  rewrite (map_ext _ _ HFG), qsum_map_mul. ring.
Qed.
Lemma inv_energy m els n fd s : inv m els n -> energy fd s m = pair_energy s els.
Proof. intros H. rewrite (inv_energy_s _ _ _ _ _ _ H). apply weighted_plain. Qed.

Lemma inv_resolved sc m els n : inv_s sc m els n -> resolved [] m.
Proof.
  intros ((_ & S2 & _) & _ & _ & P). split; [|rewrite S2; discriminate].
  intros r Hr HA. assert (HI : In (rdata r) (map rdata (live m))).
  { apply in_map. apply filter_In. split; auto. rewrite HA. reflexivity. }
  apply (Permutation_in _ P), in_map_iff in HI as (p & E & _). unfold rdata, pdata_s in E. injection E as _ E1 E2.
  rewrite <- E1, <- E2. split; discriminate.
Qed.
Lemma qsum_first c l : qsum (c :: l) = (c + qsum l)%Qc.
Proof. reflexivity. Qed.
Lemma live_pair sc m els n r : inv_s sc m els n -> NoDup (map el_idx els) -> In r (m_rows m) -> r_removed r = false ->
  exists x y, In x els /\ In y els /\ el_idx x <> el_idx y /\ r_key r = K2 (spin_of x) (spin_of y) /\
    exists q, forall fd, coefv fd r = (el_val x * el_val y * q)%Qc.
Proof.
  intros (_ & _ & _ & P) HN Hr HA. assert (HI : In (rdata r) (map rdata (live m))).
  { apply in_map. apply filter_In. split; auto. rewrite HA. reflexivity. }
  apply (Permutation_in _ P), in_map_iff in HI as ([x y] & E' & HI). unfold rdata, pdata_s in E'. injection E' as E' EC ES.
  cbn [fst snd] in E', EC.
  assert (NQ : el_idx x <> el_idx y).
  { intros EQ. clear - HI HN EQ. induction els as [|z els IH]; [destruct HI|]. cbn [pairs] in HI. apply in_app_iff in HI as [HI|HI].
    - apply in_map_iff in HI as (w & E & HI). injection E as -> ->. inversion HN as [|? ? H _]. apply H. rewrite <- EQ. now apply in_map.
    - apply IH; auto. now inversion HN. }
  apply pairs_in in HI as [H1 H2]. rewrite <- E'. unfold pkey. destruct (String.ltb _ _); [exists x, y | exists y, x]; (split; [auto|split; [auto|split; [auto|split; [reflexivity|]]]]);
    exists (- (1) * sc (x, y))%Qc; intros fd; unfold coefv, value; rewrite <- EC, <- ES; cbn [ceval]; ring.
Qed.
Lemma lin_none sc m els n fd l : inv_s sc m els n -> NoDup (map el_idx els) -> lin_total fd (m_rows m) l = 0%Qc.
Proof.
  intros HI HN. pose proof (fun r => live_pair sc m els n r HI HN) as H. clear HI HN. unfold lin_total.
  induction (m_rows m) as [|r rows IH]; auto. cbn [map]. rewrite qsum_first, IH by (intros; apply H; auto; now right).
  destruct (r_removed r) eqn:E; [ring|]. destruct (H r (or_introl eq_refl) E) as (x & y & _ & _ & _ & -> & _). ring.
Qed.
Lemma quad_only sc m els n fd a b : inv_s sc m els n -> NoDup (map el_idx els) ->
  quad_total fd (m_rows m) a b = 0%Qc \/
  exists x y, In x els /\ In y els /\ el_idx x <> el_idx y /\ el_val x <> 0%Qc /\ el_val y <> 0%Qc /\ a = spin_of x /\ b = spin_of y.
Proof.
  intros HI HN. pose proof (fun r => live_pair sc m els n r HI HN) as H. clear HI HN. unfold quad_total.
  induction (m_rows m) as [|r rows IH]; auto. cbn [map]. rewrite qsum_first.
  destruct IH as [-> | IH]; [intros; apply H; auto; now right | | now right].
  destruct (r_removed r) eqn:E; [left; ring|]. destruct (H r (or_introl eq_refl) E) as (x & y & H1 & H2 & H3 & -> & q & H4).
  destruct (String.eqb_spec a (spin_of x)) as [->|_]; [|left; cbn [andb]; ring].
  destruct (String.eqb_spec b (spin_of y)) as [->|_]; [|left; cbn [andb]; ring]. cbn [andb]. rewrite H4.
  destruct (Qc_eq_dec (el_val x) 0) as [-> |]; [left; ring|]. destruct (Qc_eq_dec (el_val y) 0) as [-> |]; [left; ring|]. right. exists x, y. repeat split; auto.
Qed.
Lemma only_pairs_no_loop els p : only_pairs els p -> forall l, ~ In (l, l) (dkeys (p_quad p)).
Proof.
  intros [_ H] l HI. destruct (H l l HI) as (x & y & _ & _ & N & _ & _ & E1 & E2). apply N, lab_inj. change (spin_of x = spin_of y). congruence.
Qed.
Lemma solving_step_s sc ev evs m els n : inv_s sc m els n -> NoDup (map el_idx els) ->
  exists m' p, to_physical ev evs [] m = (m', Ok p) /\ inv_s sc m' els n /\ p_mtype p = Ising /\
    only_pairs els p /\
    forall s, energy_physical s p = weighted_energy sc s els.
Proof.
  intros HI HND. pose proof HI as ((S1 & S2 & S3 & S4 & [S5 S5'] & S6) & HV & HB & HP).
  assert (HC : cmodels evs 0 (m_mtype m) (dvals (m_constrs m)) = Ok []) by (rewrite S3; reflexivity).
  assert (HX : forall r cm, In r (m_rows m) -> r_removed r = true -> In cm [] -> ~ In (r_name r) (names cm)) by (intros ? ? _ _ []).
  destruct (C09_to_physical_succeeds ev evs [] m [] S4 S5 (inv_resolved _ _ _ _ HI) HC HX) as (m' & p & E).
  exists m', p. split; auto. 
  destruct (C11_frame _ _ _ _ _ _ _ S4 S5 HC HX E) as (F1 & F2 & F3 & _ & _ & F6 & _ & _ & F9 & _ & F11 & F12).
  assert (HL : m_len m = length (m_rows m)) by apply S4.
  split; [|split; [|split]].
  - split; [|split; [unfold vars_ok in *; rewrite F2; auto | split; auto]].
    + split; [congruence|]. split; [congruence|]. split; [congruence|]. split; auto. split; [split; auto|].
      * rewrite F9. apply Forall_forall. intros r Hr. apply in_map_iff in Hr as (r0 & <- & Hr). apply filter_In in Hr as [Hr _].
        rewrite Forall_forall in S5'. apply (S5' r0 Hr).
      * rewrite F9. apply Forall_forall. intros r Hr. apply in_map_iff in Hr as (r0 & <- & Hr). apply filter_In in Hr as [Hr _].
        unfold named_pairs in S6. rewrite Forall_forall in S6. apply (S6 r0 Hr).
    + eapply perm_trans; [|exact HP]. unfold live. rewrite F9.
      assert (EQ : map rdata (filter (fun r => negb (r_removed r)) (map (set_dirty false) (filter (fun r => negb (r_removed r)) (m_rows m)))) =
                   map rdata (filter (fun r => negb (r_removed r)) (m_rows m))); [|rewrite EQ; reflexivity].
      clear. induction (m_rows m) as [|r l IH]; auto. cbn [filter]. destruct (r_removed r) eqn:E; cbn [negb]; auto.
      cbn [map filter]. change (r_removed (set_dirty false r)) with (r_removed r). rewrite E. cbn [negb map]. f_equal; auto.
  - destruct (to_physical_ok _ _ _ _ _ _ HL E) as (cms & _ & _ & ->). rewrite <- S1. unfold phys, build_physical. destruct (index_labels _ _ _ _ _ _); reflexivity.
  - destruct (C10_coefficients _ _ _ _ _ _ HL E) as (cms & HC' & _ & _ & L0 & _ & Q0 & _). rewrite HC in HC'. injection HC' as <-.
    cbn [flat_map] in L0, Q0. rewrite app_nil_r in L0, Q0. split.
    + destruct (p_linear p) as [|[l q] d]; auto. specialize (L0 l (lin_none sc m els n [] l HI HND)). apply dget_none in L0.
      exfalso. apply L0. now left.
    + intros a b HK. destruct (quad_only sc m els n [] a b HI HND) as [Z|H]; auto. apply Q0, dget_none in Z. contradiction.
  - intros s. rewrite (C09_no_constraints _ _ _ _ _ _ HL S3 E). apply (inv_energy_s sc _ _ n); auto.
Qed.

Lemma solving_step ev evs m els n : inv m els n -> NoDup (map el_idx els) ->
  exists m' p, to_physical ev evs [] m = (m', Ok p) /\ inv m' els n /\ p_mtype p = Ising /\
    only_pairs els p /\
    forall s, energy_physical s p = pair_energy s els.
Proof.
  intros HI HND. destruct (solving_step_s plain ev evs m els n HI HND) as (m' & p & A & B & C & D & E).
  exists m', p. split; auto. split; auto. split; auto. split; auto. intros s. rewrite E. apply weighted_plain.
Qed.

(** ** One window *)
Lemma asc_chrono l : asc l -> chronological l.
Proof.
  intros H. induction H as [|x l H IH F]; constructor; auto.
  apply (Forall_impl _ (fun y (Hy : later_el x y) => or_introl (proj1 Hy)) F).
Qed.
Lemma chrono_asc stream l : in_order stream -> (forall e, In e l -> In e stream) -> NoDup (map el_idx l) -> chronological l -> asc l.
Proof.
  intros [_ HO] HI HN HC. induction HC as [|x l HC IH F]; constructor.
  - apply IH; [intros; apply HI; now right|]. now inversion HN.
  - inversion HN as [|? ? N1 N2]; subst. apply Forall_forall. intros y Hy. rewrite Forall_forall in F.
    destruct (F y Hy) as [L|[E L]].
    + split; auto. apply HO; auto; apply HI; [now left | now right].
    + exfalso. assert (D : el_idx x <> el_idx y) by (intros D; apply N1; rewrite D; now apply in_map).
      assert (L2 : el_idx x < el_idx y) by lia. apply HO in L2; [|apply HI; now left|apply HI; now right]. rewrite E in L2. qord.
Qed.
Lemma only_pairs_perm a b p : Permutation a b -> only_pairs a p -> only_pairs b p.
Proof.
  intros P [H1 H2]. split; auto. intros l k HI. destruct (H2 l k HI) as (x & y & X & Y & R). exists x, y.
  split; [eapply Permutation_in; eauto|]. split; [eapply Permutation_in; eauto|]. exact R.
Qed.
Lemma answers_perm u a b x : Permutation a b -> answers u a x -> answers u b x.
Proof.
  intros P (p & els & H1 & H2 & H3 & H4 & H5 & H6). exists p, els. split; auto. split; [eapply perm_trans; eauto|]. split; auto. split; [|split; auto].
  - intros s. rewrite H4. now apply pair_energy_perm.
  - eapply only_pairs_perm; eauto.
Qed.
Lemma window_step a o w u (b : bags Qc (list srow)) n out kept inc :
  a <> Attenuation -> current w b -> prev_els b = out ++ kept -> inv (stored_model Ising b) (out ++ kept) n ->
  window_elements a o (out ++ kept) (wn_els w) = Ok (kept ++ inc) ->
  resolve_outgoing (out ++ kept) (kept ++ inc) = Ok out -> resolve_incoming (out ++ kept) (kept ++ inc) = inc ->
  asc (out ++ kept ++ inc) -> kept ++ inc <> [] -> (forall e, In e inc -> n <= el_idx e) ->
  exists b' x, process a o (npp_callbacks u) Ising w b = (b', Ok x) /\ answers u (kept ++ inc) x /\
    prev_els b' = kept ++ inc /\ b_ts b' = [wn_ts w] /\ inv (stored_model Ising b') (kept ++ inc) (next_size n inc).
Proof.
  intros Ha Hc Hp HI Hw Ho Hin HA HN Hn. unfold process.
  assert (HCH : chronological (kept ++ inc)) by (apply asc_app in HA as (_ & HA & _); now apply asc_chrono). apply current_test in Hc. rewrite Hc.
  change (last_or [] (b_els b)) with (prev_els b). rewrite Hp, Hw, Ho, Hin.
  change (last_or (new_model Ising) (b_model b)) with (stored_model Ising b).
  destruct (mapping_step (su_text u) (su_clock u) (stored_model Ising b) n out kept inc) as (m1 & E1 & I1); auto.
  assert (HND : NoDup (map el_idx (kept ++ inc))).
  { apply asc_app in HA as (_ & HA & _). clear - HA. induction HA as [|x l HA IH F]; cbn [map]; constructor; auto.
    intros C. apply in_map_iff in C as (y & E & Hy). rewrite Forall_forall in F. destruct (F y Hy). lia. }
  destruct (solving_step (su_env u) (su_envs u) m1 _ _ I1 HND) as (m2 & p & E2 & I2 & T2 & NL & EN).
  cbn [npp_callbacks cb_map cb_solve cb_unmap]. rewrite E1.
  assert (EA : (match a with Attenuation => attenuate (wn_env w) (wn_envs w) (ao_key o) (ao_min_scale o) m1 | _ => (m1, Ok tt) end) = (m1, Ok tt))
    by (destruct a; congruence).
  rewrite EA. unfold npp_solving. rewrite E2.
  destruct (su_solver u p) as [ss|e] eqn:ES.
  - do 2 eexists. split; [reflexivity|]. split; [|split; [reflexivity|split; [reflexivity|exact I2]]].
    exists p, (kept ++ inc). split; auto. split; auto. split; auto. split; auto. split; auto. rewrite ES. reflexivity.
  - do 2 eexists. split; [reflexivity|]. split; [|split; [reflexivity|split; [reflexivity|exact I2]]].
    exists p, (kept ++ inc). split; auto. split; auto. split; auto. split; auto. split; auto. rewrite ES. reflexivity.
Qed.

(** ** Histories *)
Lemma next_size_le n inc : (forall e, In e inc -> n <= el_idx e) -> n <= next_size n inc /\ forall e, In e inc -> el_idx e < next_size n inc.
Proof.
  intros H. destruct inc as [|e inc]; [split; [apply le_n | intros ? []]|]. unfold next_size.
  set (l := e :: inc) in *. split.
  - destruct (max_index_in l) as (e' & HI & E); [discriminate|]. specialize (H e' HI). lia.
  - intros x Hx. pose proof (max_index_ge l x Hx). lia.
Qed.
Lemma next_size_bound n inc k : n <= k -> (forall e, In e inc -> el_idx e < k) -> next_size n inc <= k.
Proof.
  intros H1 H2. destruct inc as [|e inc]; auto. unfold next_size. set (l := e :: inc) in *.
  destruct (max_index_in l) as (e' & HI & E); [discriminate|]. specialize (H2 e' HI). lia.
Qed.
Lemma in_range_perm {V} (l : list (element V)) stream lo hi e : Permutation l (range stream lo hi) ->
  In e l <-> In e stream /\ (lo <= el_ts e)%Qc /\ (el_ts e < hi)%Qc.
Proof.
  intros P. split; intros H.
  - apply (Permutation_in _ P) in H. unfold range in H. apply filter_In in H as [H1 H2]. now apply in_range_iff in H2.
  - apply (Permutation_in _ (Permutation_sym P)). apply filter_In. split; [tauto|]. apply in_range_iff. tauto.
Qed.

Lemma NoDup_range (stream : list num_el) lo hi : NoDup (map el_idx stream) -> NoDup (map el_idx (range stream lo hi)).
Proof.
  unfold range. induction stream as [|e l IH]; auto. cbn [map filter]. intros H. inversion H as [|? ? H1 H2]; subst.
  destruct (in_range lo hi e); auto. cbn [map]. constructor; auto. intros C. apply H1. apply in_map_iff in C as (x & <- & Hx).
  apply filter_In in Hx as [Hx _]. now apply in_map.
Qed.

Lemma history_window a o stream rs : windowed a -> a <> Attenuation -> in_order stream ->
  forall ws (b : bags Qc (list srow)) n lo hi t,
  chronological (prev_els b) -> Permutation (prev_els b) (range stream lo hi) ->
  inv (stored_model Ising b) (prev_els b) n -> last (b_ts b) (- (1))%Qc = t ->
  (forall e, In e stream -> (hi <= el_ts e)%Qc -> n <= el_idx e) ->
  in_time t (map fst ws) -> forward lo hi rs ->
  Forall2 (fun r wu => wn_els (fst wu) <> [] /\ Permutation (wn_els (fst wu)) (range stream (fst r) (snd r))) rs ws ->
  exists b' outs,
    npp_stream a o ws b = (b', Ok outs) /\
    Forall2 (fun wu out => answers (snd wu) (wn_els (fst wu)) out) ws outs /\
    exists n', inv (stored_model Ising b') (prev_els b') n' /\
      Permutation (prev_els b') (last (map (fun wu => wn_els (fst wu)) ws) (prev_els b)).
Proof.
  intros Ha Hatt HO. induction rs as [|[lo' hi'] rs IH]; intros ws b n lo hi t HC HP HI Ht Hn Hit Hf HF; inversion HF as [|? [w u] ? ws' [HN HW] HF']; subst.
  - exists b, []. split; [reflexivity|]. split; [constructor|]. exists n. split; auto.
  - cbn [fst snd map in_time forward] in *. destruct Hf as (L1 & L2 & Hf). destruct Hit as [Lt Hit].
    destruct (windowed_cut stream (prev_els b) (wn_els w) lo hi lo' hi') as (out & kept & inc & E1 & E2 & Eo & Ei & Mo & Mi); auto; [apply HO|].
    assert (SP : Permutation (wn_els w) (sorted (wn_els w))) by apply sorted_perm.
    assert (Hinc : forall e, In e inc -> In e stream /\ (hi <= el_ts e)%Qc /\ (el_ts e < hi')%Qc).
    { intros e He. apply Mi in He as [He1 He2]. apply (in_range_perm _ _ _ _ _ HW) in He1 as (S & A & B).
      split; auto. split; auto. destruct (Qclt_le_dec (el_ts e) hi) as [C|C]; auto. exfalso. apply He2, (in_range_perm _ _ _ _ _ HP). split; auto. split; auto. qord. }
    assert (HA : asc (out ++ kept ++ inc)).
    { assert (A1 : asc (prev_els b)).
      { apply (chrono_asc stream); auto.
        - intros e He. now apply (in_range_perm _ _ _ _ _ HP) in He.
        - apply (idx_perm (range stream lo hi)); [now symmetry|]. apply NoDup_range. apply HO. }
      assert (A2 : asc (sorted (wn_els w))).
      { apply (chrono_asc stream); auto.
        - intros e He. apply (Permutation_in _ (Permutation_sym SP)) in He. now apply (in_range_perm _ _ _ _ _ HW) in He.
        - apply (idx_perm (range stream lo' hi')); [symmetry; eapply perm_trans; [symmetry; exact SP | exact HW]|]. apply NoDup_range. apply HO.
        - apply sorted_chronological. }
      rewrite E1 in A1. rewrite E2 in A2. apply asc_app in A1 as (B1 & B2 & B3). apply asc_app. split; auto. split; auto.
      intros x y Hx Hy. apply in_app_iff in Hy as [Hy|Hy]; auto.
      assert (Hx' : In x (prev_els b)) by (rewrite E1; apply in_app_iff; now left).
      apply (in_range_perm _ _ _ _ _ HP) in Hx' as (X1 & X2 & X3). destruct (Hinc y Hy) as (Y1 & Y2 & Y3).
      assert (L : (el_ts x < el_ts y)%Qc) by qord. split; auto. now apply HO. }
    assert (Hne : kept ++ inc <> []).
    { rewrite <- E2. intros C. apply HN. apply Permutation_nil. rewrite <- C. now symmetry. }
    assert (Hn' : forall e, In e inc -> n <= el_idx e) by (intros e He; apply Hinc in He; apply Hn; tauto).
    destruct (window_step a o w u b n out kept inc) as (b1 & x & P1 & A1 & P2 & T1 & I1); auto.
    { intros t' <-. exact Lt. }
    { rewrite <- E1. exact HI. }
    { rewrite <- E2, <- E1. now apply windowed_elements. }
    { now rewrite <- E2, <- E1. }
    { now rewrite <- E2, <- E1. }
    assert (Q2 : prev_els b1 = sorted (wn_els w)) by congruence.
    destruct (IH ws' b1 (next_size n inc) lo' hi' (wn_ts w)) as (b' & outs & R1 & R2 & n' & R3 & R4); auto.
    { rewrite Q2. apply sorted_chronological. }
    { rewrite Q2. eapply perm_trans; [symmetry; exact SP | exact HW]. }
    { now rewrite P2. }
    { rewrite T1. reflexivity. }
    { intros e He Lh. apply next_size_bound.
      - apply Hn; auto. qord.
      - intros y Hy. destruct (Hinc y Hy) as (Y1 & Y2 & Y3). apply HO; auto. qord. }
    exists b', (x :: outs). split; [|split].
    + cbn [npp_stream]. unfold bind at 1. rewrite P1. unfold bind at 1. rewrite R1. reflexivity.
    + constructor; auto. cbn [fst snd]. eapply answers_perm; [|exact A1]. rewrite <- E2. now symmetry.
    + exists n'. split; auto. eapply perm_trans; [exact R4|]. destruct ws' as [|y ws']; [cbn; rewrite Q2; now symmetry|].
      cbn [map fst]. cbn [last]. clear. revert y. induction ws' as [|z ws' IH]; intros y; cbn [map last]; auto.
Qed.
Lemma inv_new : inv (new_model Ising) [] 0.
Proof.
  split; [|split; [left; auto|split; [intros ? []|constructor]]].
  split; auto. split; auto. split; auto. split; [repeat split; constructor|]. split; [split; constructor|constructor].
Qed.

(** C62: the number-partitioning sample, run window by window over a stream, hands
    the solver in each window a model that is exactly the one of the numbers of that
    window, although it is updated from the previous one. *)
Theorem C62_window a o stream lo rs ws :
  a = Window \/ a = Delta -> in_order stream ->
  in_time (- (1))%Qc (map fst ws) -> forward lo lo rs ->
  Forall2 (fun r wu => wn_els (fst wu) <> [] /\ Permutation (wn_els (fst wu)) (range stream (fst r) (snd r))) rs ws ->
  exists b outs,
    npp_stream a o ws no_bags = (b, Ok outs) /\
    Forall2 (fun wu out => answers (snd wu) (wn_els (fst wu)) out) ws outs /\
    forall fd s, energy fd s (stored_model Ising b) = pair_energy s (last (map (fun wu => wn_els (fst wu)) ws) []).
Proof.
  intros Ha HO Hit Hf HF.
  destruct (history_window a o stream rs ltac:(unfold windowed; tauto) ltac:(destruct Ha; congruence) HO ws no_bags 0 lo lo (- (1))%Qc) as (b & outs & H1 & H2 & n & H3 & H4); auto.
  - constructor.
  - change (prev_els (@no_bags Qc (list srow))) with (@nil num_el).
    assert (E : range stream lo lo = []); [|rewrite E; constructor]. unfold range. clear. induction stream as [|e l IH]; auto. cbn [filter].
    destruct (in_range lo lo e) eqn:E; auto. apply in_range_iff in E as [A B]. exfalso. qord.
  - apply inv_new.
  - lia.
  - exists b, outs. split; auto. split; auto. intros fd s. rewrite (inv_energy _ _ _ fd s H3). now apply pair_energy_perm.
Qed.

Lemma in_order_sub a b : in_order (a ++ b) -> in_order a.
Proof.
  intros [H1 H2]. split; [rewrite map_app in H1; now apply NoDup_app_iff in H1|]. intros x y Hx Hy. apply H2; apply in_app_iff; now left.
Qed.
Lemma in_order_perm a b : Permutation a b -> in_order a -> in_order b.
Proof.
  intros P [H1 H2]. split; [now apply (idx_perm a)|]. intros x y Hx Hy. apply H2; apply (Permutation_in _ (Permutation_sym P)); auto.
Qed.
Lemma arriving_sub {V} (ws : list (win V)) : forall l l', (forall x, In x l' -> In x l) -> arriving l ws -> arriving l' ws.
Proof.
  induction ws as [|w' ws IH]; intros l l' Hi; cbn [arriving]; auto. intros [H1 H2]. split.
  - intros p e Hp. apply H1; auto.
  - eapply IH; [|exact H2]. intros x. rewrite !in_app_iff. intros [H|H]; auto.
Qed.

Lemma history_incremental o : forall ws (b : bags Qc (list srow)) seen n,
  Permutation seen (prev_els b) -> chronological (prev_els b) -> inv (stored_model Ising b) (prev_els b) n ->
  (forall k, (forall e, In e seen -> el_idx e < k) -> n <= k) ->
  in_time (last (b_ts b) (- (1))%Qc) (map fst ws) -> arriving seen (map fst ws) ->
  in_order (seen ++ concat (map (fun wu => wn_els (fst wu)) ws)) -> (forall wu, In wu ws -> wn_els (fst wu) <> []) ->
  exists b' outs,
    npp_stream Incremental o ws b = (b', Ok outs) /\ answers_all seen ws outs /\
    exists n', inv (stored_model Ising b') (prev_els b') n' /\
      Permutation (prev_els b') (seen ++ concat (map (fun wu => wn_els (fst wu)) ws)).
Proof.
  induction ws as [|[w u] ws IH]; intros b seen n HP HC HI Hn Hit Har HO HN.
  - exists b, []. split; [reflexivity|]. split; [exact Logic.I|]. exists n. split; auto. cbn. rewrite app_nil_r. now symmetry.
  - cbn [map concat fst arriving in_time] in *. destruct Hit as [Lt Hit]. destruct Har as [Hl Har].
    set (prev := prev_els b) in *. set (inc := sorted (wn_els w)).
    assert (SP : Permutation (wn_els w) inc) by apply sorted_perm.
    rewrite app_assoc in HO. pose proof (in_order_sub _ _ HO) as HO1.
    assert (HP2 : Permutation (seen ++ wn_els w) (prev ++ inc)) by now apply Permutation_app.
    assert (HO2 : in_order (prev ++ inc)) by (eapply in_order_perm; eauto).
    assert (Hl' : forall p e, In p prev -> In e inc -> (el_ts p < el_ts e)%Qc).
    { intros p e Hp He. apply Hl; [apply (Permutation_in _ (Permutation_sym HP)) | apply (Permutation_in _ (Permutation_sym SP))]; auto. }
    assert (HCH : chronological (prev ++ inc)).
    { apply chrono_app. split; auto. split; [apply sorted_chronological|]. intros x y Hx Hy. left. now apply Hl'. }
    assert (HA : asc (prev ++ inc)) by (apply (chrono_asc (prev ++ inc)); auto; apply HO2).
    assert (Hels : sorted (inc ++ prev) = prev ++ inc).
    { apply sorted_unique; auto; [apply Permutation_app_comm | apply (idx_perm (prev ++ inc)); [apply Permutation_app_comm | apply HO2]]. }
    assert (Hni : inc <> []).
    { intros C. apply (HN (w, u)); [now left|]. cbn [fst]. apply Permutation_nil. rewrite <- C. now symmetry. }
    assert (Hne : prev ++ inc <> []) by (intros C; apply app_eq_nil in C; tauto).
    assert (Hinc : forall e, In e inc -> n <= el_idx e).
    { intros e He. apply Hn. intros p Hp. apply HO2; [apply in_app_iff; left; eapply Permutation_in; eauto | apply in_app_iff; now right|].
      apply Hl'; auto. eapply Permutation_in; eauto. }
    destruct (window_step Incremental o w u b n [] prev inc) as (b1 & x & P1 & A1 & P2 & T1 & I1); auto.
    { discriminate. }
    { intros t' <-. exact Lt. }
    { cbn [app window_elements]. fold inc. now rewrite Hels. }
    { apply outgoing_none; auto. intros e He. apply in_app_iff. now left. }
    { apply incoming_all; auto. apply sorted_chronological. }
    destruct (IH b1 (seen ++ wn_els w) (next_size n inc)) as (b' & outs & R1 & R2 & n' & R3 & R4); auto.
    { now rewrite P2. }
    { now rewrite P2. }
    { now rewrite P2. }
    { intros k Hk. apply next_size_bound.
      - apply Hn. intros e He. apply Hk, in_app_iff. now left.
      - intros e He. apply Hk, in_app_iff. right. apply (Permutation_in _ (Permutation_sym SP)); auto. }
    { rewrite T1. exact Hit. }
    { intros wu Hwu. apply HN. now right. }
    exists b', (x :: outs). split; [|split].
    + cbn [npp_stream]. unfold bind at 1. rewrite P1. unfold bind at 1. rewrite R1. reflexivity.
    + cbn [answers_all]. split; auto. eapply answers_perm; [|exact A1]. now symmetry.
    + exists n'. split; auto. now rewrite <- app_assoc in R4.
Qed.

Theorem C62_incremental o ws :
  in_time (- (1))%Qc (map fst ws) -> arriving [] (map fst ws) -> in_order (concat (map (fun wu => wn_els (fst wu)) ws)) ->
  (forall wu, In wu ws -> wn_els (fst wu) <> []) ->
  exists b outs,
    npp_stream Incremental o ws no_bags = (b, Ok outs) /\ answers_all [] ws outs /\
    forall fd s, energy fd s (stored_model Ising b) = pair_energy s (concat (map (fun wu => wn_els (fst wu)) ws)).
Proof.
  intros Hit Har HO HN. destruct (history_incremental o ws no_bags [] 0) as (b & outs & H1 & H2 & n & H3 & H4); auto.
  - constructor.
  - apply inv_new.
  - lia.
  - exists b, outs. split; auto. split; auto. intros fd s. rewrite (inv_energy _ _ _ fd s H3). now apply pair_energy_perm.
Qed.

(** The energy of the numbers is, up to a constant, the square of the imbalance. *)
Theorem C62_square s els : (forall e, In e els -> s (spin_of e) * s (spin_of e) = 1)%Qc ->
  ((1 + 1) * pair_energy s els + qsum (map (fun e => el_val e * el_val e) els) = imbalance s els * imbalance s els)%Qc.
Proof.
  induction els as [|x els IH]; intros H; [reflexivity|].
  unfold pair_energy, imbalance in *. cbn [pairs map]. rewrite map_app, qsum_app, map_map. cbn [fst snd].
  set (E := qsum (map _ (pairs els))) in *. set (I := qsum (map (fun e => el_val e * s (spin_of e))%Qc els)) in *.
  set (Q := qsum (map (fun e => el_val e * el_val e)%Qc els)) in *.
  assert (EC : forall c l, qsum (c :: l) = (c + qsum l)%Qc) by reflexivity. rewrite !EC. fold I. fold Q.
  assert (EX : qsum (map (fun y => el_val y * el_val x * (s (spin_of y) * s (spin_of x)))%Qc els) = (el_val x * s (spin_of x) * I)%Qc).
  { unfold I. rewrite <- qsum_map_mul. f_equal. apply map_ext. intros y. ring. }
  rewrite EX. specialize (IH (fun e He => H e (or_intror He))). specialize (H x (or_introl eq_refl)).
  replace ((el_val x * s (spin_of x) + I) * (el_val x * s (spin_of x) + I))%Qc
    with (el_val x * el_val x * (s (spin_of x) * s (spin_of x)) + (1 + 1) * (el_val x * s (spin_of x) * I) + I * I)%Qc by ring.
  rewrite H, <- IH. ring.
Qed.
Print Assumptions C62_window.
Print Assumptions C62_incremental.
Print Assumptions C62_square.
