(** * SeqReach: which spin vectors sweeps in index order can end in.

    Visiting a spin sends the higher of two neighbouring states to the lower one
    and the lower one to either. A set of states that two sweeps map to itself
    therefore contains, with a state, its predecessors: each visit would
    otherwise increase the weight of the set, for a weight that decreases
    strictly with the energy. *)
From Verif Require Import PyBase PyLemmas Numbers Constraint LogicalModel Spec PhysicalProofs Physical Solver SolverSpec SolverProofs ReachProofs.
From Coq Require Import Permutation Lqa.
Open Scope string_scope.
Open Scope list_scope.

Lemma this_plus a b : (this (a + b)%Qc == this a + this b)%Q.
Proof. apply Qred_correct. Qed.
Lemma this_opp a : (this (- a)%Qc == - this a)%Q.
Proof. apply Qred_correct. Qed.
Lemma eq_le (a b : Qc) : a = b -> (a <= b)%Qc /\ (b <= a)%Qc.
Proof. intros ->. split; apply Qcle_refl. Qed.
(** Linear arithmetic. *)
Ltac qlin := unfold Qcminus, Qcle, Qclt in *; rewrite ?this_plus, ?this_opp in *;
  change (this 0%Qc) with 0%Q in *; change (this 1%Qc) with 1%Q in *; lra.
Ltac qord := repeat match goal with H : @eq Qc _ _ |- _ => apply eq_le in H; destruct H end;
  match goal with |- @eq Qc _ _ => apply Qcle_antisym; qlin | |- _ => qlin end.

(** ** All spin vectors *)
Fixpoint cube (n : nat) : list (list Z) :=
  match n with 0 => [[]] | S m => map (cons 1%Z) (cube m) ++ map (cons (-1)%Z) (cube m) end.
Lemma cube_in n x : In x (cube n) <-> spinv n x.
Proof.
  unfold spinv. revert x. induction n as [|n IH]; intros x; cbn [cube].
  - split; [intros [<-|[]]; auto|]. intros [L _]. destruct x; [left; auto|discriminate].
  - rewrite in_app_iff, !in_map_iff. split.
    + intros [(y & <- & H)|(y & <- & H)]; apply IH in H; destruct H as [L F]; (split; [simpl; lia|constructor; auto; unfold spinz; auto]).
    + intros [L F]. destruct x as [|z x]; [discriminate|]. inversion F as [|? ? HZ HF]; subst. assert (HX : In x (cube n)) by (apply IH; split; auto).
      destruct HZ as [->| ->]; [left|right]; exists x; auto.
Qed.
Lemma cube_nodup n : NoDup (cube n).
Proof.
  induction n as [|n IH]; cbn [cube]; [repeat constructor; auto|]. apply NoDup_app_iff.
  assert (HC : forall z : Z, NoDup (map (cons z) (cube n))).
  { intros z. apply FinFun.Injective_map_NoDup; auto. intros a b H. inversion H; auto. }
  split; auto. split; auto. intros x H1 H2. apply in_map_iff in H1, H2. destruct H1 as (y & <- & _), H2 as (y' & H & _). discriminate.
Qed.
Lemma cube_len n : length (cube n) = 2 ^ n.
Proof. induction n as [|n IH]; cbn [cube]; auto. rewrite app_length, !map_length, IH. simpl. lia. Qed.
Lemma spinv_flip n i x : spinv n x -> spinv n (flipped i x).
Proof. intros [L F]. split; [rewrite flipped_len; auto|]. apply flipped_entries; auto. apply spin_opp. Qed.
Lemma cube_flip n i : Permutation (map (flipped i) (cube n)) (cube n).
Proof.
  apply NoDup_Permutation; [|apply cube_nodup|].
  - apply FinFun.Injective_map_NoDup; [|apply cube_nodup]. intros a b H. rewrite <- (flipped_twice i a), H. apply flipped_twice.
  - intros x. rewrite in_map_iff. split.
    + intros (y & <- & H). apply cube_in. apply spinv_flip. apply cube_in. auto.
    + intros H. exists (flipped i x). split; [apply flipped_twice|]. apply cube_in, spinv_flip, cube_in. auto.
Qed.
(** Any two spin vectors are joined by flips. *)
Lemma joined n (P : list Z -> Prop) : (forall x i, spinv n x -> i < n -> P x -> P (flipped i x)) -> forall m x y, spinv n x -> spinv n y -> m <= n ->
  (forall j, m <= j -> nth_error x j = nth_error y j) -> P x -> P y.
Proof.
  intros HP. induction m as [|m IH]; intros x y HX HY HM AG H.
  - replace y with x; auto. apply vec_ext. intros j. apply AG. lia.
  - pose proof HX as [LX SX]. pose proof HY as [LY SY].
    destruct (nth_error x m) as [a|] eqn:EA; [|apply nth_error_None in EA; lia]. destruct (nth_error y m) as [b|] eqn:EB; [|apply nth_error_None in EB; lia].
    destruct (Z.eq_dec a b) as [->|NE].
    + apply (IH x y); auto; [lia|]. intros j LJ. destruct (Nat.eq_dec j m) as [->|]; [congruence|apply AG; lia].
    + apply (IH (flipped m x) y); auto; [apply spinv_flip; auto|lia|].
      intros j LJ. rewrite flipped_at. destruct (Nat.eqb_spec j m) as [->|]; [|apply AG; lia]. rewrite EA, EB. cbn. f_equal.
      rewrite Forall_forall in SX, SY. assert (H1 := SX a (nth_error_In _ _ EA)). assert (H2 := SY b (nth_error_In _ _ EB)). unfold spinz in *. lia.
Qed.

(** ** Sums over the cube *)
Lemma qsum_le {A} (f g : A -> Qc) l : (forall a, In a l -> f a <= g a)%Qc -> (qsum (map f l) <= qsum (map g l))%Qc.
Proof. induction l as [|a l IH]; intros H; cbn [map qsum]; [apply Qcle_refl|]. apply Qcplus_le_compat; [apply H; simpl; auto|apply IH; intros; apply H; simpl; auto]. Qed.
Lemma qsum_eq_each {A} (f g : A -> Qc) l : (forall a, In a l -> f a <= g a)%Qc -> qsum (map f l) = qsum (map g l) -> forall a, In a l -> f a = g a.
Proof.
  induction l as [|b l IH]; intros H E a HI; [destruct HI|]. cbn [map qsum] in E.
  assert (H1 : (f b <= g b)%Qc) by (apply H; simpl; auto). assert (H2 : (qsum (map f l) <= qsum (map g l))%Qc) by (apply qsum_le; intros; apply H; simpl; auto).
  assert (E1 : f b = g b) by qord. assert (E2 : qsum (map f l) = qsum (map g l)) by qord.
  destruct HI as [<-|HI]; auto. apply IH; auto. intros; apply H; simpl; auto.
Qed.

Section Sequential.
Variables (E : list Z -> Qc) (boltz : Qc -> Qc -> res Qc) (n : nat).

(** ** What can happen when spins are visited, whatever the temperature *)
Inductive chain : list nat -> list Z -> list Z -> Prop :=
| c_nil x : chain [] x x
| c_flip i r x y : chain r (flipped i x) y -> chain (i :: r) x y
| c_stay i r x y : (E x < E (flipped i x))%Qc -> chain r x y -> chain (i :: r) x y.
Lemma chain_app a b x y z : chain a x y -> chain b y z -> chain (a ++ b) x z.
Proof. induction 1; intros HB; cbn [app]; auto; [apply c_flip; auto|apply c_stay; auto]. Qed.
Lemma chain_split a : forall b x z, chain (a ++ b) x z -> exists y, chain a x y /\ chain b y z.
Proof.
  induction a as [|i a IH]; intros b x z H; cbn [app] in H; [exists x; split; auto; constructor|].
  inversion H as [|? ? ? ? HC|? ? ? ? UP HC]; subst; destruct (IH _ _ _ HC) as (y & H1 & H2); exists y; split; auto; [apply c_flip; auto|apply c_stay; auto].
Qed.
Lemma chain_all is : forall x, chain is x (flip_all is x).
Proof. induction is as [|i is IH]; intros x; [constructor|]. apply c_flip. apply IH. Qed.
Lemma chain_spinv is x y : chain is x y -> spinv n x -> spinv n y.
Proof. induction 1; auto. intros HX. apply IHchain. apply spinv_flip. auto. Qed.
Lemma chain_runs t is x y : warm boltz t -> chain is x y -> runs E boltz t is x y.
Proof. intros HW. induction 1; [apply runs_nil|apply runs_flip; auto|apply runs_stay; auto]. Qed.

(** ** Images of sets of states *)
Definition img (i : nat) (V : list Z -> bool) : list Z -> bool := fun z => V (flipped i z) || (V z && Qclt_bool (E z) (E (flipped i z))).
Fixpoint imgs (is : list nat) (V : list Z -> bool) : list Z -> bool := match is with [] => V | i :: r => imgs r (img i V) end.
Lemma imgs_iff is : forall V z, imgs is V z = true <-> exists x, V x = true /\ chain is x z.
Proof.
  induction is as [|i is IH]; intros V z; cbn [imgs].
  - split; [intros H; exists z; split; auto; constructor|intros (x & H & HC); inversion HC; subst; auto].
  - rewrite IH. split.
    + intros (x & H & HC). unfold img in H. apply orb_true_iff in H. destruct H as [H|H].
      * exists (flipped i x). split; auto. apply c_flip. rewrite flipped_twice. auto.
      * apply andb_true_iff in H. destruct H as [H1 H2]. apply Qclt_bool_iff in H2. exists x. split; auto. apply c_stay; auto.
    + intros (x & H & HC). inversion HC as [|? ? ? ? HC'|? ? ? ? UP HC']; subst.
      * exists (flipped i x). split; auto. unfold img. rewrite flipped_twice, H. auto.
      * exists x. split; auto. unfold img. rewrite H, (proj2 (Qclt_bool_iff _ _) UP). apply orb_true_r.
Qed.

(** ** Weights *)
Variable W : list Z -> Qc.
Hypothesis W_pos : forall x, spinv n x -> (0 < W x)%Qc.
Hypothesis W_mono : forall x y, spinv n x -> spinv n y -> (E x < E y)%Qc -> (W y < W x)%Qc.
Hypothesis no_ties : forall x i, spinv n x -> i < n -> E (flipped i x) <> E x.
Definition wt (V : list Z -> bool) : Qc := qsum (map (fun c => if V c then W c else 0%Qc) (cube n)).
Definition pair_wt (V : list Z -> bool) (i : nat) (c : list Z) : Qc := ((if V c then W c else 0) + (if V (flipped i c) then W (flipped i c) else 0))%Qc.
Lemma wt_pairs V i : (wt V + wt V)%Qc = qsum (map (pair_wt V i) (cube n)).
Proof.
  unfold pair_wt. rewrite qsum_map_add. unfold wt. f_equal.
  rewrite <- (qsum_perm _ _ (Permutation_map (fun c => if V c then W c else 0%Qc) (cube_flip n i))). rewrite map_map. reflexivity.
Qed.
Lemma pair_le V i c : i < n -> spinv n c -> (pair_wt V i c <= pair_wt (img i V) i c)%Qc /\
  (pair_wt V i c = pair_wt (img i V) i c -> V c = V (flipped i c)).
Proof.
  intros LI HC. assert (HF := spinv_flip n i c HC). assert (P1 := W_pos _ HC). assert (P2 := W_pos _ HF). unfold pair_wt, img. rewrite !flipped_twice.
  destruct (Qc_dec (E c) (E (flipped i c))) as [[UP|DN]|EQ].
  - assert (M := W_mono _ _ HC HF UP). rewrite (proj2 (Qclt_bool_iff _ _) UP), (proj2 (Qclt_bool_false _ _) (Qclt_le_weak _ _ UP)).
    destruct (V c), (V (flipped i c)); cbn [orb andb]; (split; [qord|]); auto; intros EQ; exfalso; qord.
  - assert (M := W_mono _ _ HF HC DN). rewrite (proj2 (Qclt_bool_iff _ _) DN), (proj2 (Qclt_bool_false _ _) (Qclt_le_weak _ _ DN)).
    destruct (V c), (V (flipped i c)); cbn [orb andb]; (split; [qord|]); auto; intros EQ; exfalso; qord.
  - exfalso. apply (no_ties c i); auto.
Qed.
Lemma img_wt V i : i < n -> (wt V <= wt (img i V))%Qc /\ (wt V = wt (img i V) -> forall c, spinv n c -> V c = V (flipped i c)).
Proof.
  intros LI. assert (HL : forall c, In c (cube n) -> (pair_wt V i c <= pair_wt (img i V) i c)%Qc) by (intros c HC; apply pair_le; auto; apply cube_in; auto).
  split.
  - pose proof (qsum_le _ _ _ HL) as H. rewrite <- !wt_pairs in H. qord.
  - intros EQ c HC. apply pair_le; auto. apply (qsum_eq_each _ _ _ HL); [rewrite <- !wt_pairs, EQ; auto|apply cube_in; auto].
Qed.
Lemma imgs_wt is : forall V, Forall (fun i => i < n) is -> (wt V <= wt (imgs is V))%Qc.
Proof.
  induction is as [|i is IH]; intros V HI; cbn [imgs]; [apply Qcle_refl|]. inversion HI; subst. eapply Qcle_trans; [apply img_wt; eauto|apply IH; auto].
Qed.
(** A set that keeps its weight contains the predecessors of its image. *)
Lemma imgs_closed is : forall V, Forall (fun i => i < n) is -> wt V = wt (imgs is V) ->
  forall x z, chain is x z -> spinv n x -> imgs is V z = true -> V x = true.
Proof.
  induction is as [|i is IH]; intros V HI EQ x z HC HX HZ; cbn [imgs] in *.
  - inversion HC; subst. auto.
  - inversion HI; subst. destruct (img_wt V i) as [L1 K1]; auto. pose proof (imgs_wt is (img i V) H2) as L2.
    assert (E1 : wt V = wt (img i V)) by qord. assert (E2 : wt (img i V) = wt (imgs is (img i V))) by qord.
    assert (HP : forall x1, spinv n x1 -> chain is x1 z -> V x1 = true).
    { intros x1 HX1 HC1. assert (H := IH _ H2 E2 _ _ HC1 HX1 HZ). unfold img in H. specialize (K1 E1 x1 HX1). apply orb_true_iff in H.
      destruct H as [H|H]; [congruence|apply andb_true_iff in H; apply H]. }
    inversion HC; subst.
    + rewrite (K1 E1 x HX). apply HP; auto. apply spinv_flip; auto.
    + apply HP; auto.
Qed.

(** ** Two sweeps *)
Definition twice : list nat := seq 0 n ++ seq 0 n.
Lemma twice_lt : Forall (fun i => i < n) twice.
Proof. apply Forall_forall. intros i HI. apply in_app_or in HI. destruct HI as [HI|HI]; apply in_seq in HI; lia. Qed.
Lemma twice_idle x : length x = n -> chain twice x x.
Proof. intros L. unfold twice. apply chain_app with (flip_all (seq 0 n) x); [apply chain_all|]. rewrite <- (all_twice n x L) at 2. apply chain_all. Qed.
(** One of two neighbours leads to the other one. *)
Lemma twice_step x i : spinv n x -> i < n -> chain twice x (flipped i x) \/ chain twice (flipped i x) x.
Proof.
  intros HX LI. assert (GO : forall y, spinv n y -> (E (flip_all (seq 0 i) y) < E (flipped i (flip_all (seq 0 i) y)))%Qc -> chain twice y (flipped i y)).
  { intros y [LY SY] UP. unfold twice.
    assert (SQ : seq 0 n = seq 0 i ++ i :: seq (S i) (n - S i)) by (replace n with (i + S (n - S i)) at 1 by lia; rewrite seq_app; reflexivity).
    apply chain_app with (flip_all (seq (S i) (n - S i)) (flip_all (seq 0 i) y)).
    - rewrite SQ. eapply chain_app; [apply chain_all|]. apply c_stay; auto. apply chain_all.
    - assert (EQ : flipped i y = flip_all (seq 0 n) (flip_all (seq (S i) (n - S i)) (flip_all (seq 0 i) y))); [|rewrite EQ; apply chain_all].
      apply vec_ext. intros j. rewrite (all_at n) by (rewrite !flip_all_len; auto). rewrite flipped_at, !flip_all_at by apply seq_NoDup.
      assert (EX : forall a k, existsb (Nat.eqb j) (seq a k) = (a <=? j)%nat && (j <? a + k)%nat).
      { intros a k. apply eq_iff_eq_true. rewrite existsb_exists, andb_true_iff, Nat.leb_le, Nat.ltb_lt. split.
        - intros (q & HQ & EQ). apply Nat.eqb_eq in EQ. subst q. apply in_seq in HQ. lia.
        - intros H. exists j. split; [apply in_seq; lia|apply Nat.eqb_refl]. }
      rewrite !EX. destruct (Nat.lt_ge_cases j n) as [LJ|GJ].
      + destruct (Nat.eqb_spec j i) as [->|NE].
        * rewrite (proj2 (Nat.leb_gt (S i) i)) by lia. rewrite (proj2 (Nat.ltb_ge i (0 + i))) by lia. rewrite andb_false_r. reflexivity.
        * destruct (Nat.lt_ge_cases j i).
          -- rewrite (proj2 (Nat.leb_gt (S i) j)) by lia. rewrite (proj2 (Nat.ltb_lt j (0 + i))) by lia. cbn. rewrite opp_opp. auto.
          -- rewrite (proj2 (Nat.leb_le (S i) j)) by lia. rewrite (proj2 (Nat.ltb_lt j (S i + (n - S i)))) by lia. rewrite (proj2 (Nat.ltb_ge j (0 + i))) by lia.
             rewrite andb_false_r. cbn. rewrite opp_opp. auto.
      + rewrite !(proj2 (nth_error_None y j)) by lia. destruct (Nat.eqb j i), (_ && _), (_ && _); auto. }
  assert (CM : flip_all (seq 0 i) (flipped i x) = flipped i (flip_all (seq 0 i) x)).
  { apply vec_ext. intros j. rewrite flipped_at, !flip_all_at by apply seq_NoDup. rewrite flipped_at. destruct (Nat.eqb j i), (existsb _ _); auto. }
  assert (HA : spinv n (flip_all (seq 0 i) x)) by (split; [rewrite flip_all_len; apply HX|apply flip_all_spins; apply HX]).
  destruct (Qc_dec (E (flip_all (seq 0 i) x)) (E (flipped i (flip_all (seq 0 i) x)))) as [[UP|DN]|EQ].
  - left. apply GO; auto.
  - right. rewrite <- (flipped_twice i x) at 2. apply GO; [apply spinv_flip; auto|]. rewrite CM, flipped_twice. auto.
  - exfalso. apply (no_ties _ i HA LI). auto.
Qed.
(** The states reachable in [2k] sweeps. *)
Variable y0 : list Z.
Hypothesis HY0 : spinv n y0.
Fixpoint reached (k : nat) : list Z -> bool :=
  match k with 0 => fun z => if list_eq_dec Z.eq_dec z y0 then true else false | S k' => imgs twice (reached k') end.
Lemma reached_more k z : spinv n z -> reached k z = true -> reached (S k) z = true.
Proof. intros HZ H. cbn [reached]. apply imgs_iff. exists z. split; auto. apply twice_idle. apply HZ. Qed.
Lemma reached_start k : reached k y0 = true.
Proof. induction k as [|k IH]; [cbn; destruct (list_eq_dec Z.eq_dec y0 y0); congruence|]. apply reached_more; auto. Qed.
Definition size (k : nat) : nat := length (filter (reached k) (cube n)).
Lemma filter_more {A} (f g : A -> bool) l : (forall a, In a l -> f a = true -> g a = true) ->
  length (filter f l) <= length (filter g l) /\ (length (filter f l) = length (filter g l) -> forall a, In a l -> f a = g a).
Proof.
  induction l as [|a l IH]; intros H; cbn [filter]; [split; auto; intros _ ? []|]. destruct IH as [L K]; [intros; apply H; simpl; auto|].
  pose proof (H a (or_introl eq_refl)) as HA. destruct (f a) eqn:EF.
  - rewrite (HA eq_refl). cbn [length]. split; [lia|]. intros EQ b [<-|HB]; [rewrite HA; auto|apply K; auto; lia].
  - destruct (g a) eqn:EG; cbn [length].
    + split; [lia|]. intros EQ. lia.
    + split; auto. intros EQ b [<-|HB]; [congruence|apply K; auto].
Qed.
Lemma size_step k : size k <= size (S k) /\ (size k = size (S k) -> forall z, spinv n z -> reached k z = reached (S k) z).
Proof.
  destruct (filter_more (reached k) (reached (S k)) (cube n)) as [L K].
  - intros a HA. apply reached_more. apply cube_in. auto.
  - split; auto. intros EQ z HZ. apply K; auto. apply cube_in. auto.
Qed.
Lemma stationary : exists k, k < 2 ^ n /\ size k = size (S k).
Proof.
  assert (UP : forall m, (exists k, k < m /\ size k = size (S k)) \/ m < size m).
  { induction m as [|m IH].
    - right. unfold size. assert (HI : In y0 (filter (reached 0) (cube n))) by (apply filter_In; split; [apply cube_in; auto|apply reached_start]).
      destruct (filter (reached 0) (cube n)); [destruct HI|simpl; lia].
    - destruct IH as [(k & H1 & H2)|IH]; [left; exists k; split; auto|]. destruct (size_step m) as [L _].
      destruct (Nat.eq_dec (size m) (size (S m))) as [EQ|NE]; [left; exists m; auto|right; lia]. }
  destruct (UP (2 ^ n)) as [H|H]; auto. exfalso. unfold size in H. assert (L : length (filter (reached (2 ^ n)) (cube n)) <= length (cube n)); [|rewrite cube_len in L; lia].
  generalize (cube n). intros l. induction l as [|c l IH]; cbn [filter length]; [lia|]. destruct (reached (2 ^ n) c); cbn [length]; lia.
Qed.
Lemma reached_all : exists k, k < 2 ^ n /\ forall z, spinv n z -> reached k z = true.
Proof.
  destruct stationary as (k & LK & SK). exists k. split; auto. destruct (size_step k) as [_ K]. specialize (K SK).
  assert (EW : wt (reached k) = wt (imgs twice (reached k))).
  { unfold wt. apply qsum_map_ext. intros c HC. apply cube_in in HC. rewrite (K c HC). reflexivity. }
  intros z HZ. apply (joined n (fun z => reached k z = true)) with (m := n) (x := y0); auto; [|intros j LJ; rewrite !(proj2 (nth_error_None _ _)); auto; destruct HY0, HZ; lia|apply reached_start].
  intros x i HX LI H. destruct (twice_step x i HX LI) as [HC|HC].
  - rewrite (K _ (spinv_flip n i x HX)). cbn [reached]. apply imgs_iff. exists x. auto.
  - apply (imgs_closed twice (reached k) twice_lt EW _ _ HC); [apply spinv_flip; auto|]. change (reached (S k) x = true). rewrite <- K; auto.
Qed.
Lemma reached_later k z : spinv n z -> reached k z = true -> forall m, k <= m -> reached m z = true.
Proof. intros HZ H m LM. induction LM; auto. apply reached_more; auto. Qed.
Lemma anneals_app ok ts1 ts2 x y z : anneals E boltz ok ts1 x y -> anneals E boltz ok ts2 y z -> anneals E boltz ok (ts1 ++ ts2) x z.
Proof.
  intros (p1 & v1 & M1 & F1 & L1 & I1 & R1) (p2 & v2 & M2 & F2 & L2 & I2 & R2). exists (p1 ++ p2), (v1 ++ v2).
  split; [rewrite map_app; congruence|]. split; [apply Forall_app; auto|]. split; [rewrite map_app, list_sum_app, app_length; lia|]. split; [apply Forall_app; auto|].
  intros pre post. destruct (R1 pre (v2 ++ post)) as (e1 & a1 & A1). destruct (R2 (pre ++ v1) post) as (e2 & a2 & A2).
  exists (e1 ++ e2), (a1 ++ a2). rewrite app_length in *. rewrite <- !app_assoc in *. rewrite Nat.add_assoc. eapply annealed_app; eauto.
Qed.
Lemma reached_anneals k : forall ts z, Forall (warm boltz) ts -> length ts = 2 * k -> reached k z = true -> anneals E boltz (eq (seq 0 n)) ts y0 z.
Proof.
  induction k as [|k IH]; intros ts z HW LT H.
  - destruct ts; [|simpl in LT; lia]. cbn [reached] in H. destruct (list_eq_dec Z.eq_dec z y0); [subst; apply anneals_nil|discriminate].
  - cbn [reached] in H. apply imgs_iff in H. destruct H as (x & HX & HC). apply chain_split in HC. destruct HC as (u & H1 & H2).
    rewrite <- (firstn_skipn (2 * k) ts) in *. apply Forall_app in HW. destruct HW as [W1 W2].
    assert (LF : length (firstn (2 * k) ts) = 2 * k) by (rewrite app_length, skipn_length, firstn_length in LT; rewrite firstn_length; lia).
    rewrite app_length, LF in LT. apply anneals_app with x; [apply IH; auto|]. destruct (skipn (2 * k) ts) as [|t1 [|t2 [|? ?]]]; try (simpl in LT; lia).
    inversion W2 as [|? ? T1 W3]; subst. inversion W3; subst. apply anneals_cons with (seq 0 n) u; auto; [apply chain_runs; auto|].
    apply anneals_cons with (seq 0 n) z; auto; [apply chain_runs; auto|apply anneals_nil].
Qed.
End Sequential.

(** ** Without ties, sweeps in index order lead everywhere *)
Lemma upper_bound {A} (f : A -> Qc) l : exists c, forall a, In a l -> (f a < c)%Qc.
Proof.
  induction l as [|a l [c H]]; [exists 0%Qc; intros ? []|]. destruct (Qclt_le_dec c (f a)) as [L|G].
  - exists (f a + 1)%Qc. intros b [<-|HB]; [|specialize (H b HB)]; qord.
  - exists (c + 1)%Qc. intros b [<-|HB]; [|specialize (H b HB)]; qord.
Qed.
Theorem sequential_reach : forall E boltz n, (forall x i, spinv n x -> i < n -> E (flipped i x) <> E x) ->
  forall ts x y, Forall (warm boltz) ts -> 2 * 2 ^ n <= length ts -> spinv n x -> spinv n y -> anneals E boltz (eq (seq 0 n)) ts x y.
Proof.
  intros E boltz n NT. destruct (upper_bound E (cube n)) as [C HC]. set (W := fun x => (C - E x)%Qc).
  assert (WP : forall x, spinv n x -> (0 < W x)%Qc) by (intros x HX; apply cube_in in HX; specialize (HC x HX); unfold W; qord).
  assert (WM : forall x y, spinv n x -> spinv n y -> (E x < E y)%Qc -> (W y < W x)%Qc) by (intros x y _ _ H; unfold W; qord).
  assert (EV : forall m ts x y, Forall (warm boltz) ts -> length ts = 2 * m -> 2 ^ n <= S m -> spinv n x -> spinv n y -> anneals E boltz (eq (seq 0 n)) ts x y).
  { intros m ts x y HW LT LM HX HY. destruct (reached_all E n W WP WM NT x HX) as (k & LK & HK).
    apply reached_anneals with m; auto. apply reached_later with k; auto. lia. }
  intros ts x y HW LT HX HY. destruct (Nat.Even_or_Odd (length ts)) as [[m EM]|[m EM]].
  - apply (EV m); auto. lia.
  - destruct ts as [|t ts]; [simpl in EM; lia|]. inversion HW; subst. apply anneals_cons with (seq 0 n) (flip_all (seq 0 n) x); auto.
    { apply chain_runs; auto. apply chain_all. }
    simpl in EM, LT. apply (EV m); auto; try lia. split; [rewrite flip_all_len; apply HX|apply flip_all_spins; apply HX].
Qed.
