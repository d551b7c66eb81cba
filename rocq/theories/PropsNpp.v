(** * PropsNpp: C46 and C47, the dynamic-programming solver for number
    partitioning (model: Npp.v, specification: NppSpec.v). *)
From Coq Require Import Permutation Sorted Lia.
From Verif Require Import PyBase PyLemmas Npp NppSpec.
Open Scope list_scope.

Lemma rfold_seq {S} (P : nat -> S -> Prop) f t a k :
  P a t ->
  (forall i t, a <= i < a + k -> P i t -> exists t', f t i = Ok t' /\ P (1 + i) t') ->
  exists t', rfold f t (seq a k) = Ok t' /\ P (a + k) t'.
Proof.
  revert t a; induction k as [|k IH]; intros t a H0 Hs; cbn [seq rfold].
  - exists t. rewrite Nat.add_0_r. auto.
  - destruct (Hs a t) as (t1 & E & H1); [lia | auto |].
    rewrite E; cbn [rbind].
    destruct (IH t1 (Datatypes.S a)) as (t2 & E2 & H2).
    + exact H1.
    + intros i t' Hi Hp. apply Hs; [lia | auto].
    + exists t2. split; auto. replace (a + Datatypes.S k) with (Datatypes.S a + k) by lia. auto.
Qed.

(** Ascending lists of positions below [j]. *)
Definition below (j : nat) (p : list nat) : Prop := ascending p /\ Forall (fun k => k < j) p.

Lemma sorted_snoc p j : ascending (p ++ [j]) <-> below j p.
Proof.
  unfold below, ascending. induction p as [|k p IH]; cbn [app].
  - split; intros _; [split; constructor | repeat constructor].
  - split.
    + intros H. inversion H as [|? ? Hs Hf]; subst.
      apply IH in Hs. destruct Hs as [Hs Hb]. apply Forall_app in Hf. destruct Hf as [Hf Hj].
      inversion Hj; subst. split; constructor; auto.
    + intros [H Hb]. inversion H as [|? ? Hs Hf]; subst. inversion Hb; subst.
      constructor; [apply IH; auto|]. apply Forall_app; split; auto.
Qed.

Lemma below_S j p :
  below (S j) p <-> below j p \/ exists p', p = p' ++ [j] /\ below j p'.
Proof.
  split.
  - intros [Hs Hb]. destruct p as [|k r] using rev_ind.
    + left. split; auto.
    + clear IHr. apply Forall_app in Hb. destruct Hb as [Hb Hk]. inversion Hk; subst.
      pose proof (proj1 (sorted_snoc _ _) Hs) as Hbr.
      assert (Hc : k = j \/ k < j) by lia. destruct Hc as [->|Hc].
      * right. exists r. auto.
      * left. split; auto. apply Forall_app. split; [|auto].
        destruct Hbr as [_ Hf]. eapply Forall_impl; [|exact Hf]. simpl; intros; lia.
  - intros [[Hs Hb]|(p' & -> & Hb)].
    + split; auto. eapply Forall_impl; [|exact Hb]. simpl; intros; lia.
    + split; [now apply sorted_snoc|]. apply Forall_app. split; [|auto].
      destruct Hb as [_ Hf]. eapply Forall_impl; [|exact Hf]. simpl; intros; lia.
Qed.

(** ** The recurrence the filled table satisfies *)
Section recurrence.
  Context {A : Type} (none : A) (rule : nat -> Z -> nat -> A -> A -> A).
  Variables (numbers : list Z) (s : nat).
  Let n := length numbers.
  Hypothesis nonneg : forall v, In v numbers -> (0 <= v)%Z.

  Definition rec_at (t : table A) (i j : nat) : Prop :=
    match i, j with
    | 0, _ => t i j = (Some true, none)
    | _, 0 => t i j = (Some false, none)
    | _, S j' =>
        let v := nth j' numbers 0%Z in
        t i j = if (v <=? Z.of_nat i)%Z && cell_true (t (Z.to_nat (Z.of_nat i - v)) j')
                then (Some true, rule i v j (snd (t i j')) (snd (t (Z.to_nat (Z.of_nat i - v)) j')))
                else t i j'
    end.

  Lemma put_ok (t : table A) i j c : i <= s -> j <= n ->
    put_cell (Z.of_nat s) n t i j c
    = Ok (fun i' j' => if Nat.eqb i' i && Nat.eqb j' j then c else t i' j').
  Proof.
    intros Hi Hj. unfold put_cell, in_table.
    destruct (Z.leb_spec (Z.of_nat i) (Z.of_nat s)); [|lia].
    destruct (Nat.leb_spec j n); [|lia]. reflexivity.
  Qed.
  Lemma cell_ok (t : table A) i j : i <= s -> j <= n -> cell (Z.of_nat s) n t i j = Ok (t i j).
  Proof.
    intros Hi Hj. unfold cell, in_table.
    destruct (Z.leb_spec (Z.of_nat i) (Z.of_nat s)); [|lia].
    destruct (Nat.leb_spec j n); [|lia]. reflexivity.
  Qed.

  (** [t'] differs from [t] at most in cell (i, j). *)
  Definition only (t t' : table A) i j : Prop :=
    forall a b, a <> i \/ b <> j -> t' a b = t a b.

  (** Only cells already filled are read. *)
  Lemma rec_only t t' i j a b :
    only t t' i j -> (a < i \/ a = i /\ b < j) -> rec_at t a b -> rec_at t' a b.
  Proof.
    intros Ho Hlt. unfold rec_at.
    destruct a as [|a']; [|destruct b as [|b']].
    - intros E. rewrite Ho by lia. exact E.
    - intros E. rewrite Ho by lia. exact E.
    - cbv zeta.
      assert (Hv : (0 <= nth b' numbers 0)%Z).
      { destruct (nth_in_or_default b' numbers 0%Z) as [H|H]; [now apply nonneg | lia]. }
      destruct (Z.leb_spec (nth b' numbers 0%Z) (Z.of_nat (S a'))); cbn [andb]; intros E.
      + rewrite !Ho by lia. exact E.
      + rewrite !Ho by lia. exact E.
  Qed.

  Lemma eqb_other i j a b : a <> i \/ b <> j -> Nat.eqb a i && Nat.eqb b j = false.
  Proof. destruct (Nat.eqb_spec a i); destruct (Nat.eqb_spec b j); simpl; auto; lia. Qed.

  Lemma fill_cell_ok i j t :
    1 <= i <= s -> 1 <= j <= n ->
    exists t', fill_cell rule numbers (Z.of_nat s) n i t j = Ok t' /\
               only t t' i j /\ rec_at t' i j.
  Proof.
    intros Hi Hj. unfold fill_cell.
    destruct j as [|j']; [lia|]. replace (S j' - 1) with j' by lia.
    rewrite cell_ok by lia; cbn [rbind]. rewrite put_ok by lia; cbn [rbind].
    assert (En : nth_error numbers j' = Some (nth j' numbers 0%Z)).
    { apply nth_error_nth'. unfold n in *; lia. }
    rewrite En.
    assert (Hv : (0 <= nth j' numbers 0)%Z).
    { apply nonneg. eapply nth_error_In; eauto. }
    set (v := nth j' numbers 0%Z) in *.
    destruct i as [|i']; [lia|].
    set (t1 := fun a b => if Nat.eqb a (S i') && Nat.eqb b (S j') then t (S i') j' else t a b).
    assert (O1 : only t t1 (S i') (S j')).
    { intros a b H. unfold t1. rewrite eqb_other; auto. }
    assert (S1 : t1 (S i') (S j') = t (S i') j').
    { unfold t1. now rewrite !Nat.eqb_refl. }
    destruct (Z.leb_spec v (Z.of_nat (S i'))) as [Hle|Hgt].
    - rewrite cell_ok by lia; cbn [rbind]. rewrite O1 by lia.
      destruct (cell_true (t (Z.to_nat (Z.of_nat (S i') - v)) j')) eqn:Et.
      + rewrite put_ok by lia.
        set (t2 := fun a b => if Nat.eqb a (S i') && Nat.eqb b (S j') then _ else t1 a b).
        assert (O2 : only t t2 (S i') (S j')).
        { intros a b H. unfold t2. rewrite eqb_other; auto. }
        exists t2. split; [reflexivity|]. split; [exact O2|].
        assert (S2 : t2 (S i') (S j') = (Some true, rule (S i') v (S j') (snd (t (S i') j'))
                                           (snd (t (Z.to_nat (Z.of_nat (S i') - v)) j')))).
        { unfold t2. now rewrite !Nat.eqb_refl. }
        unfold rec_at. fold v. cbv zeta. rewrite S2, !O2 by lia.
        destruct (Z.leb_spec v (Z.of_nat (S i'))); [|lia].
        rewrite Et. reflexivity.
      + exists t1. split; [reflexivity|]. split; [exact O1|].
        unfold rec_at. fold v. cbv zeta. rewrite S1, !O1 by lia.
        rewrite Et, andb_false_r. reflexivity.
    - exists t1. split; [reflexivity|]. split; [exact O1|].
      unfold rec_at. fold v. cbv zeta. rewrite S1, !O1 by lia.
      destruct (Z.leb_spec v (Z.of_nat (S i'))); [lia|]. reflexivity.
  Qed.

  (** The table after the initialisation and the rows before [k]. *)
  Definition row_inv (k : nat) (t : table A) : Prop :=
    (forall i j, i < k -> i <= s -> j <= n -> rec_at t i j) /\
    (forall i, 1 <= i <= s -> t i 0 = (Some false, none)).

  Lemma init_ok :
    exists t t0, init_top none (Z.of_nat s) n (blank none) = Ok t0 /\
                 init_left none (Z.of_nat s) n t0 = Ok t /\ row_inv 1 t.
  Proof.
    destruct (rfold_seq (fun k t => forall j, j < k -> t 0 j = (Some true, none))
                (fun t j => put_cell (Z.of_nat s) n t 0 j (Some true, none)) (blank none) 0 (S n))
      as (t0 & E0 & H0).
    - intros j Hj; lia.
    - intros j t Hj IH. rewrite put_ok by lia. eexists. split; [reflexivity|].
      intros j' Hj'. cbv beta. cbn [Nat.eqb andb].
      destruct (Nat.eqb_spec j' j); auto. apply IH; lia.
    - destruct (rfold_seq (fun k t => (forall i, 1 <= i < k -> t i 0 = (Some false, none)) /\
                                      (forall j, j <= n -> t 0 j = (Some true, none)))
                  (fun t i => put_cell (Z.of_nat s) n t i 0 (Some false, none)) t0 1 s)
        as (t & E & H1 & H2).
      + split; [intros; lia | intros; apply H0; lia].
      + intros i t Hi [IH1 IH2]. rewrite put_ok by lia. eexists. split; [reflexivity|].
        split.
        * intros i' Hi'. cbv beta. destruct (Nat.eqb_spec i' i); cbn [andb Nat.eqb]; auto.
          apply IH1; lia.
        * intros j Hj. cbv beta. destruct i; [lia|]. cbn [Nat.eqb andb]. auto.
      + exists t, t0. split; [exact E0|]. split.
        * unfold init_left. rewrite Nat2Z.id. exact E.
        * split.
          -- intros i j Hi Hs Hj. destruct i; [|lia]. cbn. auto.
          -- intros i Hi. apply H1; lia.
  Qed.

  Lemma fill_ok t : row_inv 1 t ->
    exists t', fill rule numbers (Z.of_nat s) n t = Ok t' /\
               forall i j, i <= s -> j <= n -> rec_at t' i j.
  Proof.
    intros H1. unfold fill. rewrite Nat2Z.id.
    destruct (rfold_seq row_inv (fun t i => rfold (fill_cell rule numbers (Z.of_nat s) n i) t (seq 1 n)) t 1 s)
      as (t' & E & H2); auto.
    - clear t H1. intros i t Hi [IH1 IH2].
      destruct (rfold_seq (fun k t =>
          (forall a b, a <= s -> b <= n -> (a < i \/ a = i /\ b < k) -> rec_at t a b) /\
          (forall a, 1 <= a <= s -> t a 0 = (Some false, none)))
          (fill_cell rule numbers (Z.of_nat s) n i) t 1 n) as (t' & E & H1 & H2).
      + split; [|exact IH2]. intros a b Ha Hb [Hlt|[-> Hlt]].
        * apply IH1; auto.
        * assert (b = 0) by lia. subst b. destruct i; [lia|]. cbn. apply IH2; lia.
      + intros j t1 Hj [IHa IHb].
        destruct (fill_cell_ok i j t1) as (t2 & E2 & Ho & Hr); [lia | lia |].
        exists t2. split; [exact E2|]. split.
        * intros a b Ha Hb Hlt.
          assert (Hc : (a < i \/ a = i /\ b < j) \/ (a = i /\ b = j)) by lia.
          destruct Hc as [Hc|[-> ->]]; auto.
          eapply rec_only; eauto.
        * intros a Ha. rewrite Ho by lia. auto.
      + exists t'. split; [exact E|]. split; [|exact H2].
        intros a b Ha Hs Hb. apply H1; auto. lia.
    - exists t'. split; [exact E|]. intros i j Hi Hj. apply (proj1 H2); auto. lia.
  Qed.

  Lemma table_ok :
    exists t, fill_table none rule numbers (Z.of_nat s) n = Ok t /\
              forall i j, i <= s -> j <= n -> rec_at t i j.
  Proof.
    destruct init_ok as (t & t0 & E0 & E1 & H1).
    destruct (fill_ok t H1) as (t' & E2 & H2).
    exists t'. split; [|exact H2].
    unfold fill_table. rewrite E0; cbn [rbind]. rewrite E1; cbn [rbind]. exact E2.
  Qed.

  (** ** Which cells are flagged *)
  Lemma total_snoc p j : total numbers (p ++ [j]) = (total numbers p + nth j numbers 0)%Z.
  Proof. unfold total. induction p as [|k p IH]; cbn; [lia|]. cbn in IH. rewrite IH. lia. Qed.

  Lemma nth_nonneg k : (0 <= nth k numbers 0)%Z.
  Proof. destruct (nth_in_or_default k numbers 0%Z) as [H|H]; [now apply nonneg | lia]. Qed.
  Lemma total_nonneg p : (0 <= total numbers p)%Z.
  Proof. unfold total. induction p as [|k p IH]; cbn; [lia|]. pose proof (nth_nonneg k). cbn in IH. lia. Qed.

  Variable t : table A.
  Hypothesis rec : forall i j, i <= s -> j <= n -> rec_at t i j.

  Lemma flag_iff j : j <= n -> forall i, i <= s ->
    (cell_true (t i j) = true <-> exists p, below j p /\ total numbers p = Z.of_nat i).
  Proof.
    induction j as [|j IH]; intros Hj i Hi.
    - pose proof (rec i 0 Hi Hj) as E. destruct i; cbn in E; rewrite E; cbn.
      + split; auto. intros _. exists []. split; [split; constructor | reflexivity].
      + split; [discriminate|]. intros (p & [_ Hb] & Ht).
        destruct p; [discriminate|]. inversion Hb; lia.
    - pose proof (rec i (S j) Hi Hj) as E. destruct i as [|i].
      + cbn in E; rewrite E; cbn. split; auto. intros _. exists []. split; [split; constructor | reflexivity].
      + cbn [rec_at] in E. cbv zeta in E. set (v := nth j numbers 0%Z) in *.
        assert (Hv : (0 <= v)%Z) by apply nth_nonneg.
        assert (Hsplit : (exists p, below (S j) p /\ total numbers p = Z.of_nat (S i)) <->
                         (exists p, below j p /\ total numbers p = Z.of_nat (S i)) \/
                         ((v <= Z.of_nat (S i))%Z /\ exists p, below j p /\ total numbers p = (Z.of_nat (S i) - v)%Z)).
        { split.
          - intros (p & Hb & Ht). apply below_S in Hb. destruct Hb as [Hb|(p' & -> & Hb)]; [left; eauto|].
            right. rewrite total_snoc in Ht. fold v in Ht. pose proof (total_nonneg p').
            split; [lia|]. exists p'. split; auto. lia.
          - intros [(p & Hb & Ht)|(Hle & p & Hb & Ht)].
            + exists p. split; auto. apply below_S; auto.
            + exists (p ++ [j]). split; [apply below_S; eauto|]. rewrite total_snoc. fold v. lia. }
        rewrite Hsplit. rewrite E.
        destruct (Z.leb_spec v (Z.of_nat (S i))) as [Hle|Hgt]; cbn [andb].
        * assert (Hsub := IH ltac:(lia) (Z.to_nat (Z.of_nat (S i) - v)) ltac:(lia)).
          rewrite Z2Nat.id in Hsub by lia.
          destruct (cell_true (t (Z.to_nat (Z.of_nat (S i) - v)) j)) eqn:Et.
          -- cbn. split; auto. intros _. right. split; auto. now apply Hsub.
          -- rewrite IH by lia. split; auto. intros [H|[_ H]]; auto.
             apply Hsub in H. discriminate.
        * rewrite IH by lia. split; auto. intros [H|[H _]]; auto; lia.
  Qed.
End recurrence.

(** ** Contents of the cells *)
Section contents.
  Variables (numbers : list Z) (s : nat).
  Let n := length numbers.
  Hypothesis nonneg : forall v, In v numbers -> (0 <= v)%Z.

  Lemma one_sound t :
    (forall i j, i <= s -> j <= n -> rec_at [] rule_one numbers t i j) ->
    forall j, j <= n -> forall i, i <= s -> cell_true (t i j) = true ->
    below j (snd (t i j)) /\ total numbers (snd (t i j)) = Z.of_nat i.
  Proof.
    intros rec. induction j as [|j IH]; intros Hj i Hi Hf.
    - pose proof (rec i 0 Hi Hj) as E. destruct i; cbn in E; rewrite E in *; cbn in *; [|discriminate].
      split; [split; constructor | reflexivity].
    - pose proof (rec i (S j) Hi Hj) as E. destruct i as [|i].
      + cbn in E; rewrite E; cbn. split; [split; constructor | reflexivity].
      + cbn [rec_at] in E. cbv zeta in E. set (v := nth j numbers 0%Z) in *.
        assert (Hv : (0 <= v)%Z) by (apply nth_nonneg; auto).
        assert (Left : cell_true (t (S i) j) = true ->
                       below (S j) (snd (t (S i) j)) /\ total numbers (snd (t (S i) j)) = Z.of_nat (S i)).
        { intros Hl. destruct (IH ltac:(lia) (S i) Hi Hl) as [Hb Ht]. split; auto. apply below_S; auto. }
        rewrite E in *.
        destruct (Z.leb_spec v (Z.of_nat (S i))) as [Hle|Hgt]; cbn [andb] in *; auto.
        destruct (cell_true (t (Z.to_nat (Z.of_nat (S i) - v)) j)) eqn:Et; auto.
        cbn [snd]. unfold rule_one. replace (S j - 1) with j by lia.
        destruct (IH ltac:(lia) (Z.to_nat (Z.of_nat (S i) - v)) ltac:(lia) Et) as [Hb Ht].
        split; [apply below_S; eauto|]. rewrite total_snoc, Ht. fold v. lia.
  Qed.

  Lemma all_sound t :
    (forall i j, i <= s -> j <= n -> rec_at [] rule_all numbers t i j) ->
    forall j, j <= n -> forall i, i <= s -> forall p, In p (snd (t i j)) ->
    below j p /\ total numbers p = Z.of_nat i.
  Proof.
    intros rec. induction j as [|j IH]; intros Hj i Hi p Hp.
    - pose proof (rec i 0 Hi Hj) as E. destruct i; cbn in E; rewrite E in *; cbn in *; contradiction.
    - pose proof (rec i (S j) Hi Hj) as E. destruct i as [|i].
      + cbn in E; rewrite E in Hp; contradiction.
      + cbn [rec_at] in E. cbv zeta in E. set (v := nth j numbers 0%Z) in *.
        assert (Hv : (0 <= v)%Z) by (apply nth_nonneg; auto).
        assert (Left : In p (snd (t (S i) j)) -> below (S j) p /\ total numbers p = Z.of_nat (S i)).
        { intros Hl. destruct (IH ltac:(lia) (S i) Hi p Hl) as [Hb Ht]. split; auto. apply below_S; auto. }
        rewrite E in Hp.
        destruct (Z.leb_spec v (Z.of_nat (S i))) as [Hle|Hgt]; cbn [andb] in Hp; auto.
        destruct (cell_true (t (Z.to_nat (Z.of_nat (S i) - v)) j)) eqn:Et; auto.
        cbn [snd] in Hp. unfold rule_all in Hp. replace (S j - 1) with j in Hp by lia.
        destruct (Z.eqb_spec (Z.of_nat (S i)) v) as [Ev|Ev]; apply in_app_or in Hp.
        * destruct Hp as [Hp|[<-|[]]]; auto. split.
          -- apply (proj2 (below_S j [j])). right. exists []. split; [reflexivity|]. split; constructor.
          -- change [j] with ([] ++ [j]). rewrite total_snoc. fold v. cbn. lia.
        * destruct Hp as [Hp|Hp]; auto. apply in_map_iff in Hp. destruct Hp as (q & <- & Hq).
          destruct (IH ltac:(lia) (Z.to_nat (Z.of_nat (S i) - v)) ltac:(lia) q Hq) as [Hb Ht].
          split; [apply below_S; eauto|]. rewrite total_snoc, Ht. fold v. lia.
  Qed.

  Hypothesis positive : forall v, In v numbers -> (0 < v)%Z.

  Lemma total_zero j p : j <= n -> below j p -> total numbers p = 0%Z -> p = [].
  Proof.
    intros Hj [_ Hb] Ht. destruct p as [|k p]; auto. exfalso.
    inversion Hb as [|? ? Hk Hr]; subst.
    assert (0 < nth k numbers 0)%Z by (apply positive, nth_In; unfold n in *; lia).
    pose proof (total_nonneg numbers nonneg p). unfold total in *. cbn in Ht. lia.
  Qed.

  Lemma all_complete t :
    (forall i j, i <= s -> j <= n -> rec_at [] rule_all numbers t i j) ->
    forall j, j <= n -> forall i, 0 < i <= s -> forall p,
    below j p -> total numbers p = Z.of_nat i -> In p (snd (t i j)).
  Proof.
    intros rec. induction j as [|j IH]; intros Hj i Hi p Hb Ht.
    - destruct Hb as [_ Hb]. destruct p; [cbn in Ht; lia|]. inversion Hb; lia.
    - pose proof (rec i (S j) ltac:(lia) Hj) as E. destruct i as [|i]; [lia|].
      cbn [rec_at] in E. cbv zeta in E. set (v := nth j numbers 0%Z) in *.
      assert (Hv : (0 < v)%Z) by (apply positive, nth_In; unfold n in *; lia).
      rewrite E. apply below_S in Hb. destruct Hb as [Hb|(q & -> & Hb)].
      + assert (Hl : In p (snd (t (S i) j))) by (apply IH; auto; lia).
        destruct (_ && _); auto. cbn [snd]. unfold rule_all.
        destruct (Z.eqb _ _); apply in_or_app; auto.
      + rewrite total_snoc in Ht. fold v in Ht. pose proof (total_nonneg numbers nonneg q).
        destruct (Z.leb_spec v (Z.of_nat (S i))); [|lia]. cbn [andb].
        assert (Et : cell_true (t (Z.to_nat (Z.of_nat (S i) - v)) j) = true).
        { apply (flag_iff [] rule_all numbers s nonneg t rec); try lia.
          exists q. split; auto. lia. }
        rewrite Et. cbn [snd]. unfold rule_all. replace (S j - 1) with j by lia.
        destruct (Z.eqb_spec (Z.of_nat (S i)) v) as [Ev|Ev]; apply in_or_app.
        * right. left. assert (q = []) as -> by (apply (total_zero j); auto; lia). reflexivity.
        * left. apply in_map_iff. exists q. split; auto. apply IH; auto; lia.
  Qed.

  Lemma all_nodup t :
    (forall i j, i <= s -> j <= n -> rec_at [] rule_all numbers t i j) ->
    forall j, j <= n -> forall i, i <= s -> NoDup (snd (t i j)).
  Proof.
    intros rec. induction j as [|j IH]; intros Hj i Hi.
    - pose proof (rec i 0 Hi Hj) as E. destruct i; cbn in E; rewrite E; constructor.
    - pose proof (rec i (S j) Hi Hj) as E. destruct i as [|i].
      + cbn in E; rewrite E; constructor.
      + cbn [rec_at] in E. cbv zeta in E. set (v := nth j numbers 0%Z) in *.
        assert (Hv : (0 < v)%Z) by (apply positive, nth_In; unfold n in *; lia).
        rewrite E. pose proof (IH ltac:(lia) (S i) Hi) as Hl.
        assert (Hold : forall p, In p (snd (t (S i) j)) -> ~ In j p).
        { intros p Hp Hin. destruct (all_sound t rec j ltac:(lia) (S i) Hi p Hp) as [[_ Hb] _].
          rewrite Forall_forall in Hb. apply Hb in Hin. lia. }
        destruct (Z.leb_spec v (Z.of_nat (S i))) as [Hle|Hgt]; cbn [andb]; auto.
        destruct (cell_true _); auto. cbn [snd]. unfold rule_all. replace (S j - 1) with j by lia.
        destruct (Z.eqb _ _); apply NoDup_app_iff.
        * split; auto. split; [repeat constructor; auto|].
          intros p Hp [<-|[]]. apply (Hold [j] Hp). now left.
        * split; [|split; auto].
          -- apply FinFun.Injective_map_NoDup; [|apply IH; lia].
             intros a b Eab. now apply app_inj_tail in Eab.
          -- intros p Hp Hp'. apply in_map_iff in Hp. destruct Hp as (q & <- & _).
             apply (Hold _ Hp'). apply in_or_app. right. now left.
  Qed.
End contents.

(** ** Splits *)
Lemma total_perm numbers p q : Permutation p q -> total numbers p = total numbers q.
Proof.
  unfold total. induction 1; cbn; lia.
Qed.
Lemma total_app numbers p q : total numbers (p ++ q) = (total numbers p + total numbers q)%Z.
Proof. unfold total. induction p as [|k p IH]; cbn; [lia|]. cbn in IH. rewrite IH. lia. Qed.
Lemma total_seq numbers : total numbers (seq 0 (length numbers)) = zsum numbers.
Proof.
  unfold total. induction numbers as [|v r IH]; auto. cbn [length seq map nth].
  rewrite <- seq_shift, map_map. cbn. cbn in IH. rewrite IH. reflexivity.
Qed.
Lemma split_total numbers p q :
  split (length numbers) p q -> (total numbers p + total numbers q = zsum numbers)%Z.
Proof. intros H. rewrite <- total_app, <- total_seq. now apply total_perm. Qed.

Lemma ascending_nodup p : ascending p -> NoDup p.
Proof.
  induction 1 as [|k p Hs IH Hf]; constructor; auto.
  intros Hin. rewrite Forall_forall in Hf. apply Hf in Hin. lia.
Qed.
Lemma seq_ascending a k : ascending (seq a k).
Proof.
  revert a; induction k as [|k IH]; intros a; constructor; [apply IH|].
  apply Forall_forall. intros x Hx. apply in_seq in Hx. lia.
Qed.
Lemma filter_ascending f p : ascending p -> ascending (filter f p).
Proof.
  induction 1 as [|k p Hs IH Hf]; cbn; [constructor|].
  destruct (f k); auto. constructor; auto.
  apply Forall_forall. intros x Hx. apply filter_In in Hx. rewrite Forall_forall in Hf. now apply Hf.
Qed.

Lemma existsb_eqb k p : existsb (Nat.eqb k) p = true <-> In k p.
Proof.
  rewrite existsb_exists. split.
  - intros (x & Hx & E). apply Nat.eqb_eq in E. now subst.
  - intros H. exists k. split; auto. apply Nat.eqb_refl.
Qed.
Lemma other_split n p : below n p -> split n p (find_the_other_partition p n).
Proof.
  intros [Hs Hb]. unfold split. rewrite Forall_forall in Hb.
  apply NoDup_Permutation; [|apply seq_NoDup|].
  - apply NoDup_app_iff. split; [now apply ascending_nodup|]. split; [apply NoDup_filter, seq_NoDup|].
    intros k Hk Hk'. apply filter_In in Hk'. destruct Hk' as [_ Hk'].
    apply existsb_eqb in Hk. rewrite Hk in Hk'. discriminate.
  - intros k. unfold find_the_other_partition. rewrite in_app_iff, filter_In, in_seq.
    split.
    + intros [H|[H _]]; auto. apply Hb in H. lia.
    + intros H. destruct (existsb (Nat.eqb k) p) eqn:E; [left; now apply existsb_eqb | right; auto].
Qed.
Lemma split_below n p q : split n p q -> Forall (fun k => k < n) p /\ NoDup p.
Proof.
  intros H. split.
  - apply Forall_forall. intros k Hk.
    assert (Hi : In k (seq 0 n)) by (eapply Permutation_in; [exact H | apply in_or_app; auto]).
    apply in_seq in Hi. lia.
  - assert (Hn : NoDup (p ++ q)) by (eapply Permutation_NoDup; [symmetry; exact H | apply seq_NoDup]).
    apply NoDup_app_iff in Hn. tauto.
Qed.
(** Any group can be listed in ascending order. *)
Lemma listed n p q : split n p q -> exists p', below n p' /\ Permutation p p'.
Proof.
  intros H. destruct (split_below n p q H) as [Hb Hn].
  exists (filter (fun k => existsb (Nat.eqb k) p) (seq 0 n)). rewrite Forall_forall in Hb. split.
  - split; [apply filter_ascending, seq_ascending|].
    apply Forall_forall. intros k Hk. apply filter_In in Hk. destruct Hk as [Hk _]. apply in_seq in Hk. lia.
  - apply NoDup_Permutation; auto; [apply NoDup_filter, seq_NoDup|].
    intros k. rewrite filter_In, in_seq, existsb_eqb. split; [|tauto].
    intros Hk. split; auto. apply Hb in Hk. lia.
Qed.
Lemma split_sym n p q : split n p q -> split n q p.
Proof. unfold split. intros H. rewrite Permutation_app_comm. exact H. Qed.

(** [i] is the largest sum not above half of everything that a group can have. *)
Definition best (numbers : list Z) (i : Z) : Prop :=
  (2 * i <= zsum numbers)%Z /\
  (exists p, below (length numbers) p /\ total numbers p = i) /\
  (forall p, below (length numbers) p -> (2 * total numbers p <= zsum numbers)%Z -> (total numbers p <= i)%Z).

Lemma best_bound numbers i p q : best numbers i -> split (length numbers) p q ->
  (zsum numbers - 2 * i <= difference numbers p q)%Z.
Proof.
  intros (_ & _ & Hb) Hs.
  assert (Small : forall p q, split (length numbers) p q -> (total numbers p <= total numbers q)%Z ->
                              (total numbers p <= i)%Z).
  { clear p q Hs. intros p q Hs Hle. pose proof (split_total _ _ _ Hs) as Ht.
    destruct (listed _ _ _ Hs) as (p' & Hp & Hperm).
    rewrite (total_perm _ _ _ Hperm) in *. apply Hb; auto. lia. }
  pose proof (split_total _ _ _ Hs) as Ht. unfold difference.
  destruct (Z.le_ge_cases (total numbers p) (total numbers q)) as [H|H].
  - specialize (Small p q Hs H). lia.
  - specialize (Small q p (split_sym _ _ _ Hs) H). lia.
Qed.
Lemma best_optimal numbers i p q : best numbers i -> split (length numbers) p q ->
  (total numbers p <= total numbers q)%Z ->
  (optimal numbers p q <-> total numbers p = i).
Proof.
  intros Hbest Hs Hle. pose proof (split_total _ _ _ Hs) as Ht. split.
  - intros [_ Ho]. destruct Hbest as (Hi & (b & Hb & Hbt) & Hmax).
    pose proof (other_split _ _ Hb) as Hbs. pose proof (split_total _ _ _ Hbs) as Hbt'.
    specialize (Ho _ _ Hbs). unfold difference in Ho.
    assert (total numbers p <= i)%Z.
    { destruct (listed _ _ _ Hs) as (p' & Hp & Hperm).
      rewrite (total_perm _ _ _ Hperm) in *. apply Hmax; auto. lia. }
    lia.
  - intros Hi. split; auto. intros p' q' Hs'.
    pose proof (best_bound _ _ _ _ Hbest Hs'). unfold difference at 1. lia.
Qed.
Lemma best_exact numbers i : best numbers i ->
  ((2 * i = zsum numbers)%Z <-> exists p q, exact numbers p q).
Proof.
  intros Hbest. split.
  - intros E. destruct Hbest as (Hi & (b & Hb & Hbt) & Hmax).
    pose proof (other_split _ _ Hb) as Hbs. pose proof (split_total _ _ _ Hbs).
    exists b, (find_the_other_partition b (length numbers)). split; auto. lia.
  - intros (p & q & Hs & E). pose proof (best_bound _ _ _ _ Hbest Hs) as Hd.
    unfold difference in Hd. destruct Hbest as [Hi _]. lia.
Qed.

(** ** The report *)
Section reporting.
  Context {A : Type} (wrap : A -> list (list nat)) (t : table A) (numbers : list Z) (s : nat).
  Let n := length numbers.
  Definition out (flag : bool) (i : nat) : res (option answer) :=
    Ok (Some (flag, wrap (snd (t i n)), map (fun p => find_the_other_partition p n) (wrap (snd (t i n))))).
  Hypothesis top : cell_true (t 0 n) = true.

  Lemma scan_ok k : k <= s ->
    exists i, i <= k /\ cell_true (t i n) = true /\ (forall i', i < i' <= k -> cell_true (t i' n) = false) /\
              scan wrap (Z.of_nat s) n t (rev (seq 0 (S k))) = out false i.
  Proof.
    unfold out. induction k as [|k IH]; intros Hk.
    - exists 0. split; auto. split; auto. split; [intros; lia|]. cbn [seq rev app scan].
      unfold n in *. rewrite cell_ok by lia. cbn [rbind]. now rewrite top.
    - rewrite seq_S, rev_app_distr. cbn [rev app scan plus].
      unfold n in *. rewrite cell_ok by lia. cbn [rbind].
      destruct (cell_true (t (S k) (length numbers))) eqn:E.
      + exists (S k). split; auto. split; auto. split; auto. intros; lia.
      + destruct IH as (i & Hi & Ht & Hn & Hs); [lia|]. exists i. split; auto. split; auto.
        split; auto. intros i' Hi'.
        assert (Hc : i' = S k \/ i' <= k) by lia. destruct Hc as [->|Hc]; auto. apply Hn; lia.
  Qed.

  Lemma report_ok s2 : exists flag i, i <= s /\ cell_true (t i n) = true /\
    (forall i', i < i' <= s -> cell_true (t i' n) = false) /\
    (flag = true <-> (s2 mod 2 = 0)%Z /\ i = s) /\
    report wrap s2 (Z.of_nat s) n t = out flag i.
  Proof.
    unfold report. replace (Z.to_nat (Z.of_nat s + 1)) with (S s) by lia. rewrite Nat2Z.id.
    destruct (scan_ok s (le_n s)) as (i & Hi & Ht & Hn & Hs).
    destruct (Z.eqb_spec (s2 mod 2) 0) as [Hm|Hm].
    - unfold n in *. rewrite cell_ok by lia. cbn [rbind].
      destruct (cell_true (t s (length numbers))) eqn:E.
      + exists true, s. split; auto. split; auto. split; [intros; lia|]. split; [tauto|]. reflexivity.
      + exists false, i. split; auto. split; auto. split; auto. split; auto.
        split; [discriminate|]. intros [_ ->]. congruence.
    - cbn [rbind]. exists false, i. split; auto. split; auto. split; auto. split; auto.
      split; [discriminate|]. tauto.
  Qed.
End reporting.

Lemma zsum_nonneg numbers : (forall v, In v numbers -> (0 <= v)%Z) -> (0 <= zsum numbers)%Z.
Proof.
  induction numbers as [|v r IH]; intros H; cbn; [lia|].
  assert (0 <= v)%Z by (apply H; now left).
  assert (0 <= zsum r)%Z by (apply IH; intros; apply H; now right). unfold zsum in *. lia.
Qed.

(** What either mode returns: the content of the cell of the best sum. *)
Lemma solve_cell {A} (none : A) rule wrap numbers :
  (forall v, In v numbers -> (0 <= v)%Z) ->
  let s := Z.to_nat (Z.quot (zsum numbers) 2) in
  let n := length numbers in
  exists t flag i, i <= s /\
    (forall i j, i <= s -> j <= n -> rec_at none rule numbers t i j) /\
    cell_true (t i n) = true /\
    best numbers (Z.of_nat i) /\
    (flag = true <-> exists p q, exact numbers p q) /\
    rbind (fill_table none rule numbers (Z.quot (zsum numbers) 2) n)
          (report wrap (zsum numbers) (Z.quot (zsum numbers) 2) n) = out wrap t numbers flag i.
Proof.
  intros Hnn s n. pose proof (zsum_nonneg _ Hnn) as H0.
  assert (Hq : Z.quot (zsum numbers) 2 = (zsum numbers / 2)%Z) by (apply Z.quot_div_nonneg; lia).
  assert (Hs : Z.of_nat s = Z.quot (zsum numbers) 2).
  { unfold s. rewrite Z2Nat.id; auto. rewrite Hq. apply Z.div_pos; lia. }
  rewrite <- Hs.
  destruct (table_ok none rule numbers s Hnn) as (t & E & Hrec).
  assert (Hflag := flag_iff none rule numbers s Hnn t Hrec n (le_n n)).
  assert (Htop : cell_true (t 0 n) = true).
  { apply Hflag; [lia|]. exists []. split; [split; constructor | reflexivity]. }
  destruct (report_ok wrap t numbers s Htop (zsum numbers)) as (flag & i & Hi & Ht & Hn & Hf & Hr).
  pose proof (Z.div_mod (zsum numbers) 2 ltac:(lia)) as Hdm.
  pose proof (Z.mod_pos_bound (zsum numbers) 2 ltac:(lia)) as Hmb.
  assert (Hbest : best numbers (Z.of_nat i)).
  { split; [lia|]. split.
    - apply Hflag; auto.
    - intros p Hp Hle. pose proof (total_nonneg numbers Hnn p).
      destruct (Nat.le_gt_cases (Z.to_nat (total numbers p)) i) as [Hc|Hc]; [lia|].
      assert (Hfalse : cell_true (t (Z.to_nat (total numbers p)) n) = false) by (apply Hn; lia).
      assert (Htrue : cell_true (t (Z.to_nat (total numbers p)) n) = true).
      { apply Hflag; [lia|]. exists p. split; auto. lia. }
      congruence. }
  exists t, flag, i. split; auto. split; auto. split; auto. split; auto. split.
  - rewrite Hf, <- (best_exact _ _ Hbest). lia.
  - unfold n in *. rewrite E. cbn [rbind]. exact Hr.
Qed.

(** ** C46 *)

(** The groups returned by the default mode. *)
Theorem C46_optimal (numbers : list Z) :
  (forall v, In v numbers -> (0 <= v)%Z) ->
  exists flag p q,
    solve_npp_with_dp numbers false = Ok (Some (flag, [p], [q])) /\
    optimal numbers p q /\
    (flag = true <-> exists p' q', exact numbers p' q') /\
    (flag = true -> total numbers p = total numbers q).
Proof.
  intros Hnn.
  destruct (solve_cell [] rule_one (fun p => [p]) numbers Hnn) as (t & flag & i & Hi & Hrec & Ht & Hb & Hf & E).
  destruct (one_sound numbers _ Hnn t Hrec _ (le_n _) i Hi Ht) as [Hp Hsum].
  set (p := snd (t i (length numbers))) in *.
  pose proof (other_split _ _ Hp) as Hs. pose proof (split_total _ _ _ Hs) as Hst.
  exists flag, p, (find_the_other_partition p (length numbers)).
  split; [exact E|]. split; [|split; [exact Hf|]].
  - apply (best_optimal numbers (Z.of_nat i)); auto. destruct Hb as [Hb _]. lia.
  - intros Hfl. apply Hf in Hfl. apply (best_exact _ _ Hb) in Hfl. lia.
Qed.

(** With enumerate_all the flag means the same, and only optimal splits are
    returned, the group with the smaller sum first. *)
Theorem C46_enumerated_optimal (numbers : list Z) :
  (forall v, In v numbers -> (0 <= v)%Z) ->
  exists flag ps qs,
    solve_npp_with_dp numbers true = Ok (Some (flag, ps, qs)) /\
    Forall2 (fun p q => optimal numbers p q /\ (total numbers p <= total numbers q)%Z) ps qs /\
    (flag = true <-> exists p' q', exact numbers p' q').
Proof.
  intros Hnn.
  destruct (solve_cell [] rule_all (fun p => p) numbers Hnn) as (t & flag & i & Hi & Hrec & Ht & Hb & Hf & E).
  eexists flag, _, _. split; [exact E|]. split; [|exact Hf].
  assert (Hsound := all_sound numbers _ Hnn t Hrec _ (le_n _) i Hi).
  induction (snd (t i (length numbers))) as [|p ps IH]; cbn [map]; constructor.
  - destruct (Hsound p (or_introl eq_refl)) as [Hp Hsum].
    pose proof (other_split _ _ Hp) as Hs. pose proof (split_total _ _ _ Hs) as Hst.
    assert (total numbers p <= total numbers (find_the_other_partition p (length numbers)))%Z.
    { destruct Hb as [Hb _]. lia. }
    split; auto. apply (best_optimal numbers (Z.of_nat i)); auto.
  - apply IH. intros p' Hp'. apply Hsound. now right.
Qed.

(** ** C47 *)
Lemma two_positive numbers : (forall v, In v numbers -> (0 < v)%Z) -> 2 <= length numbers ->
  forall i, best numbers i -> (0 < i)%Z.
Proof.
  intros Hpos Hlen i (_ & _ & Hmax).
  destruct numbers as [|a [|b r]]; cbn in Hlen; [lia | lia |].
  assert (0 < a)%Z by (apply Hpos; now left).
  assert (0 < b)%Z by (apply Hpos; right; now left).
  assert (0 <= zsum r)%Z.
  { apply zsum_nonneg. intros v Hv. assert (0 < v)%Z by (apply Hpos; right; now right). lia. }
  assert (Hz : zsum (a :: b :: r) = (a + b + zsum r)%Z) by (unfold zsum; cbn; lia).
  assert (Ba : below (length (a :: b :: r)) [0]).
  { split; [repeat constructor|]. constructor; [cbn; lia | constructor]. }
  assert (Bb : below (length (a :: b :: r)) [1]).
  { split; [repeat constructor|]. constructor; [cbn; lia | constructor]. }
  pose proof (Hmax _ Ba) as Ma. pose proof (Hmax _ Bb) as Mb.
  unfold total in Ma, Mb. cbn [map nth fold_right] in Ma, Mb. rewrite Hz in *.
  destruct (Z.le_gt_cases a b); [apply (Z.lt_le_trans _ (a + 0)); [lia | apply Ma; lia]
                               | apply (Z.lt_le_trans _ (b + 0)); [lia | apply Mb; lia]].
Qed.

Theorem C47_enumerates (numbers : list Z) :
  (forall v, In v numbers -> (0 < v)%Z) -> 2 <= length numbers ->
  exists flag ps qs,
    solve_npp_with_dp numbers true = Ok (Some (flag, ps, qs)) /\
    NoDup ps /\
    (forall p, In p ps <->
       ascending p /\ exists q, optimal numbers p q /\ (total numbers p <= total numbers q)%Z) /\
    Forall2 (split (length numbers)) ps qs.
Proof.
  intros Hpos Hlen.
  assert (Hnn : forall v, In v numbers -> (0 <= v)%Z) by (intros v Hv; apply Hpos in Hv; lia).
  destruct (solve_cell [] rule_all (fun p => p) numbers Hnn) as (t & flag & i & Hi & Hrec & Ht & Hb & Hf & E).
  pose proof (two_positive numbers Hpos Hlen _ Hb) as Hi0.
  assert (Hsound := all_sound numbers _ Hnn t Hrec _ (le_n _) i Hi).
  assert (Hcompl := all_complete numbers _ Hnn Hpos t Hrec _ (le_n _) i ltac:(lia)).
  eexists flag, _, _. split; [exact E|]. split; [|split].
  - exact (all_nodup numbers _ Hnn Hpos t Hrec _ (le_n _) i Hi).
  - intros p. split.
    + intros Hp. destruct (Hsound p Hp) as [Hbp Hsum]. split; [apply Hbp|].
      pose proof (other_split _ _ Hbp) as Hs. pose proof (split_total _ _ _ Hs) as Hst.
      exists (find_the_other_partition p (length numbers)).
      assert (total numbers p <= total numbers (find_the_other_partition p (length numbers)))%Z.
      { destruct Hb as [Hb _]. lia. }
      split; auto. apply (best_optimal numbers (Z.of_nat i)); auto.
    + intros (Ha & q & Ho & Hle). pose proof (proj1 Ho) as Hs.
      apply Hcompl.
      * split; auto. now apply (split_below _ p q).
      * now apply (best_optimal numbers (Z.of_nat i) p q).
  - clear -Hsound.
    induction (snd (t i (length numbers))) as [|p ps IH]; cbn [map]; constructor.
    + apply other_split. apply Hsound. now left.
    + apply IH. intros p' Hp'. apply Hsound. now right.
Qed.

(** ** Outside the guards of C47 *)

(** A zero may be put in either group, but only one of the choices is listed. *)
Theorem C47_zero_refuted :
  exists numbers ps qs p q,
    (forall v, In v numbers -> (0 <= v)%Z) /\
    solve_npp_with_dp numbers true = Ok (Some (true, ps, qs)) /\
    exact numbers p q /\ ascending p /\ ~ In p ps.
Proof.
  exists [0; 1; 1]%Z, [[1]; [2]], [[0; 2]; [0; 1]], [0; 1], [2].
  split; [intros v [<-|[<-|[<-|[]]]]; lia|].
  split; [vm_compute; reflexivity|].
  split; [split; [unfold split; apply Permutation_refl | reflexivity]|].
  split; [repeat constructor|].
  intros [H|[H|[]]]; discriminate.
Qed.

(** A single number has one split, but nothing is listed. *)
Theorem C47_single_refuted :
  exists numbers p q,
    (forall v, In v numbers -> (0 < v)%Z) /\
    solve_npp_with_dp numbers true = Ok (Some (false, [], [])) /\ optimal numbers p q.
Proof.
  exists [3]%Z, [], [0].
  split; [intros v [<-|[]]; lia|].
  split; [vm_compute; reflexivity|].
  destruct (C46_optimal [3%Z]) as (flag & p & q & E & Ho & _).
  { intros v [<-|[]]; lia. }
  vm_compute in E. injection E as _ <- <-. exact Ho.
Qed.

(** A negative number makes the table too small: the call raises. *)
Theorem C46_negative_refuted :
  solve_npp_with_dp [-1; 3]%Z false = Err IndexError /\
  exists p q, split 2 p q.
Proof. split; [vm_compute; reflexivity|]. exists [0], [1]. apply Permutation_refl. Qed.

(** ** The hypotheses are met *)
Example C46_hyps :
  exists flag p q, solve_npp_with_dp [3; 1; 1; 2; 2; 1]%Z false = Ok (Some (flag, [p], [q])) /\
    flag = true /\ total [3; 1; 1; 2; 2; 1]%Z p = 5%Z.
Proof. do 3 eexists. split; [vm_compute; reflexivity|]. split; reflexivity. Qed.
Example C46_inexact_hyps :
  exists p q, solve_npp_with_dp [10; 1; 0]%Z false = Ok (Some (false, [p], [q])) /\
    difference [10; 1; 0]%Z p q = 9%Z.
Proof. do 2 eexists. split; [vm_compute; reflexivity|]. reflexivity. Qed.
Example C47_hyps :
  (forall v, In v [2; 1; 1; 3]%Z -> (0 < v)%Z) /\ 2 <= length [2; 1; 1; 3]%Z /\
  exists qs, solve_npp_with_dp [2; 1; 1; 3]%Z true
    = Ok (Some (false, [[0; 2]; [0; 1]; [3]], qs)).
Proof.
  split; [intros v [<-|[<-|[<-|[<-|[]]]]]; lia|]. split; [cbn; lia|].
  eexists. vm_compute. reflexivity.
Qed.
Print Assumptions C46_optimal.
Print Assumptions C46_enumerated_optimal.
Print Assumptions C47_enumerates.
Print Assumptions C47_zero_refuted.
Print Assumptions C47_single_refuted.
Print Assumptions C46_negative_refuted.
