(** * PropsFiles: C149 from the lines of the input file to the texts of the output. *)
From Verif Require Import PyBase PyLemmas Numbers Constraint LogicalModel Physical Solver Services ServicesSpec PropsServices Stream StreamSpec PropsStream PropsPipeline NppStream NppStreamSpec PropsNppStream PropsNppSolve PropsNppPipeline Text PropsText Layout PropsLayout.
From Coq Require Import Permutation.
Local Open Scope string_scope.
Local Open Scope list_scope.

(** ** Specification *)
(** What is written for a window that holds the numbers [ns]: a partition with the smallest difference if there are two numbers
    and no zero, a message otherwise. *)
Definition writes (ns : list Z) (text : string) : Prop :=
  (2 <= length ns -> ~ In 0%Z ns -> exists received plus minus, says text received plus minus /\ Permutation received ns /\ Permutation (plus ++ minus) ns /\
     forall l1 l2, Permutation (l1 ++ l2) ns -> (Z.abs (total plus - total minus) <= Z.abs (total l1 - total l2))%Z) /\
  (length (filter (fun z => negb (Z.eqb z 0)) ns) < 2 -> begins "Failed to solve: " text) /\
  (2 <= length (filter (fun z => negb (Z.eqb z 0)) ns) -> In 0%Z ns -> begins "Failed to unmap: " text).

Lemma number_nonneg t v : number t v -> (0 <= v)%Z.
Proof. intros N. induction N as [|c d s v D N IH]; [lia|]. assert (0 <= 10 ^ Z.of_nat (String.length s))%Z by (apply Z.pow_nonneg; lia). nia. Qed.
Lemma numbers_nonneg lines ns : numbers lines ns -> Forall (fun z => (0 <= z)%Z) ns.
Proof. intros N. induction N as [|s v r l (t & NT & _) N IH|]; auto. constructor; auto. eapply number_nonneg; eauto. Qed.
Lemma positions_in l lo hi z : In z (at_positions l lo hi) -> In z l.
Proof. unfold at_positions. intros H. apply in_map_iff in H. destruct H as ([i x] & <- & H). apply filter_In in H. destruct H as [H _]. apply in_combine_r in H. exact H. Qed.
Lemma outcome_writes ns out why utc : Forall (fun z => (0 <= z)%Z) ns -> outcome_of ns out -> ns <> [] -> exists t, map (output_text npp_text why utc) out = [t] /\ writes ns t.
Proof.
  intros HP (O1 & O2 & O3) NE. rewrite Forall_forall in HP. unfold writes. destruct (in_dec Z.eq_dec 0%Z ns) as [Z0|Z0].
  - destruct (Nat.lt_ge_cases (length (filter (fun z => negb (Z.eqb z 0)) ns)) 2) as [L|L].
    + rewrite (O1 L). eexists. split; [reflexivity|]. cbn [output_text]. split; [tauto|]. split; [intros _; eexists; reflexivity|lia].
    + rewrite (O2 L Z0). eexists. split; [reflexivity|]. cbn [output_text]. split; [tauto|]. split; [lia|intros _ _; eexists; reflexivity].
  - assert (EF : filter (fun z => negb (Z.eqb z 0)) ns = ns).
    { clear - Z0. induction ns as [|z l IH]; auto. cbn [filter]. destruct (Z.eqb_spec z 0) as [-> |]; [destruct Z0; left; reflexivity|]. cbn [negb]. f_equal. apply IH. intros C. apply Z0. right. exact C. }
    rewrite EF in *. destruct (Nat.lt_ge_cases (length ns) 2) as [L|L].
    + rewrite (O1 L). eexists. split; [reflexivity|]. cbn [output_text]. split; [lia|]. split; [intros _; eexists; reflexivity|lia].
    + destruct (O3 L Z0) as (ans & -> & plus & minus & B1 & B2 & B3 & B4 & B5 & B6). eexists. split; [reflexivity|]. cbn [output_text].
      split; [intros _ _|split; [lia|tauto]].
      assert (QN : forall z, In z ns -> exists n, qz z = qz (Z.of_nat n)) by (intros z Hz; exists (Z.to_nat z); rewrite Z2Nat.id; auto).
      assert (QL : forall l, (forall z, In z l -> In z ns) -> forall q, In q (map qz l) -> exists n, q = qz (Z.of_nat n)) by (intros l Hl q Hq; apply in_map_iff in Hq; destruct Hq as (z & <- & Hz); auto).
      destruct (C146_says ans) as (r & p & m & S1 & S2 & S3 & S4).
      { split.
        - intros q [H|[H|H]].
          + apply (Permutation_in _ B1) in H. apply (QL ns); auto.
          + rewrite B2 in H. apply (QL plus); auto. intros z Hz. apply (Permutation_in _ B4). apply in_or_app. auto.
          + rewrite B3 in H. apply (QL minus); auto. intros z Hz. apply (Permutation_in _ B4). apply in_or_app. auto.
        - rewrite B5, B2, B3, !qsum_qz, <- qz_sub, qabs_qz. reflexivity. }
      assert (INJ : forall l l' : list Z, map qz l = map qz l' -> l = l').
      { induction l as [|x l IH]; intros [|y l'] EE; try discriminate; auto. cbn [map] in EE. f_equal; [apply qz_inj; exact (f_equal (fun z => hd 0%Qc z) EE)|apply IH; exact (f_equal (@tl Qc) EE)]. }
      rewrite B2 in S3. rewrite B3 in S4. apply INJ in S3. apply INJ in S4. subst p m. exists r, plus, minus. split; auto. split; [|split; auto].
      rewrite <- S2 in B1. apply Permutation_map_inv in B1. destruct B1 as (l3 & EL & PL). apply INJ in EL. subst l3. symmetry. exact PL.
Qed.
Lemma positions_writes (f : Qc * Qc -> Qc * Qc) handed rs (outs : list (list (output npp_answer))) why utc : Forall (fun z => (0 <= z)%Z) handed ->
  (forall r, In r rs -> at_positions handed (fst (f r)) (snd (f r)) <> []) ->
  Forall2 (fun r out => outcome_of (at_positions handed (fst (f r)) (snd (f r))) out) rs outs ->
  Forall2 (fun r out => exists t, map (output_text npp_text why utc) out = [t] /\ writes (at_positions handed (fst (f r)) (snd (f r))) t) rs outs.
Proof.
  intros HP HN F. induction F as [|r out rs outs H F IH]; constructor; [|apply IH; intros; apply HN; right; auto].
  apply outcome_writes; auto; [|apply HN; left; reflexivity]. rewrite Forall_forall in *. intros z Hz. apply HP. eapply positions_in; eauto.
Qed.
Lemma handed_nonneg lines handed : (exists ns, numbers lines ns /\ Permutation handed ns) -> Forall (fun z => (0 <= z)%Z) handed.
Proof. intros (ns & N & P). apply numbers_nonneg in N. rewrite Forall_forall in *. intros z Hz. apply N. eapply Permutation_in; eauto. Qed.
Lemma file_window_nonempty handed size period k0 n r : In r (file_windows handed size period k0 n) -> at_positions handed (fst r) (snd r) <> [].
Proof. intros H. apply filter_In in H. destruct H as [_ H]. intros E. rewrite E in H. discriminate. Qed.
(** Sliding windows and deltas: each window of the file gets one text, about the numbers at its positions. *)
Theorem C149_file : forall a o lines read handed stream size period eps k0 n ws neal why utc,
  a = Window \/ a = Delta -> (0 < period)%Qc -> (0 <= size)%Qc -> (eps <= 1)%Qc ->
  read_as_number None lines = Ok read -> Permutation handed read -> npp_elements handed = Ok stream ->
  Forall2 (fun r wu => Permutation (wn_els (fst wu)) (range stream (fst r) (snd r)) /\ wn_ts (fst wu) = (snd r - eps)%Qc)
          (delivered stream size period k0 n) ws ->
  (forall w u, In (w, u) ws -> forall p, su_solver u p = local_solve true neal (Some p)) ->
  (exists ns, numbers lines ns /\ Permutation handed ns) /\
  exists b outs, npp_stream a o ws no_bags = (b, Ok outs) /\
    Forall2 (fun r out => exists t, map (output_text npp_text why utc) out = [t] /\ writes (at_positions handed (fst r) (snd r)) t)
            (file_windows handed size period k0 n) outs.
Proof.
  intros a o lines read handed stream size period eps k0 n ws neal why utc H1 H2 H3 H4 H5 H6 H7 H8 H9.
  destruct (C88_file a o lines read handed stream size period eps k0 n ws neal H1 H2 H3 H4 H5 H6 H7 H8 H9) as (HN & b & outs & E & F).
  split; auto. exists b, outs. split; auto. apply (positions_writes (fun r => r)); auto; [eapply handed_nonneg; eauto|intros r HR; eapply file_window_nonempty; eauto].
Qed.
(** The incremental sample: each window gets one text, about all numbers up to its end. *)
Theorem C149_incremental : forall o lines read handed stream size eps n ws neal why utc,
  (0 < size)%Qc -> (eps <= 1)%Qc ->
  read_as_number None lines = Ok read -> Permutation handed read -> npp_elements handed = Ok stream ->
  (forall e, In e stream -> exists k, k < n /\
     in_range (fst (sliding size size (Z.of_nat k))) (snd (sliding size size (Z.of_nat k))) e = true) ->
  Forall2 (fun r wu => Permutation (wn_els (fst wu)) (range stream (fst r) (snd r)) /\ wn_ts (fst wu) = (snd r - eps)%Qc)
          (delivered stream size size 0 n) ws ->
  (forall w u, In (w, u) ws -> forall p, su_solver u p = local_solve true neal (Some p)) ->
  exists b outs, npp_stream Incremental o ws no_bags = (b, Ok outs) /\
    Forall2 (fun r out => exists t, map (output_text npp_text why utc) out = [t] /\ writes (at_positions handed 0 (snd r)) t)
            (file_windows handed size size 0 n) outs.
Proof.
  intros o lines read handed stream size eps n ws neal why utc H1 H2 H3 H4 H5 H6 H7 H8.
  destruct (C88_incremental o lines read handed stream size eps n ws neal H1 H2 H3 H4 H5 H6 H7 H8) as (HN & b & outs & E & F).
  exists b, outs. split; auto. apply (positions_writes (fun r => (0%Qc, snd r))); auto; [eapply handed_nonneg; eauto|].
  intros r HR. pose proof (file_window_nonempty _ _ _ _ _ _ HR) as NE. cbn [fst snd]. intros EE. apply NE.
  assert (R0 : (0 <= fst r)%Qc).
  { apply filter_In in HR. destruct HR as [HR _]. apply in_map_iff in HR. destruct HR as (i & <- & _). cbn [sliding fst]. rewrite <- (Qcmult_0_l size). change 0%Qc with (qz 0) at 1. apply PropsPipeline.qz_mul_le; auto. lia. }
  unfold at_positions in *. apply map_eq_nil in EE. assert (F0 : filter (fun p : nat * Z => Qcle_bool (fst r) (qz (Z.of_nat (fst p))) && Qclt_bool (qz (Z.of_nat (fst p))) (snd r)) (combine (seq 0 (length handed)) handed) = []); [|rewrite F0; reflexivity].
  revert EE. generalize (combine (seq 0 (length handed)) handed). induction l as [|p l IH]; intros EE; [reflexivity|]. cbn [filter] in *.
  destruct (Qcle_bool 0 (qz (Z.of_nat (fst p))) && Qclt_bool (qz (Z.of_nat (fst p))) (snd r)) eqn:EP; [discriminate|].
  assert (EQ : Qcle_bool 0 (qz (Z.of_nat (fst p))) = true) by (apply SolverProofs.Qcle_bool_iff; change 0%Qc with (qz 0); apply qz_le; lia). rewrite EQ in EP. cbn [andb] in EP. rewrite EP, andb_false_r. auto.
Qed.
(** The file of C88_hyps (three windows), and one with a zero and a lone number. *)
Example C149_hyps : (exists stream,
  read_as_number None ["5"; "7"; "3"; "8"] = Ok [5; 7; 3; 8]%Z /\ npp_elements [7; 5; 3; 8]%Z = Ok stream /\ Permutation [7; 5; 3; 8]%Z [5; 7; 3; 8]%Z /\
  Forall2 (fun r wu => Permutation (wn_els (fst wu)) (range stream (fst r) (snd r)) /\ wn_ts (fst wu) = (snd r - 0)%Qc)
          (delivered stream (qz (2 * 2)) (qz 2) (-1) 3) (ideal exact_sur 0%Qc stream (delivered stream (qz (2 * 2)) (qz 2) (-1) 3)) /\
  map (fun r => at_positions [7; 5; 3; 8]%Z (fst r) (snd r)) (file_windows [7; 5; 3; 8]%Z (qz (2 * 2)) (qz 2) (-1) 3) = [[7; 5]; [7; 5; 3; 8]; [3; 8]]%Z) /\
  (exists t, writes [7; 5]%Z t) /\ ~ writes [7; 5]%Z "Failed to solve: no" /\ writes [7]%Z "Failed to solve: ValueError" /\ writes [7; 0; 5]%Z "Failed to unmap: KeyError".
Proof.
  split; [destruct C88_hyps as (s & A1 & A2 & A3 & _ & _ & _ & A4 & A5); exists s; auto|]. split; [|split; [|split]].
  - destruct (outcome_writes [7; 5]%Z [Solved (mkAns [qz 7; qz 5] [qz 7] [qz 5] (qz 2))] (fun _ => "") (fun _ => "")) as (t & _ & W); [repeat constructor; lia| |discriminate|eauto].
    split; [cbn; lia|]. split; [cbn; intros _ C; lia|]. intros _ _. eexists. split; [reflexivity|]. exists [7]%Z, [5]%Z. cbn [an_input an_plus an_minus an_diff map app]. repeat split; auto.
    intros l1 l2 P. change (zsum [7%Z]) with 7%Z. change (zsum [5%Z]) with 5%Z.
    assert (Permutation (l1 ++ l2) [7; 5]%Z) as P' by exact P. pose proof (Permutation_length P') as L. rewrite app_length in L. cbn in L.
    destruct l1 as [|a [|b [|]]]; destruct l2 as [|c [|d [|]]]; cbn in L; try lia; cbn [app] in P';
      (apply Permutation_sym in P'; apply Permutation_length_2_inv in P'; destruct P' as [P'|P']; injection P' as -> ->; cbn; lia).
  - intros (W & _). destruct W as (r & p & m & (l2 & l3 & l5 & l6 & l7 & S & _) & _); [cbn; lia|cbn; lia|]. vm_compute in S. discriminate.
  - split; [cbn; lia|]. split; [intros _; eexists; reflexivity|cbn; lia].
  - split; [cbn; tauto|]. split; [cbn; lia|intros _ _; eexists; reflexivity].
Qed.
Print Assumptions C149_file.
Print Assumptions C149_incremental.
