(** * PropsNppPipeline: the number-partitioning samples from the text file to the
    answers (C88, C89). *)
From Coq Require Import Lqa Sorted Permutation.
From Verif Require Import PyBase Samples PyLemmas Numbers Constraint LogicalModel Spec ToPhysicalProofs Physical PhysicalProofs Solver SolverSpec SolverProofs
  Services ServicesSpec PropsServices Stream StreamSpec PropsStream PropsPipeline PropsSolvers NppStream NppStreamSpec PropsNppStream PropsNppSolve PropsNppAttenuation.
Open Scope string_scope.
Open Scope list_scope.

(** ** The elements of the stream *)
Definition el_of (x : nat * Z) : num_el := mkEl (qz (Z.of_nat (fst x))) (fst x) (qz (snd x)).
Lemma elements_of_file handed stream : npp_elements handed = Ok stream ->
  stream = map el_of (combine (seq 0 (length handed)) handed).
Proof.
  unfold npp_elements. destruct (assign_indices handed 0) as [n [r|e]] eqn:E; [|discriminate]. cbn [snd rbind].
  intros H. injection H as <-. apply C56_indices in E as (E1 & E2 & _).
  assert (ER : r = combine (seq 0 (length handed)) handed).
  { rewrite <- E1 at 2. rewrite <- E2. clear. induction r as [|[i v] r IH]; auto. cbn [map combine fst snd]. f_equal. exact IH. }
  rewrite <- ER. apply map_ext. intros [i v]. reflexivity.
Qed.
Lemma elements_total handed : exists stream, npp_elements handed = Ok stream.
Proof. unfold npp_elements. destruct (C56_total handed 0) as [r ->]. cbn [snd rbind]. eauto. Qed.

Lemma stream_in_order handed : in_order (map el_of (combine (seq 0 (length handed)) handed)).
Proof.
  assert (EI : forall k (l : list Z), map el_idx (map el_of (combine (seq k (length l)) l)) = seq k (length l)).
  { intros k l. revert k. induction l as [|z l IH]; intros k; auto. cbn [length seq combine map el_of el_idx fst]. now rewrite IH. }
  split; [rewrite EI; apply seq_NoDup|].
  intros a b Ha Hb. apply in_map_iff in Ha as ([i v] & <- & _). apply in_map_iff in Hb as ([j w] & <- & _).
  cbn [el_of el_ts el_idx fst]. split; intros H.
  - apply Nat2Z.inj_lt. now apply qz_lt.
  - apply qz_lt. now apply Nat2Z.inj_lt.
Qed.

Lemma filter_map_comm {A B} (f : B -> bool) (g : A -> B) l : filter f (map g l) = map g (filter (fun x => f (g x)) l).
Proof. induction l as [|x r IH]; cbn; auto. destruct (f (g x)); cbn; congruence. Qed.
Lemma range_file handed lo hi :
  map el_val (range (map el_of (combine (seq 0 (length handed)) handed)) lo hi) = map qz (at_positions handed lo hi).
Proof.
  unfold range, at_positions. rewrite filter_map_comm, !map_map. f_equal.
Qed.
Lemma delivered_file handed size period k0 n :
  delivered (map el_of (combine (seq 0 (length handed)) handed)) size period k0 n = file_windows handed size period k0 n.
Proof.
  unfold delivered, file_windows. apply filter_ext. intros [lo hi]. cbn [fst snd].
  pose proof (range_file handed lo hi) as E. apply (f_equal (@length _)) in E. rewrite !map_length in E. rewrite <- E.
  unfold range. clear E. induction (map el_of _) as [|e l IH]; auto. cbn [existsb filter]. destruct (in_range lo hi e); auto.
Qed.

(** ** The windows *)
Lemma forward_sliding size period : (0 < period)%Qc -> (0 <= size)%Qc ->
  forall ks k, StronglySorted Z.lt (k :: ks) -> forward (fst (sliding size period k)) (snd (sliding size period k)) (map (sliding size period) ks).
Proof.
  intros Hp Hs. induction ks as [|k' ks IH]; intros k Hk; [exact I|]. inversion Hk as [|? ? Hk' Hf]; subst. inversion Hf as [|? ? Hlt _]; subst.
  cbn [map]. specialize (IH k' Hk'). cbn [sliding fst snd forward] in *.
  assert (L : (qz k * period <= qz k' * period)%Qc) by (apply qz_mul_le; auto; lia).
  split; auto. split; auto. qlin.
Qed.
Lemma delivered_sorted {V} (stream : list (element V)) size period k0 n :
  exists ks, delivered stream size period k0 n = map (sliding size period) ks /\ StronglySorted Z.lt ks /\
    forall k, In k ks -> exists e, In e stream /\ in_range (fst (sliding size period k)) (snd (sliding size period k)) e = true.
Proof.
  exists (filter (fun k => nonempty stream (sliding size period k)) (map (fun i => (k0 + Z.of_nat i)%Z) (seq 0 n))).
  split; [|split].
  - unfold delivered. rewrite <- (filter_map_comm (nonempty stream) (sliding size period)), map_map. reflexivity.
  - apply filter_sorted, seq_sorted.
  - intros k Hk. apply filter_In in Hk as [_ Hk]. unfold nonempty in Hk. now apply existsb_exists in Hk.
Qed.
Lemma delivered_shape (stream : list num_el) size period eps k0 n (ws : list (win Qc * surroundings)) :
  (0 < period)%Qc -> (0 <= size)%Qc -> (eps <= 1)%Qc -> (forall e, In e stream -> 0 <= el_ts e)%Qc ->
  Forall2 (fun r wu => Permutation (wn_els (fst wu)) (range stream (fst r) (snd r)) /\ wn_ts (fst wu) = (snd r - eps)%Qc)
          (delivered stream size period k0 n) ws ->
  in_time (- (1))%Qc (map fst ws) /\ (exists lo, forward lo lo (delivered stream size period k0 n)) /\
  Forall2 (fun r wu => wn_els (fst wu) <> [] /\ Permutation (wn_els (fst wu)) (range stream (fst r) (snd r)))
          (delivered stream size period k0 n) ws.
Proof.
  intros Hp Hs He Hpos. destruct (delivered_sorted stream size period k0 n) as (ks & -> & Hks & Hne). intros Hf.
  split; [|split].
  - assert (Hend : forall k, In k ks -> (- (1) <= snd (sliding size period k) - eps)%Qc).
    { intros k Hk. destruct (Hne k Hk) as (e & HIe & Hr). apply in_range_iff in Hr as [_ Hr]. specialize (Hpos e HIe). qlin. }
    clear Hne Hpos. revert ws Hf Hend. generalize (- (1))%Qc. revert Hks. clear - Hp.
    induction ks as [|k ks IH]; intros Hks t ws Hf Ht; inversion Hf as [|? w ? ws' [_ E] Hf']; subst; [exact I|].
    cbn [map in_time]. rewrite E. split; [apply Ht; now left|].
    inversion Hks as [|? ? Hks' Hfa]; subst. rewrite Forall_forall in Hfa. apply IH; auto.
    intros j Hj. specialize (Hfa j Hj). cbn [sliding snd].
    assert (qz k * period <= qz j * period)%Qc by (apply qz_mul_le; auto; lia). qlin.
  - destruct ks as [|k ks]; [exists 0%Qc; exact I|]. exists (fst (sliding size period k)). cbn [map].
    pose proof (forward_sliding size period Hp Hs ks k Hks) as F. cbn [sliding fst snd forward] in *. split; [apply Qcle_refl|]. split; [qlin|exact F].
  - clear Hks. revert ws Hf. induction ks as [|k ks IH]; intros ws Hf; inversion Hf as [|? w ? ws' [E _] Hf']; subst; constructor.
    + split; auto. intros C. rewrite C in E. apply Permutation_nil in E. destruct (Hne k (or_introl eq_refl)) as (e & HIe & Hr).
      assert (X : In e (range stream (fst (sliding size period k)) (snd (sliding size period k)))) by (now apply filter_In).
      rewrite E in X. destruct X.
    + apply IH; auto. intros; apply Hne; now right.
Qed.

(** ** Answers in integers *)
Lemma qsum_qz l : qsum (map qz l) = qz (zsum l).
Proof. induction l as [|z l IH]; [symmetry; exact qz_0|]. cbn [map]. rewrite qsum_first, IH. cbn [zsum fold_right]. fold (zsum l). now rewrite qz_add. Qed.
Lemma qabs_qz z : qabs (qz z) = qz (Z.abs z).
Proof.
  unfold qabs. destruct (Qclt_bool (qz z) 0) eqn:E.
  - apply Qclt_bool_iff in E. rewrite <- qz_0 in E. apply (proj1 (qz_lt _ _)) in E. rewrite <- qz_opp. f_equal. lia.
  - apply Qclt_bool_false in E. rewrite <- qz_0 in E. apply (proj1 (qz_le _ _)) in E. f_equal. lia.
Qed.
Lemma best_split_of els ns ans : Permutation (map el_val els) (map qz ns) -> best_partition els ans -> best_split ns ans.
Proof.
  intros P ((H1 & H2 & H3) & H4). unfold partition_of in *.
  assert (H2' : Permutation (an_plus ans ++ an_minus ans) (map qz ns)) by (eapply perm_trans; eauto).
  apply Permutation_map_inv in H2' as (l & E & PL). symmetry in E. apply map_eq_app in E as (plus & minus & -> & EP & EM).
  exists plus, minus. split; [eapply perm_trans; eauto|]. split; auto. split; auto. split; [now symmetry|].
  assert (ED : an_diff ans = qz (Z.abs (zsum plus - zsum minus))) by (rewrite H3, <- EP, <- EM, !qsum_qz, <- qz_sub; apply qabs_qz).
  split; auto. intros l1 l2 HP. apply qz_le. rewrite <- ED, <- qabs_qz, qz_sub, <- !qsum_qz. apply H4.
  rewrite <- map_app. eapply perm_trans; [apply Permutation_map; exact HP|]. now symmetry.
Qed.
Lemma nonzero_length els ns : Permutation (map el_val els) (map qz ns) ->
  length (filter nonzero els) = length (filter (fun z => negb (Z.eqb z 0)) ns).
Proof.
  intros P.
  assert (E1 : forall l : list num_el, length (filter nonzero l) = length (filter (fun q => if Qc_eq_dec q 0 then false else true) (map el_val l))).
  { induction l as [|e l IH]; auto. cbn [map filter]. unfold nonzero at 1. destruct (Qc_eq_dec (el_val e) 0); cbn [length]; auto. }
  assert (E2 : forall l, length (filter (fun q => if Qc_eq_dec q 0 then false else true) (map qz l)) = length (filter (fun z => negb (Z.eqb z 0)) l)).
  { induction l as [|z l IH]; auto. cbn [map filter]. destruct (Qc_eq_dec (qz z) 0) as [E|E]; destruct (Z.eqb_spec z 0) as [E'|E']; cbn [negb length]; auto.
    - rewrite <- qz_0 in E. apply (proj1 (qz_inj _ _)) in E. contradiction.
    - subst z. rewrite qz_0 in E. congruence. }
  rewrite E1, <- E2. clear E1 E2. induction P as [|x a b P IH|x y a|a b c P1 IH1 P2 IH2]; auto; cbn [filter].
  - destruct (Qc_eq_dec x 0); cbn [length]; auto.
  - destruct (Qc_eq_dec x 0), (Qc_eq_dec y 0); cbn [length]; auto.
  - congruence.
Qed.
Lemma outcome_file u els out neal ns :
  (forall p, su_solver u p = local_solve true neal (Some p)) ->
  NoDup (map el_idx els) -> answers u els out -> Permutation (map el_val els) (map qz ns) -> outcome_of ns out.
Proof.
  intros HS HN HA P. destruct (C79_outcome u els out neal HS HN HA) as (O1 & O2 & O3). rewrite (nonzero_length _ _ P) in *.
  assert (Z1 : In 0%Z ns -> exists e, In e els /\ el_val e = 0%Qc).
  { intros H. apply (in_map qz), (Permutation_in _ (Permutation_sym P)), in_map_iff in H as (e & E & He). exists e. rewrite qz_0 in E. auto. }
  assert (Z2 : ~ In 0%Z ns -> forall e, In e els -> el_val e <> 0%Qc).
  { intros H e He C. apply H. apply (in_map el_val), (Permutation_in _ P), in_map_iff in He as (z & E & Hz). rewrite C, <- qz_0 in E.
    apply (proj1 (qz_inj _ _)) in E. now subst z. }
  split; auto. split; auto. intros HL HZ.
  assert (HF : forall l, ~ In 0%Z l -> filter (fun z => negb (Z.eqb z 0)) l = l).
  { induction l as [|z l IH]; auto. cbn [filter]. intros H. destruct (Z.eqb_spec z 0) as [-> |]; [destruct H; now left|]. cbn [negb]. f_equal. apply IH. intros C. apply H. now right. }
  rewrite (HF ns HZ) in O3. destruct (O3 HL (Z2 HZ)) as (ans & -> & HB). exists ans. split; auto. eapply best_split_of; eauto.
Qed.

(** ** C88: the sliding-window and the delta sample *)
Lemma stream_positive handed e : In e (map el_of (combine (seq 0 (length handed)) handed)) -> (0 <= el_ts e)%Qc.
Proof. intros H. apply in_map_iff in H as ([i v] & <- & _). cbn [el_of el_ts fst]. rewrite <- qz_0. apply qz_le. lia. Qed.
Lemma Forall2_compose {A B C} (P : A -> B -> Prop) (Q : B -> C -> Prop) (R : A -> C -> Prop) la lb lc :
  (forall a b c, In b lb -> P a b -> Q b c -> R a c) -> Forall2 P la lb -> Forall2 Q lb lc -> Forall2 R la lc.
Proof.
  intros H F. revert lc. induction F as [|a b la lb HP F IH]; intros lc G; inversion G; subst; constructor.
  - eapply H; eauto. now left.
  - apply IH; auto. intros; eapply H; eauto. now right.
Qed.

(** [lines] is the file, [handed] its numbers in the order in which Beam hands them
    over; Beam delivers the non-empty windows in order, each with its elements in any
    order and its end (minus Beam's resolution [eps]) as timestamp. *)
Theorem C88_file a o lines read handed stream size period eps k0 n ws neal :
  a = Window \/ a = Delta -> (0 < period)%Qc -> (0 <= size)%Qc -> (eps <= 1)%Qc ->
  read_as_number None lines = Ok read -> Permutation handed read -> npp_elements handed = Ok stream ->
  Forall2 (fun r wu => Permutation (wn_els (fst wu)) (range stream (fst r) (snd r)) /\ wn_ts (fst wu) = (snd r - eps)%Qc)
          (delivered stream size period k0 n) ws ->
  (forall w u, In (w, u) ws -> forall p, su_solver u p = local_solve true neal (Some p)) ->
  (exists ns, numbers lines ns /\ Permutation handed ns) /\
  exists b outs, npp_stream a o ws no_bags = (b, Ok outs) /\
    Forall2 (fun r out => outcome_of (at_positions handed (fst r) (snd r)) out) (file_windows handed size period k0 n) outs.
Proof.
  intros Ha Hp Hs He HR HP HE HF HS. split.
  { destruct (C57_numbers lines) as (ns & E & N). rewrite HR in E. injection E as <-. eauto. }
  apply elements_of_file in HE. subst stream. rewrite delivered_file in HF.
  set (stream := map el_of (combine (seq 0 (length handed)) handed)) in *.
  assert (HO : in_order stream) by apply stream_in_order.
  rewrite <- delivered_file in HF. destruct (delivered_shape stream size period eps k0 n ws Hp Hs He (stream_positive handed) HF) as (Hit & (lo & Hfw) & HF').
  destruct (C62_window a o stream lo _ ws Ha HO Hit Hfw HF') as (b & outs & E & HA & _).
  exists b, outs. split; auto. rewrite <- delivered_file. fold stream.
  eapply Forall2_compose; [|exact HF'|exact HA]. intros [l h] [w u] out HI [_ HPm] HAn. cbn [fst snd] in *.
  apply (outcome_file u (wn_els w) out neal); auto.
  - now apply (HS w u).
  - apply (idx_perm (range stream l h)); [now symmetry|]. apply NoDup_range, HO.
  - rewrite <- range_file. now apply Permutation_map.
Qed.

(** ** C88: the incremental sample *)
Lemma range_join {V} (stream : list (element V)) lo mid mid' hi : (lo <= mid)%Qc -> (mid <= mid')%Qc -> (mid' <= hi)%Qc ->
  (forall e, In e stream -> ~ ((mid <= el_ts e)%Qc /\ (el_ts e < mid')%Qc)) ->
  Permutation (range stream lo mid ++ range stream mid' hi) (range stream lo hi).
Proof.
  intros H1 H2 H3. unfold range. induction stream as [|e l IH]; intros H; [constructor|]. cbn [filter].
  specialize (IH (fun x Hx => H x (or_intror Hx))). specialize (H e (or_introl eq_refl)).
  assert (IFF : forall a b, in_range a b e = true <-> (a <= el_ts e)%Qc /\ (el_ts e < b)%Qc) by (intros; apply in_range_iff).
  pose proof (IFF lo mid) as A. pose proof (IFF mid' hi) as B. pose proof (IFF lo hi) as C.
  destruct (Qclt_le_dec (el_ts e) mid) as [L|L].
  - assert (EB : in_range mid' hi e = false) by (apply not_true_is_false; rewrite B; intros [X _]; qlin). rewrite EB.
    destruct (in_range lo mid e) eqn:EA.
    + assert (EC : in_range lo hi e = true) by (apply C; destruct (proj1 A eq_refl); split; [auto|qlin]).
      rewrite EC. cbn [app]. now constructor.
    + assert (EC : in_range lo hi e = false) by (apply not_true_is_false; rewrite C; intros [X _]; assert (false = true) by (apply A; auto); discriminate).
      rewrite EC. exact IH.
  - assert (EA : in_range lo mid e = false) by (apply not_true_is_false; rewrite A; intros [_ X]; qlin). rewrite EA.
    assert (L' : (mid' <= el_ts e)%Qc) by (destruct (Qclt_le_dec (el_ts e) mid'); auto; exfalso; apply H; auto).
    destruct (in_range mid' hi e) eqn:EB.
    + assert (EC : in_range lo hi e = true) by (apply C; destruct (proj1 B eq_refl); split; [qlin|auto]). rewrite EC.
      symmetry. apply Permutation_cons_app. now symmetry.
    + assert (EC : in_range lo hi e = false) by (apply not_true_is_false; rewrite C; intros [_ X]; assert (false = true) by (apply B; auto); discriminate).
      rewrite EC. exact IH.
Qed.

Lemma range_in_order stream lo hi : in_order stream -> in_order (range stream lo hi).
Proof.
  intros [H1 H2]. split; [now apply NoDup_range|]. intros a b Ha Hb. apply filter_In in Ha as [Ha _]. apply filter_In in Hb as [Hb _]. now apply H2.
Qed.
(** Consecutive fixed windows [ks] that hold every element from [H] on. *)
Lemma fixed_windows (stream : list num_el) size : (0 < size)%Qc ->
  forall ks (ws : list (win Qc * surroundings)) seen H,
  StronglySorted Z.lt ks -> (0 <= H)%Qc ->
  (forall e, In e stream -> (H <= el_ts e)%Qc -> exists k, In k ks /\ in_range (fst (sliding size size k)) (snd (sliding size size k)) e = true) ->
  (forall k, In k ks -> (H <= fst (sliding size size k))%Qc) ->
  Permutation seen (range stream 0 H) ->
  Forall2 (fun r wu => wn_els (fst wu) <> [] /\ Permutation (wn_els (fst wu)) (range stream (fst r) (snd r))) (map (sliding size size) ks) ws ->
  arriving seen (map fst ws) /\ (exists H', Permutation (seen ++ concat (map (fun wu => wn_els (fst wu)) ws)) (range stream 0 H')) /\
  forall outs, answers_all seen ws outs ->
    Forall2 (fun r wo => exists els, Permutation els (range stream 0 (snd r)) /\ answers (snd (fst wo)) els (snd wo))
      (map (sliding size size) ks) (combine ws outs) /\ length ws = length outs.
Proof.
  intros Hs. induction ks as [|k ks IH]; intros ws seen H Hks H0 Hc Hl HP HF; inversion HF as [|? [w u] ? ws' [_ HW] HF']; subst.
  - split; [exact I|]. split; [exists H; cbn; now rewrite app_nil_r|]. intros [|]; [|intros []]. split; constructor.
  - inversion Hks as [|? ? Hks' Hfa]; subst. rewrite Forall_forall in Hfa. cbn [fst] in HW.
    set (lo := fst (sliding size size k)) in *. set (hi := snd (sliding size size k)) in *.
    assert (HH : hi = (lo + size)%Qc) by reflexivity. assert (Hlk : (H <= lo)%Qc) by (apply Hl; now left).
    assert (Hnext : forall j, In j ks -> (hi <= fst (sliding size size j))%Qc).
    { intros j Hj. specialize (Hfa j Hj). unfold hi. cbn [sliding fst snd].
      assert (L : (qz (k + 1) * size <= qz j * size)%Qc) by (apply qz_mul_le; auto; lia). rewrite qz_add, qz_1 in L.
      replace (qz k * size + size)%Qc with ((qz k + 1) * size)%Qc by ring. exact L. }
    assert (HJ : Permutation (seen ++ wn_els w) (range stream 0 hi)).
    { eapply perm_trans; [apply Permutation_app; [exact HP | exact HW]|]. apply range_join; auto; [rewrite HH; qlin|].
      intros e He [A B]. destruct (Hc e He A) as (j & Hj & Hr). apply in_range_iff in Hr as [R _].
      destruct Hj as [<-|Hj]; [fold lo in R; qlin|]. specialize (Hnext j Hj). rewrite HH in Hnext. qlin. }
    destruct (IH ws' (seen ++ wn_els w) hi Hks') as (A1 & A2 & A3); auto; [rewrite HH; qlin| |].
    { intros e He L. destruct (Hc e He) as (j & [<-|Hj] & Hr); [rewrite HH in L; qlin| |eauto]. apply in_range_iff in Hr as [_ R]. fold hi in R. qlin. }
    cbn [map fst arriving concat]. split; [split; auto|split].
    + intros p e Hp HIe. apply (in_range_perm _ _ _ _ p HP) in Hp. apply (in_range_perm _ _ _ _ e HW) in HIe. qlin.
    + rewrite <- app_assoc in A2. exact A2.
    + intros [|out outs]; [intros []|]. cbn [answers_all combine map]. intros [B1 B2]. destruct (A3 outs B2) as [C1 C2].
      split; [|cbn; now f_equal]. constructor; auto. exists (seen ++ wn_els w). auto.
Qed.
Theorem C88_incremental o lines read handed stream size eps n ws neal :
  (0 < size)%Qc -> (eps <= 1)%Qc ->
  read_as_number None lines = Ok read -> Permutation handed read -> npp_elements handed = Ok stream ->
  (forall e, In e stream -> exists k, k < n /\
     in_range (fst (sliding size size (Z.of_nat k))) (snd (sliding size size (Z.of_nat k))) e = true) ->
  Forall2 (fun r wu => Permutation (wn_els (fst wu)) (range stream (fst r) (snd r)) /\ wn_ts (fst wu) = (snd r - eps)%Qc)
          (delivered stream size size 0 n) ws ->
  (forall w u, In (w, u) ws -> forall p, su_solver u p = local_solve true neal (Some p)) ->
  (exists ns, numbers lines ns /\ Permutation handed ns) /\
  exists b outs, npp_stream Incremental o ws no_bags = (b, Ok outs) /\
    Forall2 (fun r out => outcome_of (at_positions handed 0 (snd r)) out) (file_windows handed size size 0 n) outs.
Proof.
  intros Hs He HR HP HE Hcov HF HS. split.
  { destruct (C57_numbers lines) as (ns & E & N). rewrite HR in E. injection E as <-. eauto. }
  apply elements_of_file in HE. subst stream. rewrite <- delivered_file.
  pose proof (range_file handed) as RF.
  set (stream := map el_of (combine (seq 0 (length handed)) handed)) in *.
  assert (HO : in_order stream) by apply stream_in_order.
  destruct (delivered_shape stream size size eps 0 n ws Hs ltac:(qlin) He (stream_positive handed) HF) as (Hit & _ & HF').
  clear HF. destruct (delivered_sorted stream size size 0 n) as (ks & E & Hks & Hne).
  assert (Hck : forall e, In e stream -> exists k, In k ks /\ in_range (fst (sliding size size k)) (snd (sliding size size k)) e = true).
  { intros e HIe. destruct (Hcov e HIe) as (k & Hk & Hr). exists (Z.of_nat k). split; auto.
    assert (HD : In (sliding size size (Z.of_nat k)) (delivered stream size size 0 n)).
    { unfold delivered. apply filter_In. split; [apply in_map_iff; exists k; split; [reflexivity|apply in_seq; lia]|]. apply existsb_exists. eauto. }
    rewrite E in HD. apply in_map_iff in HD as (j & EJ & Hj). apply (f_equal fst) in EJ. cbn [sliding fst] in EJ.
    assert (j = Z.of_nat k); [|now subst j].
    destruct (Z.lt_trichotomy j (Z.of_nat k)) as [L|[L|L]]; auto; exfalso.
    - assert (X : (qz (j + 1) * size <= qz (Z.of_nat k) * size)%Qc) by (apply qz_mul_le; auto; lia). rewrite qz_add, qz_1 in X.
      replace ((qz j + 1) * size)%Qc with (qz j * size + size)%Qc in X by ring. rewrite EJ in X. qlin.
    - assert (X : (qz (Z.of_nat k + 1) * size <= qz j * size)%Qc) by (apply qz_mul_le; auto; lia). rewrite qz_add, qz_1 in X.
      replace ((qz (Z.of_nat k) + 1) * size)%Qc with (qz (Z.of_nat k) * size + size)%Qc in X by ring. rewrite EJ in X. qlin. }
  assert (Hk0 : forall k, In k ks -> (0 <= fst (sliding size size k))%Qc).
  { intros k Hk. assert (HD : In (sliding size size k) (delivered stream size size 0 n)) by (rewrite E; now apply in_map).
    unfold delivered in HD. apply filter_In in HD as [HD _]. apply in_map_iff in HD as (i & <- & _). cbn [sliding fst].
    rewrite <- (Qcmult_0_l size), <- qz_0. apply qz_mul_le; auto. lia. }
  rewrite E in *.
  destruct (fixed_windows stream size Hs ks ws [] 0%Qc Hks (Qcle_refl _)) as (Har & (H' & HC) & HAns); auto.
  { assert (E0 : range stream 0 0 = []); [|rewrite E0; constructor]. unfold range. clear. induction stream as [|e l IH]; auto. cbn [filter].
    destruct (in_range 0 0 e) eqn:E; auto. apply in_range_iff in E as [A B]. exfalso. qlin. }
  cbn [app] in HC.
  destruct (C62_incremental o ws Hit Har) as (b & outs & EO & HA & _).
  { eapply in_order_perm; [symmetry; exact HC|]. now apply range_in_order. }
  { intros wu Hwu. clear - HF' Hwu. induction HF' as [|r x rs ws [H _] HF IH]; [destruct Hwu|]. destruct Hwu as [<-|Hwu]; auto. }
  exists b, outs. split; auto. destruct (HAns outs HA) as [G1 G2].
  assert (EC : outs = map snd (combine ws outs)).
  { clear - G2. revert outs G2. induction ws as [|x ws IH]; intros [|y outs] G; auto; try discriminate. cbn [combine map snd]. f_equal. apply IH. now injection G. }
  rewrite EC. clear EC. assert (HS' : forall x, In x (combine ws outs) -> forall p, su_solver (snd (fst x)) p = local_solve true neal (Some p)).
  { intros [[w u] out] Hx. apply in_combine_l in Hx. apply (HS w u Hx). }
  clear HAns EO HA G2 HS HF' E Hne Hck Hk0 Hks. induction G1 as [|r x rs xs (els & HPe & HAx) G1 IH]; [constructor|]. cbn [map]. constructor; [|apply IH; intros; apply HS'; now right].
  apply (outcome_file (snd (fst x)) els (snd x) neal); auto.
  - intros p. apply HS'. now left.
  - apply (idx_perm (range stream 0 (snd r))); [now symmetry|]. apply NoDup_range, HO.
  - rewrite <- RF. now apply Permutation_map.
Qed.

(** ** How many numbers a window holds *)
Lemma at_length l lo hi : length (at_positions l (qz lo) (qz hi)) = Z.to_nat (Z.min (Z.of_nat (length l)) hi - Z.max 0 lo).
Proof.
  unfold at_positions. rewrite map_length.
  assert (G : forall s, length (filter (fun p => Qcle_bool (qz lo) (qz (Z.of_nat (fst p))) && Qclt_bool (qz (Z.of_nat (fst p))) (qz hi)) (combine (seq s (length l)) l)) =
    Z.to_nat (Z.min (Z.of_nat (s + length l)) hi - Z.max (Z.of_nat s) lo)).
  { induction l as [|z l IH]; intros s; cbn [length seq combine filter]; [lia|]. cbn [fst].
    specialize (IH (S s)).
    destruct (Qcle_bool (qz lo) (qz (Z.of_nat s))) eqn:E1; destruct (Qclt_bool (qz (Z.of_nat s)) (qz hi)) eqn:E2; cbn [andb];
      [apply Qcle_bool_iff, (proj1 (qz_le _ _)) in E1; apply Qclt_bool_iff, (proj1 (qz_lt _ _)) in E2
      |apply Qcle_bool_iff, (proj1 (qz_le _ _)) in E1; apply Qclt_bool_false, (proj1 (qz_le _ _)) in E2
      |apply Qcle_bool_false, (proj1 (qz_lt _ _)) in E1; apply Qclt_bool_iff, (proj1 (qz_lt _ _)) in E2
      |apply Qcle_bool_false, (proj1 (qz_lt _ _)) in E1; apply Qclt_bool_false, (proj1 (qz_le _ _)) in E2];
      cbn [length]; rewrite IH; lia. }
  apply (G 0).
Qed.
Lemma sliding_z s p k : sliding (qz s) (qz p) k = (qz (k * p), qz (k * p + s)).
Proof. unfold sliding. now rewrite qz_add, qz_mul. Qed.
Lemma file_window_in handed s p k0 n r : In r (file_windows handed (qz s) (qz p) k0 n) ->
  exists k, (k0 <= k < k0 + Z.of_nat n)%Z /\ r = (qz (k * p), qz (k * p + s)) /\
    length (at_positions handed (fst r) (snd r)) = Z.to_nat (Z.min (Z.of_nat (length handed)) (k * p + s) - Z.max 0 (k * p)) /\
    (0 < Z.min (Z.of_nat (length handed)) (k * p + s) - Z.max 0 (k * p))%Z.
Proof.
  intros H. apply filter_In in H as [H N]. apply in_map_iff in H as (i & <- & Hi). apply in_seq in Hi.
  exists (k0 + Z.of_nat i)%Z. rewrite sliding_z in *. cbn [fst snd] in *. rewrite at_length in *.
  split; [lia|]. split; auto. split; auto. destruct (Nat.eqb_spec (Z.to_nat (Z.min (Z.of_nat (length handed)) ((k0 + Z.of_nat i) * p + s) - Z.max 0 ((k0 + Z.of_nat i) * p))) 0); [discriminate|]. lia.
Qed.

(** Windows whose size is a multiple of the period: all of them hold two numbers
    unless the file has one number more than a multiple of the period; then the last
    window, and only this one, holds a single number. *)
Theorem C88_window_sizes handed m p k0 n :
  (1 <= m)%Z -> (2 <= p)%Z -> 2 <= length handed ->
  let N := Z.of_nat (length handed) in
  forall r, In r (file_windows handed (qz (m * p)) (qz p) k0 n) ->
    length (at_positions handed (fst r) (snd r)) < 2 <->
    (N mod p = 1)%Z /\ r = (qz (N - 1), qz (N - 1 + m * p)).
Proof.
  intros Hm Hp HN N r Hr. apply file_window_in in Hr as (k & _ & -> & -> & L). fold N in L |- *.
  assert (HN2 : (2 <= N)%Z) by (unfold N; lia). clearbody N.
  assert (HMP : (p <= m * p)%Z) by nia. replace (k * p + m * p)%Z with ((k + m) * p)%Z in * by ring.
  split.
  - intros H. assert (E : (Z.min N ((k + m) * p) - Z.max 0 (k * p) = 1)%Z) by lia.
    assert (Hkm : (0 < (k + m) * p)%Z) by lia. assert (Hk1 : (0 < k + m)%Z) by nia. assert (Hk2 : (p <= (k + m) * p)%Z) by nia.
    assert (Ek : (k * p = N - 1)%Z) by nia.
    split.
    + replace N with (1 + k * p)%Z by lia. rewrite Z_mod_plus_full. apply Z.mod_small. lia.
    + rewrite <- Ek. f_equal. f_equal. ring.
  - intros [H1 H2]. apply (f_equal fst) in H2. cbn [fst] in H2. apply (proj1 (qz_inj _ _)) in H2. rewrite H2. nia.
Qed.
(** The last window of such a file. *)
Lemma last_window handed m p k0 n : (1 <= m)%Z -> (2 <= p)%Z -> 2 <= length handed ->
  let N := Z.of_nat (length handed) in
  (N mod p = 1)%Z -> (k0 <= N / p < k0 + Z.of_nat n)%Z ->
  exists rs, file_windows handed (qz (m * p)) (qz p) k0 n = rs ++ [(qz (N - 1), qz (N - 1 + m * p))] /\
    Forall (fun r => 2 <= length (at_positions handed (fst r) (snd r))) rs.
Proof.
  intros Hm Hp HN N Hmod Hk.
  assert (Ek : (N / p * p = N - 1)%Z) by (pose proof (Z.div_mod N p ltac:(lia)); lia).
  assert (HN2 : (2 <= N)%Z) by (unfold N; lia).
  pose (i0 := Z.to_nat (N / p - k0)).
  assert (ES : seq 0 n = seq 0 i0 ++ i0 :: seq (S i0) (n - i0 - 1)).
  { replace n with (i0 + S (n - i0 - 1)) at 1 by (unfold i0; lia). rewrite seq_app. reflexivity. }
  pose proof (C88_window_sizes handed m p k0 n Hm Hp HN) as WS. cbn zeta in WS. fold N in WS.
  unfold file_windows in *. rewrite ES in *. rewrite map_app, filter_app in *. cbn [map filter] in *.
  replace (k0 + Z.of_nat i0)%Z with (N / p)%Z in * by (unfold i0; lia).
  assert (EW : sliding (qz (m * p)) (qz p) (N / p) = (qz (N - 1), qz (N - 1 + m * p))) by (now rewrite sliding_z, Ek).
  rewrite EW in *. cbn [fst snd] in *.
  assert (E1 : length (at_positions handed (qz (N - 1)) (qz (N - 1 + m * p))) = 1) by (rewrite at_length; fold N; nia).
  rewrite E1 in *. cbn [Nat.eqb negb] in *.
  assert (E2 : filter (fun r => negb (Nat.eqb (length (at_positions handed (fst r) (snd r))) 0))
     (map (fun i => sliding (qz (m * p)) (qz p) (k0 + Z.of_nat i)) (seq (S i0) (n - i0 - 1))) = []).
  { assert (G : forall l, (forall i, In i l -> (N / p < k0 + Z.of_nat i)%Z) ->
      filter (fun r => negb (Nat.eqb (length (at_positions handed (fst r) (snd r))) 0)) (map (fun i => sliding (qz (m * p)) (qz p) (k0 + Z.of_nat i)) l) = []).
    { induction l as [|i l IH]; auto. intros H. cbn [map filter]. rewrite sliding_z. cbn [fst snd]. rewrite at_length. fold N.
      assert (HI : (N / p < k0 + Z.of_nat i)%Z) by (apply H; now left).
      assert (EZ : Z.to_nat (Z.min N ((k0 + Z.of_nat i) * p + m * p) - Z.max 0 ((k0 + Z.of_nat i) * p)) = 0).
      { assert ((N / p + 1) * p <= (k0 + Z.of_nat i) * p)%Z by nia. nia. }
      rewrite EZ. cbn [Nat.eqb negb]. apply IH. intros; apply H; now right. }
    apply G. intros i Hi. apply in_seq in Hi. unfold i0 in Hi. lia. }
  rewrite E2 in *. eexists. split; [reflexivity|]. apply Forall_forall. intros r Hr.
  destruct (le_lt_dec 2 (length (at_positions handed (fst r) (snd r)))) as [|C]; auto. exfalso.
  apply WS in C as [_ ->]; [|apply in_app_iff; now left].
  apply filter_In in Hr as [Hr _]. apply in_map_iff in Hr as (i & E & Hi). apply in_seq in Hi. rewrite sliding_z in E.
  apply (f_equal fst) in E. cbn [fst] in E. apply (proj1 (qz_inj _ _)) in E.
  assert (k0 + Z.of_nat i < N / p)%Z by (unfold i0 in Hi; lia). nia.
Qed.

(** With non-zero numbers every window is answered by a best split, unless the file
    has one number more than a multiple of the period. *)
Theorem C88_all_answered a o lines read handed stream m p eps k0 n ws neal :
  a = Window \/ a = Delta -> (1 <= m)%Z -> (2 <= p)%Z -> (eps <= 1)%Qc ->
  read_as_number None lines = Ok read -> Permutation handed read -> npp_elements handed = Ok stream ->
  Forall2 (fun r wu => Permutation (wn_els (fst wu)) (range stream (fst r) (snd r)) /\ wn_ts (fst wu) = (snd r - eps)%Qc)
          (delivered stream (qz (m * p)) (qz p) k0 n) ws ->
  (forall w u, In (w, u) ws -> forall p, su_solver u p = local_solve true neal (Some p)) ->
  2 <= length handed -> ~ In 0%Z handed -> (Z.of_nat (length handed) mod p <> 1)%Z ->
  exists b outs, npp_stream a o ws no_bags = (b, Ok outs) /\
    Forall2 (fun r out => exists ans, out = [Solved ans] /\ best_split (at_positions handed (fst r) (snd r)) ans)
            (file_windows handed (qz (m * p)) (qz p) k0 n) outs.
Proof.
  intros Ha Hm Hp He HR HP HE HF HS HN HZ HM.
  destruct (C88_file a o lines read handed stream (qz (m * p)) (qz p) eps k0 n ws neal) as (_ & b & outs & E & HO); auto.
  { rewrite <- qz_0. apply qz_lt. lia. } { rewrite <- qz_0. apply qz_le. nia. }
  exists b, outs. split; auto.
  assert (HW : forall r, In r (file_windows handed (qz (m * p)) (qz p) k0 n) -> 2 <= length (at_positions handed (fst r) (snd r))).
  { intros r Hr. destruct (le_lt_dec 2 (length (at_positions handed (fst r) (snd r)))) as [|C]; auto.
    apply (C88_window_sizes handed m p k0 n Hm Hp HN r Hr) in C as [C _]. contradiction. }
  assert (HZ' : forall l h, ~ In 0%Z (at_positions handed l h)).
  { intros l h C. apply HZ. unfold at_positions in C. apply in_map_iff in C as ([i z] & EZ & Hi). cbn [snd] in EZ. subst z.
    apply filter_In in Hi as [Hi _]. now apply in_combine_r in Hi. }
  clear - HO HW HZ'. induction HO as [|r out rs outs (_ & _ & H) HO IH]; constructor; [|apply IH; intros; apply HW; now right].
  apply H; auto. apply HW. now left.
Qed.
(** Otherwise the last window holds one number, and the solver refuses its model. *)
Theorem C88_last_window a o lines read handed stream m p eps k0 n ws neal :
  a = Window \/ a = Delta -> (1 <= m)%Z -> (2 <= p)%Z -> (eps <= 1)%Qc ->
  read_as_number None lines = Ok read -> Permutation handed read -> npp_elements handed = Ok stream ->
  Forall2 (fun r wu => Permutation (wn_els (fst wu)) (range stream (fst r) (snd r)) /\ wn_ts (fst wu) = (snd r - eps)%Qc)
          (delivered stream (qz (m * p)) (qz p) k0 n) ws ->
  (forall w u, In (w, u) ws -> forall p, su_solver u p = local_solve true neal (Some p)) ->
  2 <= length handed -> (Z.of_nat (length handed) mod p = 1)%Z ->
  (k0 <= Z.of_nat (length handed) / p < k0 + Z.of_nat n)%Z ->
  exists b outs, npp_stream a o ws no_bags = (b, Ok (outs ++ [[SolveFailed ValueError]])).
Proof.
  intros Ha Hm Hp He HR HP HE HF HS HN HM HK.
  destruct (C88_file a o lines read handed stream (qz (m * p)) (qz p) eps k0 n ws neal) as (_ & b & outs & E & HO); auto.
  { rewrite <- qz_0. apply qz_lt. lia. } { rewrite <- qz_0. apply qz_le. nia. }
  destruct (last_window handed m p k0 n Hm Hp HN HM HK) as (rs & EW & _). rewrite EW in HO.
  apply Forall2_app_inv_l in HO as (o1 & o2 & _ & H2 & ->). inversion H2 as [|? out ? ? (H & _) H3]; subst. inversion H3; subst.
  exists b, o1. rewrite E, H; auto. cbn [fst snd].
  set (l := at_positions handed _ _). assert (L : length l = 1).
  { unfold l. rewrite at_length. assert (2 <= Z.of_nat (length handed))%Z by lia. nia. }
  destruct l as [|z [|]]; try discriminate. cbn [filter]. destruct (negb (Z.eqb z 0)); cbn [length]; lia.
Qed.

(** ** C89: the attenuation sample *)
Theorem C89_answers_partial ms o lines read handed stream m p eps k0 n ws :
  faded_options o ms -> (1 <= m)%Z -> (2 <= p)%Z -> (eps <= 1)%Qc ->
  read_as_number None lines = Ok read -> Permutation handed read -> npp_elements handed = Ok stream ->
  Forall2 (fun r wu => Permutation (wn_els (fst wu)) (range stream (fst r) (snd r)) /\ wn_ts (fst wu) = (snd r - eps)%Qc)
          (delivered stream (qz (m * p)) (qz p) k0 n) ws ->
  2 <= length handed -> (Z.of_nat (length handed) mod p <> 1)%Z ->
  (exists ns, numbers lines ns /\ Permutation handed ns) /\
  exists b outs, npp_stream Attenuation o ws no_bags = (b, Ok outs) /\
    Forall2 (fun r uo => exists els, Permutation (map el_val els) (map qz (at_positions handed (fst r) (snd r))) /\
                                     answers_faded ms (fst uo) els (snd uo))
            (file_windows handed (qz (m * p)) (qz p) k0 n) (combine (map snd ws) outs) /\ length outs = length ws.
Proof.
  intros Ho Hm Hp He HR HP HE HF HN HM. split.
  { destruct (C57_numbers lines) as (ns & E & N). rewrite HR in E. injection E as <-. eauto. }
  assert (HW : forall r, In r (file_windows handed (qz (m * p)) (qz p) k0 n) -> 2 <= length (at_positions handed (fst r) (snd r))).
  { intros r Hr. destruct (le_lt_dec 2 (length (at_positions handed (fst r) (snd r)))) as [|C]; auto.
    apply (C88_window_sizes handed m p k0 n Hm Hp HN r Hr) in C as [C _]. contradiction. }
  apply elements_of_file in HE. subst stream. pose proof (range_file handed) as RF. rewrite <- delivered_file in *.
  set (stream := map el_of (combine (seq 0 (length handed)) handed)) in *.
  assert (HO : in_order stream) by apply stream_in_order.
  destruct (delivered_shape stream (qz (m * p)) (qz p) eps k0 n ws) as (Hit & (lo & Hfw) & HF'); auto; try apply (stream_positive handed).
  { rewrite <- qz_0. apply qz_lt. lia. } { rewrite <- qz_0. apply qz_le. nia. }
  assert (HF2 : Forall2 (fun r wu => 2 <= length (wn_els (fst wu)) /\ Permutation (wn_els (fst wu)) (range stream (fst r) (snd r)))
            (delivered stream (qz (m * p)) (qz p) k0 n) ws).
  { clear - HF' HW RF. induction HF' as [|r x rs ws [_ H] HF IH]; constructor; [|apply IH; intros; apply HW; now right].
    split; auto. specialize (HW r (or_introl eq_refl)). rewrite (Permutation_length H).
    rewrite <- (map_length qz), <- RF, map_length in HW. exact HW. }
  destruct (C87_window ms o stream lo _ ws Ho HO Hit Hfw HF2) as (b & outs & E & HA).
  exists b, outs. split; auto. clear - HF2 HA RF. revert outs HA. induction HF2 as [|r [w u] rs ws [_ H] HF IH]; intros outs HA; inversion HA as [|? out ? outs' HX HA']; subst.
  - split; constructor.
  - destruct (IH outs' HA') as [G1 G2]. cbn [map snd combine length]. split; [|congruence]. constructor; auto.
    exists (wn_els w). cbn [fst snd] in *. split; auto. rewrite <- RF. now apply Permutation_map.
Qed.
(** A file with one number more than a multiple of the period stops the pipeline: the
    last window raises. *)
Theorem C89_stops ms o lines read handed stream m p eps k0 n ws :
  faded_options o ms -> (1 <= m)%Z -> (2 <= p)%Z -> (eps <= 1)%Qc ->
  read_as_number None lines = Ok read -> Permutation handed read -> npp_elements handed = Ok stream ->
  Forall2 (fun r wu => Permutation (wn_els (fst wu)) (range stream (fst r) (snd r)) /\ wn_ts (fst wu) = (snd r - eps)%Qc)
          (delivered stream (qz (m * p)) (qz p) k0 n) ws ->
  2 <= length handed -> (Z.of_nat (length handed) mod p = 1)%Z ->
  (k0 <= Z.of_nat (length handed) / p < k0 + Z.of_nat n)%Z ->
  exists b e, npp_stream Attenuation o ws no_bags = (b, Err e).
Proof.
  intros Ho Hm Hp He HR HP HE HF HN HM HK.
  destruct (last_window handed m p k0 n Hm Hp HN HM HK) as (rs & EW & HW).
  apply elements_of_file in HE. subst stream. pose proof (range_file handed) as RF. rewrite <- delivered_file in EW.
  set (stream := map el_of (combine (seq 0 (length handed)) handed)) in *.
  assert (HO : in_order stream) by apply stream_in_order.
  destruct (delivered_shape stream (qz (m * p)) (qz p) eps k0 n ws) as (Hit & (lo & Hfw) & HF'); auto; try apply (stream_positive handed).
  { rewrite <- qz_0. apply qz_lt. lia. } { rewrite <- qz_0. apply qz_le. nia. }
  rewrite EW in *. apply Forall2_app_inv_l in HF' as (w1 & w2 & H1 & H2 & ->). inversion H2 as [|? [w u] ? ? [_ HPw] H3]; subst. inversion H3; subst.
  assert (HL : forall r x, Permutation (wn_els (fst x)) (range stream (fst r) (snd r)) ->
     length (wn_els (@fst (win Qc) surroundings x)) = length (at_positions handed (fst r) (snd r))).
  { intros r x P. rewrite (Permutation_length P), <- (map_length qz), <- RF, map_length. reflexivity. }
  eapply (C87_one_number ms o stream lo rs w1 _ w u Ho HO Hit Hfw); auto.
  - clear - H1 HW HL. induction H1 as [|r x rs ws [_ H] HF IH]; constructor; inversion HW; subst; auto. split; auto. now rewrite (HL r x H).
  - pose proof (HL _ (w, u) HPw) as E. cbn [fst snd] in E. rewrite E, at_length. assert (2 <= Z.of_nat (length handed))%Z by lia. nia.
Qed.

(** ** The hypotheses can be met for every file *)
Definition ideal (u : surroundings) (eps : Qc) (stream : list num_el) (rs : list (Qc * Qc)) : list (win Qc * surroundings) :=
  map (fun r => (mkWin (snd r - eps)%Qc (range stream (fst r) (snd r)) true env0 (fun _ => env0), u)) rs.
Lemma ideal_ok u eps stream rs :
  Forall2 (fun r wu => Permutation (wn_els (fst wu)) (range stream (fst r) (snd r)) /\ wn_ts (fst wu) = (snd r - eps)%Qc) rs (ideal u eps stream rs).
Proof. induction rs as [|r rs IH]; cbn [ideal map]; constructor; auto. Qed.

(** Attenuation as in the sample: size 20, period 5, on a file of six numbers; the
    windows from the first (-15 to 5) to the last (5 to 25). *)
Definition six_lines : list string := ["15"; "7"; "not a number"; "3"; "20"; "8"; "11"].
Theorem C89_refuted : exists handed stream,
  read_as_number None six_lines = Ok handed /\ npp_elements handed = Ok stream /\ ~ In 0%Z handed /\
  let rs := delivered stream (qz 20) (qz 5) (-3) 5 in
  rs = file_windows handed (qz 20) (qz 5) (-3) 5 /\ length rs = 5 /\
  exists b e, npp_stream Attenuation sample_options (ideal exact_sur 0%Qc stream rs) no_bags = (b, Err e).
Proof.
  exists [15; 7; 3; 20; 8; 11]%Z. destruct (elements_total [15; 7; 3; 20; 8; 11]%Z) as [stream E]. exists stream.
  split; [vm_compute; reflexivity|]. split; auto. split; [cbn; intuition discriminate|]. intros rs.
  assert (EF : rs = file_windows [15; 7; 3; 20; 8; 11]%Z (qz 20) (qz 5) (-3) 5).
  { unfold rs. rewrite (elements_of_file _ _ E). apply delivered_file. }
  split; auto. split; [rewrite EF; vm_compute; reflexivity|].
  apply (C89_stops (Q2Qc (1 # 10)) sample_options six_lines [15; 7; 3; 20; 8; 11]%Z [15; 7; 3; 20; 8; 11]%Z stream 4 5 0%Qc (-3) 5); auto.
  - split; reflexivity.
  - lia.
  - lia.
  - discriminate.
  - apply (ideal_ok exact_sur 0%Qc stream rs).
  - cbn. lia.
  - cbn. lia.
Qed.

(** A file of four numbers, size 4 and period 2: three windows. *)
Example C88_hyps : exists stream,
  read_as_number None ["5"; "7"; "3"; "8"] = Ok [5; 7; 3; 8]%Z /\ npp_elements [7; 5; 3; 8]%Z = Ok stream /\
  Permutation [7; 5; 3; 8]%Z [5; 7; 3; 8]%Z /\ ~ In 0%Z [7; 5; 3; 8]%Z /\ (4 mod 2 <> 1)%Z /\
  length (delivered stream (qz (2 * 2)) (qz 2) (-1) 3) = 3 /\
  Forall2 (fun r wu => Permutation (wn_els (fst wu)) (range stream (fst r) (snd r)) /\ wn_ts (fst wu) = (snd r - 0)%Qc)
          (delivered stream (qz (2 * 2)) (qz 2) (-1) 3) (ideal exact_sur 0%Qc stream (delivered stream (qz (2 * 2)) (qz 2) (-1) 3)) /\
  map (fun r => at_positions [7; 5; 3; 8]%Z (fst r) (snd r)) (file_windows [7; 5; 3; 8]%Z (qz (2 * 2)) (qz 2) (-1) 3) = [[7; 5]; [7; 5; 3; 8]; [3; 8]]%Z.
Proof.
  destruct (elements_total [7; 5; 3; 8]%Z) as [stream E]. exists stream. split; [vm_compute; reflexivity|]. split; auto. split; [apply perm_swap|].
  split; [cbn; intuition discriminate|]. split; [discriminate|]. split; [|split; [apply ideal_ok|]].
  - rewrite (elements_of_file _ _ E), delivered_file. vm_compute. reflexivity.
  - vm_compute. reflexivity.
Qed.
Example C88_incremental_hyps : exists stream, npp_elements [7; 5; 3]%Z = Ok stream /\
  (forall e, In e stream -> exists k, k < 2 /\ in_range (fst (sliding (qz 2) (qz 2) (Z.of_nat k))) (snd (sliding (qz 2) (qz 2) (Z.of_nat k))) e = true).
Proof.
  destruct (elements_total [7; 5; 3]%Z) as [stream E]. exists stream. split; auto. rewrite (elements_of_file _ _ E). cbn [length seq combine map].
  intros e [<-|[<-|[<-|[]]]]; [exists 0|exists 0|exists 1]; (split; [lia | vm_compute; reflexivity]).
Qed.
Example C89_hyps : faded_options sample_options (Q2Qc (1 # 10)) /\ (Z.of_nat (length [15; 7; 3; 20; 8; 11; 4]%Z) mod 5 <> 1)%Z.
Proof. split; [split; reflexivity | discriminate]. Qed.
Print Assumptions C88_file.
Print Assumptions C88_incremental.
Print Assumptions C88_window_sizes.
Print Assumptions C88_all_answered.
Print Assumptions C88_last_window.
Print Assumptions C89_answers_partial.
Print Assumptions C89_stops.
Print Assumptions C89_refuted.
