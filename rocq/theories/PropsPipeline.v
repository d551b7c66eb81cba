(** * PropsPipeline: sliding windows, failures, input and output of the pipeline
    (C50, C52, C53, C55, C56, C58, C68, C70-C73). *)
From Coq Require Import Sorted Permutation Lqa.
From Verif Require Import PyBase PyLemmas Numbers Constraint LogicalModel ToPhysicalProofs Solver SolverProofs.
From Verif Require Import Stream StreamSpec PropsStream.
Open Scope string_scope.
Open Scope list_scope.

(** Linear order goals with sums. *)
Lemma this_plus x y : (this (x + y)%Qc == this x + this y)%Q.
Proof. apply Qred_correct. Qed.
Lemma this_opp x : (this (- x)%Qc == - this x)%Q.
Proof. apply Qred_correct. Qed.
Ltac qlin := unfold Qcminus, Qcle, Qclt in *; rewrite ?this_plus, ?this_opp in *;
  change (this 0%Qc) with 0%Q in *; change (this 1%Qc) with 1%Q in *; lra.

(** ** C50: Beam's sliding and fixed windows *)
Section sliding.
  Context {V SS R : Type} (a : algorithm) (o : aoptions V) (cb : callbacks V SS R) (t0 : mtype).
  Context (stream : list (element V)) (size period : Qc).
  Hypothesis Hp : (0 < period)%Qc.
  Hypothesis Hs : (period <= size)%Qc.

  Notation win_of := (sliding size period).
  Lemma qz_lt_mul j k : (qz j * period < qz k * period)%Qc -> (j < k)%Z.
  Proof.
    intros H. destruct (Z_lt_le_dec j k) as [|C]; auto. exfalso.
    assert (C' : (qz k <= qz j)%Qc) by (now apply qz_le).
    apply (Qcmult_le_compat_r _ _ period) in C'; qlin.
  Qed.
  Lemma qz_mul_le j k : (j <= k)%Z -> (qz j * period <= qz k * period)%Qc.
  Proof. intros H. apply Qcmult_le_compat_r; [now apply qz_le | qlin]. Qed.

  Definition nonempty (r : Qc * Qc) : bool := existsb (in_range (fst r) (snd r)) stream.
  (** All elements of [stream] are in the windows numbered [ks]. *)
  Definition covered (ks : list Z) : Prop :=
    forall e, In e stream -> exists k, In k ks /\ in_range (fst (win_of k)) (snd (win_of k)) e = true.

  Lemma covered_nonempty ks e : In e stream ->
    (exists k, In k ks /\ in_range (fst (win_of k)) (snd (win_of k)) e = true) ->
    exists k, In k (filter (fun k => nonempty (win_of k)) ks) /\
              in_range (fst (win_of k)) (snd (win_of k)) e = true.
  Proof.
    intros He (k & Hk & Hr). exists k. split; auto. apply filter_In. split; auto.
    unfold nonempty. apply existsb_exists. eauto.
  Qed.

  Lemma moving_sliding ks : forall k,
    StronglySorted Z.lt (k :: ks) ->
    (forall e, In e stream -> (fst (win_of k) <= el_ts e)%Qc -> exists j, In j (k :: ks) /\ in_range (fst (win_of j)) (snd (win_of j)) e = true) ->
    moving stream (fst (win_of k)) (snd (win_of k)) (map win_of ks).
  Proof.
    induction ks as [|k' ks IH]; intros k Hk Hc; [exact I|].
    inversion Hk as [|? ? Hk' Hf]; subst. inversion Hf as [|? ? Hlt _]; subst.
    inversion Hk' as [|? ? _ Hf']; subst. rewrite Forall_forall in Hf'.
    cbn [map moving]. unfold sliding at 3. cbn [fst snd].
    assert (L : (qz k * period <= qz k' * period)%Qc) by (apply qz_mul_le; lia).
    split; [exact L|]. split; [cbn [sliding snd]; qlin|]. split; [qlin|]. split.
    - intros e He [H1 H2]. cbn [sliding fst snd] in *.
      destruct (Hc e He) as (j & Hj & Hr); [qlin|]. apply in_range_iff in Hr as [R1 R2].
      cbn [sliding fst snd] in *.
      assert (J1 : (k < j)%Z) by (apply qz_lt_mul; qlin).
      assert (J2 : (j < k')%Z) by (apply qz_lt_mul; qlin).
      destruct Hj as [->|[->|Hj]]; try lia. apply Hf' in Hj. lia.
    - apply (IH k'); auto. intros e He H1. cbn [sliding fst] in *. destruct (Hc e He) as (j & [<-|Hj] & Hr); [qlin | |eauto].
      exists k'. split; [now left|]. apply in_range_iff in Hr as [R1 R2]. apply in_range_iff.
      cbn [sliding fst snd] in *. split; [auto | qlin].
  Qed.

  Lemma end_of_last k ks : StronglySorted Z.lt (k :: ks) ->
    forall j, In j (k :: ks) -> (snd (win_of j) <= end_of (snd (win_of k)) (map win_of ks))%Qc.
  Proof.
    revert k. induction ks as [|k' ks IH]; intros k Hk j Hj.
    - destruct Hj as [<-|[]]. apply Qcle_refl.
    - cbn [map]. replace (win_of k') with (fst (win_of k'), snd (win_of k')) by now destruct (win_of k').
      rewrite end_of_cons. inversion Hk as [|? ? Hk' Hf]; subst. inversion Hf as [|? ? Hlt _]; subst.
      destruct Hj as [<-|Hj]; [|now apply IH].
      pose proof (IH k' Hk' k' (or_introl eq_refl)). cbn [sliding snd] in *.
      assert (qz k * period <= qz k' * period)%Qc by (apply qz_mul_le; lia). qlin.
  Qed.

  Lemma seq_sorted k0 m n : StronglySorted Z.lt (map (fun i => (k0 + Z.of_nat i)%Z) (seq m n)).
  Proof.
    revert m. induction n as [|n IH]; intros m; cbn [seq map]; constructor; auto.
    apply Forall_forall. intros z Hz. apply in_map_iff in Hz as (i & <- & Hi). apply in_seq in Hi. lia.
  Qed.
  Lemma filter_sorted (f : Z -> bool) l : StronglySorted Z.lt l -> StronglySorted Z.lt (filter f l).
  Proof.
    induction 1 as [|x r H IH Hf]; cbn; [constructor|]. destruct (f x); auto. constructor; auto.
    rewrite Forall_forall in *. intros y Hy. apply filter_In in Hy as [Hy _]. auto.
  Qed.
  Lemma map_filter {A B} (f : B -> bool) (g : A -> B) l :
    filter f (map g l) = map g (filter (fun x => f (g x)) l).
  Proof. induction l as [|x r IH]; cbn; auto. destruct (f (g x)); cbn; congruence. Qed.

  (** The windows numbered k0 .. k0+n-1 hold all elements; those that are not
      empty are delivered in order, each with its elements in any order and with
      its end (minus a constant, Beam's resolution) as timestamp. Then every
      element of the stream is incoming exactly once, in chronological order,
      and the outgoing elements followed by the last window are the same list. *)
  Theorem C50_sliding k0 n eps ws :
    windowed a -> a <> Attenuation -> NoDup (map el_idx stream) ->
    (forall e, In e stream -> 0 <= el_ts e)%Qc -> (0 <= eps)%Qc -> (eps <= 1)%Qc ->
    (forall e, In e stream -> exists i, i < n /\
       in_range (fst (win_of (k0 + Z.of_nat i))) (snd (win_of (k0 + Z.of_nat i))) e = true) ->
    Forall2 (fun r w => Permutation (wn_els w) (range stream (fst r) (snd r)) /\ wn_ts w = (snd r - eps)%Qc)
            (delivered stream size period k0 n) ws ->
    exists log,
      presented a o cb t0 no_bags ws log /\
      chronological (concat (incoming_of log)) /\
      Permutation (concat (incoming_of log)) stream /\
      concat (incoming_of log) = concat (outgoing_of log) ++ last (elements_of log) [].
  Proof.
    intros Ha Hat Hn Hpos He0 He1 Hcov Hf.
    pose (ks := filter (fun k => nonempty (win_of k)) (map (fun i => (k0 + Z.of_nat i)%Z) (seq 0 n))).
    assert (Ed : delivered stream size period k0 n = map win_of ks).
    { unfold delivered, ks. rewrite <- (map_filter (nonempty) win_of), map_map. reflexivity. }
    rewrite Ed in Hf.
    assert (Hks : StronglySorted Z.lt ks) by (apply filter_sorted, seq_sorted).
    assert (Hck : forall e, In e stream -> exists k, In k ks /\ in_range (fst (win_of k)) (snd (win_of k)) e = true).
    { intros e He. apply covered_nonempty; auto. destruct (Hcov e He) as (i & Hi & Hr).
      exists (k0 + Z.of_nat i)%Z. split; auto. apply in_map_iff. exists i. split; auto. apply in_seq. lia. }
    assert (Hne : forall k, In k ks -> exists e, In e stream /\ in_range (fst (win_of k)) (snd (win_of k)) e = true).
    { intros k Hk. apply filter_In in Hk as [_ Hk]. now apply existsb_exists in Hk. }
    assert (Hend : forall k, In k ks -> (0 < snd (win_of k))%Qc).
    { intros k Hk. destruct (Hne k Hk) as (e & He & Hr). apply in_range_iff in Hr. specialize (Hpos e He). qlin. }
    clear Ed. clearbody ks. destruct ks as [|k ks].
    - inversion Hf; subst. exists []. cbn. destruct stream as [|e r].
      + repeat split; auto; constructor.
      + exfalso. destruct (Hck e (or_introl eq_refl)) as (k & [] & _).
    - destruct ws as [|w ws]; [inversion Hf|].
      assert (Hit : in_time (- (1))%Qc (w :: ws)).
      { clear -Hf Hks Hend He1 Hs Hp.
        assert (G : forall ks ws t, StronglySorted Z.lt ks ->
          Forall2 (fun r w => Permutation (wn_els w) (range stream (fst r) (snd r)) /\ wn_ts w = (snd r - eps)%Qc) (map win_of ks) ws ->
          (forall k, In k ks -> t <= snd (win_of k) - eps)%Qc -> in_time t ws).
        { clear -Hp. induction ks as [|k ks IH]; intros ws t Hks Hf Ht; inversion Hf as [|? w ? ws' [_ E] Hf']; subst; [exact I|].
          cbn [in_time]. rewrite E. split; [apply Ht; now left|].
          inversion Hks as [|? ? Hks' Hfa]; subst. rewrite Forall_forall in Hfa. apply IH; auto.
          intros j Hj. specialize (Hfa j Hj). cbn [sliding snd].
          assert (qz k * period <= qz j * period)%Qc by (apply qz_mul_le; lia). qlin. }
        eapply G; eauto. intros j Hj. specialize (Hend j Hj). qlin. }
      assert (Hin : forall e, In e stream -> (fst (win_of k) <= el_ts e)%Qc).
      { intros e He. destruct (Hck e He) as (j & Hj & Hr). apply in_range_iff in Hr as [H1 _].
        cbn [sliding fst] in *. inversion Hks as [|? ? _ Hfa]; subst. rewrite Forall_forall in Hfa.
        destruct Hj as [<-|Hj]; auto. specialize (Hfa j Hj).
        assert (qz k * period <= qz j * period)%Qc by (apply qz_mul_le; lia). qlin. }
      destruct (C50_history a o cb t0 stream (fst (win_of k)) (snd (win_of k)) (map win_of ks) w ws)
        as (log & H1 & H2 & H3 & H4); auto.
      + cbn [sliding fst snd]. qlin.
      + apply moving_sliding; auto.
      + replace (fst (win_of k), snd (win_of k)) with (win_of k) by now destruct (win_of k).
        change (win_of k :: map win_of ks) with (map win_of (k :: ks)).
        clear -Hf Hne. revert Hf Hne. generalize (k :: ks) (w :: ws). clear.
        induction l as [|k ks IH]; intros ws Hf Hne; inversion Hf as [|? w ? ws' [Hw _] Hf']; subst; constructor.
        * split; auto. destruct (Hne k (or_introl eq_refl)) as (e & He & Hr). intros E. rewrite E in Hw.
          apply Permutation_nil in Hw. assert (In e (range stream (fst (win_of k)) (snd (win_of k)))) by (now apply filter_In).
          now rewrite Hw in H.
        * apply IH; auto. intros; apply Hne; now right.
      + exists log. split; auto. split; auto. split; auto.
        eapply perm_trans; [exact H3|]. unfold range.
        rewrite (filter_ext_in' _ (fun _ => true)); [rewrite filter_all_true; reflexivity|].
        intros e He. apply in_range_iff. split; auto.
        destruct (Hck e He) as (j & Hj & Hr). apply in_range_iff in Hr as [_ Hr].
        pose proof (end_of_last k ks Hks j Hj). qlin.
  Qed.
End sliding.

(** ** The stored elements are always in chronological order (C53, C50). *)
Section stored.
  Context {V SS R : Type} (a : algorithm) (o : aoptions V) (cb : callbacks V SS R) (t0 : mtype).

  Lemma window_elements_chrono prev els cur : window_elements a o prev els = Ok cur -> chronological cur.
  Proof.
    unfold window_elements. destruct a; try (intros E; injection E as <-; apply sorted_chronological).
    destruct (ao_filter o); [|discriminate]. destruct (rfilter _ _); cbn; [|discriminate].
    intros E; injection E as <-; apply sorted_chronological.
  Qed.
  Lemma process_chrono w (b : bags V SS) : chronological (last (b_els b) []) ->
    chronological (last (b_els (fst (process a o cb t0 w b))) []).
  Proof.
    intros H. unfold process. destruct (Qclt_bool _ _); [exact H|].
    destruct (window_elements _ _ _ _) as [els|e] eqn:Ee; [|exact H]. apply window_elements_chrono in Ee.
    destruct (resolve_outgoing _ _) as [out|e]; [|exact H].
    destruct (cb_map _ _ _ _ _ _) as [pm [m|e]].
    - destruct (match a with Attenuation => _ | _ => _ end) as [m1 [x|e]]; [|exact Ee].
      destruct (cb_solve _ _ _ _ _ _) as [m2 [ss|e]]; exact Ee.
    - destruct (_ && _); exact Ee.
  Qed.
  Theorem C53_stored_chronological (ws : list (win V)) :
    chronological (last (b_els (fst (run a o cb t0 ws no_bags))) []).
  Proof.
    assert (G : forall b : bags V SS, chronological (last (b_els b) []) ->
                chronological (last (b_els (fst (run a o cb t0 ws b))) [])).
    { induction ws as [|w r IH]; intros b H; cbn [run]; [exact H|]. unfold bind.
      pose proof (process_chrono w b H) as H1.
      destruct (process a o cb t0 w b) as [b1 [x|e]]; cbn [fst] in *; [|exact H1].
      specialize (IH b1 H1). destruct (run a o cb t0 r b1) as [b2 [y|e]]; exact IH. }
    apply G. constructor.
  Qed.
End stored.

(** ** C55 *)
Section C55.
  Context {V SS R : Type} (a : algorithm) (o : aoptions V) (cb : callbacks V SS R) (t0 : mtype).

  (** What is missing: map_fn changes the model in place before it raises, and
      the model was stored earlier in the same bundle (C55_map_refuted). *)
  Theorem C55_map_failure_partial (w : win V) (b b' : bags V SS) e :
    process a o cb t0 w b = (b', Ok [MapFailed e]) ->
    wn_same w = false \/ (forall m ss els inc out, fst (cb_map cb m ss els inc out) = m) ->
    b_model b' = b_model b /\ b_ss b' = b_ss b.
  Proof.
    intros E H. unfold process in E. destruct (Qclt_bool _ _); [injection E as <-; discriminate|].
    destruct (window_elements _ _ _ _) as [els|e']; [|discriminate].
    destruct (resolve_outgoing _ _) as [out|e']; [|discriminate].
    destruct (cb_map _ _ _ _ _ _) as [pm [m|e']] eqn:Em.
    - destruct (match a with Attenuation => _ | _ => _ end) as [m1 [x|e'']]; [|discriminate].
      destruct (cb_solve _ _ _ _ _ _) as [m2 [ss|e'']]; [|discriminate].
      destruct (cb_unmap _ _ _ _ _); discriminate.
    - injection E as <- _. destruct (wn_same w) eqn:Ew; cbn [andb]; [|split; reflexivity].
      destruct H as [|H]; [discriminate|].
      assert (pm = last_or (new_model t0) (b_model b)) as ->.
      { pose proof (f_equal fst Em) as E'. rewrite H in E'. now symmetry. }
      destruct (negb (length (b_model b) =? 0)%nat) eqn:L; cbn; [|auto]. split; auto.
      unfold last_or. symmetry. apply app_removelast_last. intros C. now rewrite C in L.
  Qed.
  (** The sample set is kept in any case. *)
  Theorem C55_map_failure_ss (w : win V) (b b' : bags V SS) e :
    process a o cb t0 w b = (b', Ok [MapFailed e]) -> b_ss b' = b_ss b.
  Proof.
    intros E. unfold process in E. destruct (Qclt_bool _ _); [injection E as <-; discriminate|].
    destruct (window_elements _ _ _ _) as [els|e']; [|discriminate].
    destruct (resolve_outgoing _ _) as [out|e']; [|discriminate].
    destruct (cb_map _ _ _ _ _ _) as [pm [m|e']].
    - destruct (match a with Attenuation => _ | _ => _ end) as [m1 [x|e'']]; [|discriminate].
      destruct (cb_solve _ _ _ _ _ _) as [m2 [ss|e'']]; [|discriminate].
      destruct (cb_unmap _ _ _ _ _); discriminate.
    - injection E as <- _. destruct (_ && _); reflexivity.
  Qed.
  Theorem C55_solve_failure (w : win V) (b b' : bags V SS) e :
    process a o cb t0 w b = (b', Ok [SolveFailed e]) -> b_ss b' = b_ss b.
  Proof.
    intros E. unfold process in E. destruct (Qclt_bool _ _); [injection E as <-; discriminate|].
    destruct (window_elements _ _ _ _) as [els|e']; [|discriminate].
    destruct (resolve_outgoing _ _) as [out|e']; [|discriminate].
    destruct (cb_map _ _ _ _ _ _) as [pm [m|e']]; [|discriminate].
    destruct (match a with Attenuation => _ | _ => _ end) as [m1 [x|e'']]; [|discriminate].
    destruct (cb_solve _ _ _ _ _ _) as [m2 [ss|e'']].
    - destruct (cb_unmap _ _ _ _ _); discriminate.
    - injection E as <- _. reflexivity.
  Qed.
End C55.

Section C55_isolation.
  Context {V SS : Type} (a : algorithm) (o : aoptions V) (t0 : mtype).

  Lemma window_elements_ok (prev els : list (element V)) :
    (a = Partial -> exists f g, ao_filter o = Some f /\ forall e, f e = Ok (g e)) -> els <> [] ->
    exists cur, window_elements a o prev els = Ok cur /\ cur <> [].
  Proof.
    intros Hp Hw. unfold window_elements. pose proof (sorted_nonempty _ Hw) as Hs. destruct a.
    - eauto.
    - eauto.
    - eexists. split; [reflexivity|]. apply sorted_nonempty. now destruct (sorted els).
    - destruct (Hp eq_refl) as (f & g & -> & Hf). rewrite (rfilter_total f g) by auto.
      eexists. split; [reflexivity|]. apply sorted_nonempty.
      destruct (sorted els); [congruence|]. now destruct (filter g prev).
    - eauto.
  Qed.

  (** What the windows of a history present does not depend on the user's
      functions, hence not on which of their calls fail. *)
  Theorem C55_isolation (ws : list (win V)) :
    a <> Attenuation ->
    (a = Partial -> exists f g, ao_filter o = Some f /\ forall e, f e = Ok (g e)) ->
    (forall w, In w ws -> wn_els w <> []) -> in_time (- (1))%Qc ws ->
    exists log, forall R (cb : callbacks V SS R), presented a o cb t0 no_bags ws log.
  Proof.
    intros _ Hp.
    assert (G : forall ws ts els, (forall w, In w ws -> wn_els w <> []) -> in_time (last ts (- (1))%Qc) ws ->
      exists log, forall R (cb : callbacks V SS R) b, b_ts b = ts -> b_els b = els -> presented a o cb t0 b ws log).
    { clear ws. induction ws as [|w ws IH]; intros ts els Hne Hit; [exists []; intros; exact I|].
      destruct Hit as [Lt Hit].
      destruct (window_elements_ok (last els []) (wn_els w) Hp) as (cur & Hcur & Hn); [apply Hne; now left|].
      destruct (outgoing_ok (last els []) cur Hn) as [out Ho].
      destruct (IH [wn_ts w] [cur]) as [log Hlog]; [intros; apply Hne; now right | exact Hit|].
      exists ((cur, resolve_incoming (last els []) cur, out) :: log). intros R cb b Ht He.
      assert (Hc : current w b) by (intros t' <-; now rewrite Ht).
      assert (Ep : prev_els b = last els []) by (unfold prev_els; now rewrite He).
      cbn [presented]. rewrite <- Ep in *. split; [now apply presents_intro|].
      destruct (process_bags a o cb t0 w b cur out Hc Hcur Ho). now apply Hlog. }
    intros Hne Hit. destruct (G ws [] [] Hne Hit) as [log H]. exists log. intros R cb. now apply H.
  Qed.
End C55_isolation.

(** ** C56 *)
Theorem C56_indices {V} (l : list V) n r n' :
  assign_indices l n = (n', Ok r) -> map snd r = l /\ map fst r = seq n (length l) /\ n' = n + length l.
Proof.
  revert n r n'. induction l as [|v l IH]; intros n r n'; cbn.
  - intros E. injection E as <- <-. cbn. repeat split; lia.
  - unfold bind, get, put, ret. cbn. destruct (assign_indices l (n + 1)) as [n1 [y|e]] eqn:E1; [|discriminate].
    intros E. injection E as <- <-. destruct (IH _ _ _ E1) as (H1 & H2 & H3).
    cbn. rewrite H1, H2. replace (n + 1) with (S n) by lia. repeat split; lia.
Qed.
Theorem C56_total {V} (l : list V) n : exists r, assign_indices l n = (n + length l, Ok r).
Proof.
  revert n. induction l as [|v l IH]; intros n; cbn.
  - exists []. rewrite Nat.add_0_r. reflexivity.
  - unfold bind, get, put, ret. destruct (IH (n + 1)) as [y E]. cbn. rewrite E.
    replace (n + 1 + length l) with (n + S (length l)) by lia. eauto.
Qed.
(** The elements of the stream then have distinct indices (as C50 needs), and
    with reassigned timestamps also distinct, increasing timestamps. *)
Theorem C56_distinct {V} (l : list V) r n' reassign time :
  assign_indices l 0 = (n', Ok r) ->
  NoDup (map el_idx (map (timestamped reassign time) r)) /\
  (reassign = true ->
   StronglySorted (fun x y => (el_ts x < el_ts y)%Qc) (map (timestamped reassign time) r) /\
   forall e, In e (map (timestamped reassign time) r) -> el_ts e = qz (Z.of_nat (el_idx e))).
Proof.
  intros E. apply C56_indices in E as (_ & E & _). split.
  - rewrite map_map. cbn. change (map (fun x => fst x) r) with (map fst r). rewrite E. apply seq_NoDup.
  - intros ->. split.
    + revert E. generalize 0 as k. generalize (length l) as m. induction r as [|x r IH]; intros m k E; cbn; constructor.
      * destruct m; [discriminate|]. injection E as _ E. eapply IH, E.
      * destruct m; [discriminate|]. injection E as E0 E. apply Forall_forall. intros e He.
        apply in_map_iff in He as (y & <- & Hy). cbn.
        assert (In (fst y) (seq (S k) m)) by (rewrite <- E; now apply in_map). apply in_seq in H.
        apply qz_lt. lia.
    + intros e He. apply in_map_iff in He as (y & <- & _). reflexivity.
Qed.

(** ** C58 *)
Definition optional (s : option string) : string := match s with Some x => x | None => "" end.
Theorem C58_decoration o (outs : list (string * string)) :
  decorated o outs =
  map (fun so => optional (do_prefix o) +++
                 (if do_stamp o then "[" +++ fst so +++ "] " else "") +++ snd so +++ optional (do_suffix o)) outs.
Proof.
  unfold decorated. apply map_ext. intros [st r]. unfold decorate, optional. cbn [fst snd].
  destruct (do_stamp o), (do_prefix o), (do_suffix o); cbn [append];
    rewrite ?append_nil_r_s, ?append_assoc_s; cbn [append]; rewrite ?append_assoc_s; reflexivity.
Qed.

Definition E0 : env := mkEnv 0%Qc 0%Qc (fun _ => "") "1" (fun _ => "2").
(** ** C68: the first window

    Refuted for timestamps before -1 (the default of line 84). *)
Theorem C68_refuted :
  exists (w : win nat) (cb : callbacks nat nat nat) o t1 t2,
    wn_els w <> [] /\ process Window o cb Qubo w no_bags = (no_bags, Ok [Outdated t1 t2]).
Proof.
  exists (mkWin (qz (-2)) [mkEl (qz (-3)) 0 5] false E0 (fun _ => E0)).
  exists (mkCb (fun m _ _ _ _ => (m, Ok m)) (fun m _ _ _ _ => (m, Ok 0)) (fun _ _ _ _ => Ok 0)).
  exists (mkAo None None None). eexists. eexists. split; [discriminate | vm_compute; reflexivity].
Qed.
Theorem C68_first_partial {V SS R} a o (cb : callbacks V SS R) t0 (w : win V) outs b' :
  (- (1) <= wn_ts w)%Qc -> process a o cb t0 w no_bags = (b', Ok outs) ->
  processed b' (wn_ts w) /\ forall t1 t2, ~ In (Outdated t1 t2) outs.
Proof. intros H. apply C48_recorded. intros t <-. exact H. Qed.

(** ** C71: the outdated message *)
Theorem C71_refuted :
  exists (w : win nat) (b : bags nat nat) (cb : callbacks nat nat nat) o t t1 t2,
    processed b t /\ process Window o cb Qubo w b = (b, Ok [Outdated t1 t2]) /\ t2 <> t.
Proof.
  exists (mkWin 1%Qc [mkEl 1%Qc 0 5] false E0 (fun _ => E0)).
  exists (mkBags [qz 2] [] [] []).
  exists (mkCb (fun m _ _ _ _ => (m, Ok m)) (fun m _ _ _ _ => (m, Ok 0)) (fun _ _ _ _ => Ok 0)).
  exists (mkAo None None None), (qz 2). eexists. eexists.
  split; [reflexivity|]. split; [vm_compute; reflexivity | discriminate].
Qed.
(** The timestamp of the dropped window is right; what is missing is the other. *)
Theorem C71_received_partial {V SS R} a o (cb : callbacks V SS R) t0 (w : win V) (b b' : bags V SS) outs t1 t2 :
  process a o cb t0 w b = (b', Ok outs) -> In (Outdated t1 t2) outs -> t1 = wn_ts w.
Proof.
  intros E Hi.
  destruct (Qclt_bool (wn_ts w) (last (b_ts b) (- (1))%Qc)) eqn:L.
  - unfold process, last_or in E. rewrite L in E. injection E as <- <-.
    destruct Hi as [Hi|[]]. now injection Hi.
  - exfalso. apply (C48_recorded a o cb t0 w b outs b') in E as [_ E]; [now apply (E t1 t2)|].
    now apply current_test.
Qed.

(** ** C72: initial_mtype *)
Theorem C72_initial_mtype s t :
  check_initial_mtype s = Ok t <-> (s = Some "ising" /\ t = Ising) \/ (s = Some "qubo" /\ t = Qubo).
Proof.
  destruct s as [s|]; cbn; [|split; [discriminate | intros [[H _]|[H _]]; discriminate]].
  destruct (String.eqb_spec s "ising") as [->|N1]; [|destruct (String.eqb_spec s "qubo") as [->|N2]].
  - split; [intros E; injection E as <-; auto | intros [[_ ->]|[E _]]; [auto | discriminate]].
  - split; [intros E; injection E as <-; auto | intros [[E _]|[_ ->]]; [discriminate | auto]].
  - split; [discriminate | intros [[E _]|[E _]]; injection E as E; contradiction].
Qed.
Theorem C72_errors s :
  (s = None -> check_initial_mtype s = Err TypeError) /\
  (forall x, s = Some x -> x <> "ising" -> x <> "qubo" -> check_initial_mtype s = Err ValueError).
Proof.
  split; [intros ->; reflexivity|]. intros x -> N1 N2. cbn.
  apply String.eqb_neq in N1, N2. now rewrite N1, N2.
Qed.

(** ** Concrete histories *)
Definition e_ (t : Z) (i : nat) : element nat := mkEl (qz t) i (10 + i).
Definition w_ (t : Z) (els : list (element nat)) : win nat := mkWin (qz t) els false E0 (fun _ => E0).
Definition o_ : aoptions nat := mkAo None None None.
(** Functions that count what they get; map fails on windows of two elements. *)
Definition cb_ : callbacks nat nat (nat * nat * nat) :=
  mkCb (fun m _ els _ _ => (m, if (length els =? 2)%nat then Err (UserError 7) else Ok m))
       (fun m _ els _ _ => (m, Ok (length els)))
       (fun ss els inc out => Ok (ss, length inc, length out)).

(** Computes what a history presents. *)
Fixpoint trace {V} (a : algorithm) (o : aoptions V) (t : Qc) (prev : list (element V)) (ws : list (win V))
  : option (list (list (element V) * list (element V) * list (element V))) :=
  match ws with
  | [] => Some []
  | w :: r =>
      if Qclt_bool (wn_ts w) t then None else
      match window_elements a o prev (wn_els w) with
      | Err _ => None
      | Ok els => match resolve_outgoing prev els with
                  | Err _ => None
                  | Ok out => match trace a o (wn_ts w) els r with
                              | None => None
                              | Some log => Some ((els, resolve_incoming prev els, out) :: log)
                              end end end
  end.
Lemma trace_presented {V SS R} a (o : aoptions V) (cb : callbacks V SS R) t0 ws : forall t prev b log,
  trace a o t prev ws = Some log -> last (b_ts b) (- (1))%Qc = t -> last (b_els b) [] = prev ->
  presented a o cb t0 b ws log.
Proof.
  induction ws as [|w ws IH]; intros t prev b log; cbn [trace].
  - intros E _ _. injection E as <-. exact I.
  - destruct (Qclt_bool (wn_ts w) t) eqn:L; [discriminate|].
    destruct (window_elements a o prev (wn_els w)) as [els|] eqn:Ee; [|discriminate].
    destruct (resolve_outgoing prev els) as [out|] eqn:Eo; [|discriminate].
    destruct (trace a o (wn_ts w) els ws) as [log'|] eqn:Et; [|discriminate].
    intros E Ht Hp. injection E as <-. fold (prev_els b) in Hp. rewrite <- Hp in *.
    assert (Hc : current w b) by (apply current_test; unfold last_or; now rewrite Ht).
    cbn [presented]. split; [now apply presents_intro|].
    destruct (process_bags a o cb t0 w b els out Hc Ee Eo) as [H1 H2].
    eapply IH; [exact Et | now rewrite H2 | now rewrite H1].
Qed.
Ltac traced := eapply (trace_presented _ _ _ _ _ (- (1))%Qc []); [vm_compute; reflexivity | reflexivity | reflexivity].

(** C52: an element that is not later than the stored ones is not incoming. *)
Theorem C52_refuted :
  let ws := [w_ 10 [e_ 5 0]; w_ 20 [e_ 3 1; e_ 15 2]] in
  in_time (- (1))%Qc ws /\ NoDup (map el_idx (concat (map wn_els ws))) /\
  exists log, (forall R (cb : callbacks nat nat R), presented Incremental o_ cb Qubo no_bags ws log) /\
    forall inc, In inc (incoming_of log) -> ~ In (e_ 3 1) inc.
Proof.
  split; [repeat split; vm_compute; discriminate|].
  split; [repeat constructor; cbn; intuition discriminate|].
  exists [([e_ 5 0], [e_ 5 0], []); ([e_ 3 1; e_ 5 0; e_ 15 2], [e_ 15 2], [])]. split.
  - intros R cb. traced.
  - intros inc [<-|[<-|[]]] [C|[]]; discriminate.
Qed.

Example C52_hyps :
  let ws := [w_ 10 [e_ 5 0; e_ 3 1]; w_ 20 [e_ 15 2]] in
  in_time (- (1))%Qc ws /\ arriving [] ws /\ NoDup (map el_idx (concat (map wn_els ws))).
Proof.
  split; [repeat split; vm_compute; discriminate|]. split; [|repeat constructor; cbn; intuition discriminate].
  split; [intros ? ? []|]. split; [|exact I].
  intros p e [<-|[<-|[]]] [<-|[]]; reflexivity.
Qed.
Example C51_hyps :
  trace Incremental o_ (- (1))%Qc [] [w_ 10 [e_ 5 0; e_ 3 1]; w_ 20 [e_ 15 2]; w_ 20 [e_ 4 3]] =
  Some [([e_ 3 1; e_ 5 0], [e_ 3 1; e_ 5 0], []);
        ([e_ 3 1; e_ 5 0; e_ 15 2], [e_ 15 2], []);
        ([e_ 3 1; e_ 4 3; e_ 5 0; e_ 15 2], [], [])].
Proof. vm_compute. reflexivity. Qed.

(** C48, C49: three windows, the last one late; the second one's map fails. *)
Example C48_C49_hyps :
  run Window o_ cb_ Qubo [w_ 5 [e_ 3 0]; w_ 8 [e_ 3 0; e_ 7 1]; w_ 6 [e_ 3 0]] no_bags =
  (mkBags [qz 8] [[e_ 3 0; e_ 7 1]] [new_model Qubo] [1],
   Ok [[Solved (1, 1, 0)]; [MapFailed (UserError 7)]; [Outdated (qz 6) (qz 6)]]).
Proof. vm_compute. reflexivity. Qed.
Example C49_never_raises_hyps :
  let ws := [w_ 5 [e_ 3 0]; w_ 8 [e_ 3 0; e_ 7 1]] in
  Window <> Attenuation /\ (forall w, In w ws -> wn_els w <> []).
Proof. split; [discriminate|]. intros w [<-|[<-|[]]]; discriminate. Qed.

(** C50: windows of size 10 and period 5 over four elements; [10,20) follows
    [5,15), then nothing is left until [30,40). *)
Definition stream_ : list (element nat) := [e_ 7 0; e_ 12 1; e_ 4 2; e_ 33 3].
Definition ws_ : list (win nat) :=
  [w_ 5 [e_ 4 2]; w_ 10 [e_ 7 0; e_ 4 2]; w_ 15 [e_ 7 0; e_ 12 1]; w_ 20 [e_ 12 1]; w_ 35 [e_ 33 3]; w_ 40 [e_ 33 3]].
Example C50_hyps :
  windowed Window /\ (0 < qz 5)%Qc /\ (qz 5 <= qz 10)%Qc /\ NoDup (map el_idx stream_) /\
  (forall e, In e stream_ -> 0 <= el_ts e)%Qc /\
  (forall e, In e stream_ -> exists i, i < 8 /\
     in_range (fst (sliding (qz 10) (qz 5) (-1 + Z.of_nat i))) (snd (sliding (qz 10) (qz 5) (-1 + Z.of_nat i))) e = true) /\
  Forall2 (fun r w => Permutation (wn_els w) (range stream_ (fst r) (snd r)) /\ wn_ts w = (snd r - 0)%Qc)
          (delivered stream_ (qz 10) (qz 5) (-1) 8) ws_.
Proof.
  split; [left; reflexivity|]. split; [reflexivity|]. split; [vm_compute; discriminate|].
  split; [repeat constructor; cbn; intuition discriminate|].
  split; [intros e [<-|[<-|[<-|[<-|[]]]]]; vm_compute; discriminate|].
  split.
  - intros e [<-|[<-|[<-|[<-|[]]]]]; [exists 1 | exists 2 | exists 1 | exists 6]; (split; [lia | vm_compute; reflexivity]).
  - replace (delivered stream_ (qz 10) (qz 5) (-1) 8)
      with [(qz (-5), qz 5); (qz 0, qz 10); (qz 5, qz 15); (qz 10, qz 20); (qz 25, qz 35); (qz 30, qz 40)]
      by (vm_compute; reflexivity).
    repeat constructor; try (vm_compute; reflexivity).
Qed.
(** ... and a step of it in terms of C50_exact. *)
Example C50_exact_hyps :
  let b : bags nat nat := mkBags [qz 10] [[e_ 4 2; e_ 7 0]] [] [] in
  let w := w_ 15 [e_ 12 1; e_ 7 0] in
  chronological [e_ 4 2; e_ 7 0] /\ Permutation [e_ 4 2; e_ 7 0] (range stream_ 0 (qz 10)) /\
  Permutation (wn_els w) (range stream_ (qz 5) (qz 15)) /\ current w b /\
  trace Window o_ (qz 10) [e_ 4 2; e_ 7 0] [w] = Some [([e_ 7 0; e_ 12 1], [e_ 12 1], [e_ 4 2])].
Proof.
  split; [repeat constructor|]. split; [vm_compute; constructor|]. split; [vm_compute; constructor|].
  split; [intros t <-; vm_compute; discriminate | vm_compute; reflexivity].
Qed.

(** C53: a filter that drops a newer element than it keeps. *)
Theorem C53_refuted :
  exists (o : aoptions nat) (g : element nat -> bool) (ws : list (win nat)) log d,
    ao_filter o = Some (fun e => Ok (g e)) /\
    (forall R (cb : callbacks nat nat R), presented Partial o cb Qubo no_bags ws log) /\
    (exists els0, nth_error (elements_of log) 0 = Some els0 /\ In d els0 /\ g d = false) /\
    (exists els1, nth_error (elements_of log) 1 = Some els1 /\ ~ In d els1) /\
    forall out, In out (outgoing_of log) -> ~ In d out.
Proof.
  pose (g := fun e : element nat => negb (el_idx e =? 1)%nat).
  exists (mkAo (Some (fun e => Ok (g e))) None None), g.
  exists [w_ 10 [e_ 3 0; e_ 5 1]; w_ 20 [e_ 15 2]].
  exists [([e_ 3 0; e_ 5 1], [e_ 3 0; e_ 5 1], []); ([e_ 3 0; e_ 15 2], [e_ 15 2], [])], (e_ 5 1).
  split; [reflexivity|]. split; [intros; traced|]. split.
  - eexists. split; [reflexivity|]. split; [right; now left | reflexivity].
  - split; [eexists; split; [reflexivity|]; intros [C|[C|[]]]; discriminate|].
    intros out [<-|[<-|[]]] [].
Qed.
Example C53_hyps :
  let g := fun e : element nat => negb (el_idx e =? 0)%nat in
  let o := mkAo (Some (fun e => Ok (g e))) None None in
  let b : bags nat nat := mkBags [qz 10] [[e_ 3 0; e_ 5 1]] [] [] in
  let w := w_ 20 [e_ 15 2] in
  current w b /\ wn_els w <> [] /\ chronological (last (b_els b) []) /\
  (forall d e, In d (last (b_els b) []) -> g d = false ->
     (In e (last (b_els b) []) /\ g e = true) \/ In e (wn_els w) -> (el_ts d < el_ts e)%Qc) /\
  trace Partial o (qz 10) [e_ 3 0; e_ 5 1] [w] = Some [([e_ 5 1; e_ 15 2], [e_ 15 2], [e_ 3 0])].
Proof.
  split; [intros t <-; vm_compute; discriminate|]. split; [discriminate|]. split; [repeat constructor|].
  split; [|vm_compute; reflexivity].
  intros d e [<-|[<-|[]]] Hg; [|discriminate].
  intros [[[<-|[<-|[]]] He]|[<-|[]]]; try discriminate; reflexivity.
Qed.

(** C73: with overlapping windows an element that the filter keeps is presented
    twice. *)
Theorem C73_refuted :
  exists (o : aoptions nat) f (ws : list (win nat)) log,
    ao_filter o = Some f /\ (forall w, In w ws -> NoDup (map el_idx (wn_els w))) /\
    (forall R (cb : callbacks nat nat R), presented Partial o cb Qubo no_bags ws log) /\
    exists els, In els (elements_of log) /\ ~ NoDup (map el_idx els).
Proof.
  exists (mkAo (Some (fun _ => Ok true)) None None), (fun _ => Ok true).
  exists [w_ 10 [e_ 3 0; e_ 7 1]; w_ 15 [e_ 7 1; e_ 12 2]].
  eexists. split; [reflexivity|].
  split; [intros w [<-|[<-|[]]]; repeat constructor; cbn; intuition discriminate|].
  split; [intros; traced|].
  eexists. split; [right; left; reflexivity|]. intros H. cbn in H. inversion H as [|? ? _ H1].
  inversion H1 as [|? ? HN _]. apply HN. now left.
Qed.
(** When the received elements are new, nothing is presented twice; what is
    missing: overlapping windows. *)
Theorem C73_new_partial {V SS} (o : aoptions V) t0 (w : win V) (b : bags V SS) f g :
  ao_filter o = Some f -> (forall e, f e = Ok (g e)) -> current w b -> wn_els w <> [] ->
  NoDup (map el_idx (last (b_els b) [] ++ wn_els w)) ->
  exists els inc out, presents Partial o t0 w b els inc out /\ NoDup (map el_idx els).
Proof.
  intros Hf Hg Hc Hne Hn.
  destruct (C53_elements o t0 w b f g Hf Hg Hc Hne) as (els & inc & out & Hp & _ & Hpm & _).
  exists els, inc, out. split; auto. apply (idx_perm (filter g (last (b_els b) []) ++ wn_els w)); [now symmetry|].
  rewrite map_app in *. apply NoDup_app_iff in Hn as (H1 & H2 & H3). apply NoDup_app_iff.
  split; [now apply idx_filter|]. split; auto. intros x Hx. apply H3.
  apply in_map_iff in Hx as (y & <- & Hy). apply filter_In in Hy as [Hy _]. now apply in_map.
Qed.
Example C73_hyps :
  NoDup (map el_idx (last [[e_ 3 0; e_ 7 1]] [] ++ wn_els (w_ 20 [e_ 12 2]))).
Proof. repeat constructor; cbn; intuition discriminate. Qed.

(** C70: the elements of a window whose map_fn failed do not come back. *)
Theorem C70_refuted :
  let ws := [w_ 10 [e_ 5 0]; w_ 15 [e_ 5 0; e_ 11 1]; w_ 20 [e_ 5 0; e_ 11 1; e_ 16 2]] in
  exists log b outs,
    presented Window o_ cb_ Qubo no_bags ws log /\
    run Window o_ cb_ Qubo ws no_bags = (b, Ok outs) /\
    outs = [[Solved (1, 1, 0)]; [MapFailed (UserError 7)]; [Solved (3, 1, 0)]] /\
    (exists inc, nth_error (incoming_of log) 0 = Some inc /\ ~ In (e_ 11 1) inc) /\
    (exists inc, nth_error (incoming_of log) 2 = Some inc /\ ~ In (e_ 11 1) inc) /\
    (exists els, nth_error (elements_of log) 2 = Some els /\ In (e_ 11 1) els).
Proof.
  eexists. eexists. eexists. split; [traced|]. split; [vm_compute; reflexivity|]. split; [reflexivity|].
  split; [eexists; split; [reflexivity|]; intros [C|[]]; discriminate|].
  split; [eexists; split; [reflexivity|]; intros [C|[]]; discriminate|].
  eexists. split; [reflexivity|]. right. now left.
Qed.

(** C55: in one bundle, a map_fn that changes the model and raises leaves a
    changed model. *)
Definition spoil (m : lmodel) : lmodel := with_offset (CNum 1) m.
Theorem C55_map_refuted :
  exists (w : win nat) (b b' : bags nat nat) (cb : callbacks nat nat nat) e,
    process Window o_ cb Qubo w b = (b', Ok [MapFailed e]) /\ b_model b' <> b_model b.
Proof.
  exists (mkWin (qz 5) [e_ 3 0] true E0 (fun _ => E0)).
  exists (mkBags [qz 2] [[e_ 1 1]] [new_model Qubo] []). eexists.
  exists (mkCb (fun m _ _ _ _ => (spoil m, Err (UserError 7))) (fun m _ _ _ _ => (m, Ok 0)) (fun _ _ _ _ => Ok 0)).
  eexists. split; [vm_compute; reflexivity|]. discriminate.
Qed.
Example C55_hyps :
  let b := mkBags [qz 5] [[e_ 3 0]] [new_model Qubo] [1] in
  process Window o_ cb_ Qubo (w_ 8 [e_ 3 0; e_ 7 1]) b =
    (mkBags [qz 8] [[e_ 3 0; e_ 7 1]] [new_model Qubo] [1], Ok [MapFailed (UserError 7)]) /\
  wn_same (w_ 8 [e_ 3 0; e_ 7 1]) = false /\
  (forall m ss els inc out, fst (cb_map cb_ m ss els inc out) = m).
Proof. split; [vm_compute; reflexivity | split; reflexivity]. Qed.
Example C55_solve_hyps :
  let cb := mkCb (fun m _ _ _ _ => (m, Ok m)) (fun m (_ : option nat) (_ _ _ : list (element nat)) => (m, Err (UserError 3)))
                 (fun _ _ _ _ => Ok 0) in
  let b := mkBags [qz 5] [[e_ 3 0]] [new_model Qubo] [1] in
  process Window o_ cb Qubo (w_ 8 [e_ 3 0; e_ 7 1]) b =
    (mkBags [qz 8] [[e_ 3 0; e_ 7 1]] [new_model Qubo] [1], Ok [SolveFailed (UserError 3)]).
Proof. vm_compute. reflexivity. Qed.
Example C55_isolation_hyps :
  let ws := [w_ 5 [e_ 3 0]; w_ 8 [e_ 3 0; e_ 7 1]] in
  (forall w, In w ws -> wn_els w <> []) /\ in_time (- (1))%Qc ws.
Proof. split; [intros w [<-|[<-|[]]]; discriminate | repeat split; vm_compute; discriminate]. Qed.

Example C56_hyps : assign_indices ["a"; "b"; "c"] 4 = (7, Ok [(4, "a"); (5, "b"); (6, "c")]).
Proof. reflexivity. Qed.
Example C58_hyps :
  decorated (mkDo true (Some "> ") (Some "!")) [("t1", "x"); ("t2", "y")] = ["> [t1] x!"; "> [t2] y!"].
Proof. reflexivity. Qed.
Example C68_hyps : (- (1) <= wn_ts (w_ 5 [e_ 3 0]))%Qc.
Proof. vm_compute. discriminate. Qed.
Print Assumptions C50_sliding.
Print Assumptions C53_stored_chronological.
Print Assumptions C55_map_failure_partial.
Print Assumptions C55_map_failure_ss.
Print Assumptions C55_solve_failure.
Print Assumptions C55_isolation.
Print Assumptions C56_indices.
Print Assumptions C56_total.
Print Assumptions C56_distinct.
Print Assumptions C58_decoration.
Print Assumptions C68_refuted.
Print Assumptions C68_first_partial.
Print Assumptions C71_refuted.
Print Assumptions C71_received_partial.
Print Assumptions C72_initial_mtype.
Print Assumptions C72_errors.
Print Assumptions C52_refuted.
Print Assumptions C53_refuted.
Print Assumptions C73_refuted.
Print Assumptions C73_new_partial.
Print Assumptions C70_refuted.
Print Assumptions C55_map_refuted.
