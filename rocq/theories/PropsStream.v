(** * PropsStream: C48-C53, C55, C56, C58 and C68-C71, the stateful stream
    processing (model: Stream.v, specification: StreamSpec.v). *)
From Coq Require Import Lqa Sorted.
From Verif Require Import PyBase PyLemmas Numbers Constraint LogicalModel Solver SolverProofs.
From Verif Require Import Stream StreamSpec.
Open Scope list_scope.

Ltac qord := unfold Qcle, Qclt in *; lra.

(** ** Sorting *)
Section sorting.
  Context {V : Type}.
  Notation el := (element V).
  Implicit Types a b c : el.

  Lemma leb_before a b : el_leb a b = true <-> before a b.
  Proof.
    unfold el_leb, before.
    destruct (Qclt_bool (el_ts a) (el_ts b)) eqn:E1.
    - apply Qclt_bool_iff in E1. tauto.
    - apply Qclt_bool_false in E1.
      destruct (Qclt_bool (el_ts b) (el_ts a)) eqn:E2.
      + apply Qclt_bool_iff in E2. split; [discriminate|]. intros [H|[H _]]; [qord|].
        rewrite H in E2. qord.
      + apply Qclt_bool_false in E2. rewrite Nat.leb_le.
        split; [|intros [H|[_ H]]; auto; qord]. intros H. right. split; auto.
        apply Qcle_antisym; auto.
  Qed.
  Lemma before_total a b : before a b \/ before b a.
  Proof.
    unfold before. destruct (Qclt_le_dec (el_ts a) (el_ts b)); auto.
    destruct (Qclt_le_dec (el_ts b) (el_ts a)); auto.
    assert (el_ts a = el_ts b) as -> by (apply Qcle_antisym; auto).
    destruct (Nat.le_ge_cases (el_idx a) (el_idx b)); auto.
  Qed.
  Lemma before_trans a b c : before a b -> before b c -> before a c.
  Proof.
    unfold before. intros [H1|[H1 I1]] [H2|[H2 I2]].
    - left. qord.
    - left. now rewrite <- H2.
    - left. now rewrite H1.
    - right. split; [congruence | lia].
  Qed.
  Lemma before_ts a b : before a b -> (el_ts a <= el_ts b)%Qc.
  Proof. intros [H|[H _]]; [qord | rewrite H; apply Qcle_refl]. Qed.
  Lemma before_antisym a b : before a b -> before b a -> el_ts a = el_ts b /\ el_idx a = el_idx b.
  Proof. unfold before. intros [H1|[H1 I1]] [H2|[H2 I2]]; try qord; try (rewrite H2 in H1; qord); try (rewrite H1 in H2; qord). split; auto; lia. Qed.

  Lemma insert_perm x l : Permutation (x :: l) (insert x l : list el).
  Proof.
    induction l as [|y r IH]; cbn; auto. destruct (el_leb x y); auto.
    eapply perm_trans; [apply perm_swap|]. now constructor.
  Qed.
  Lemma sorted_perm (l : list el) : Permutation l (sorted l).
  Proof.
    induction l as [|x r IH]; cbn; auto.
    eapply perm_trans; [apply perm_skip; exact IH | apply insert_perm].
  Qed.
  Lemma insert_sorted x (l : list el) : chronological l -> chronological (insert x l).
  Proof.
    induction 1 as [|y r Hs IH Hf]; cbn; [repeat constructor|].
    destruct (el_leb x y) eqn:E.
    - apply leb_before in E. constructor; [constructor; auto|].
      constructor; auto. eapply Forall_impl; [|exact Hf]. intros z. now apply before_trans.
    - constructor; auto.
      assert (Hy : before y x).
      { destruct (before_total x y) as [H|H]; auto. apply leb_before in H. congruence. }
      apply Forall_forall. intros z Hz. apply (Permutation_in _ (Permutation_sym (insert_perm x r))) in Hz.
      destruct Hz as [<-|Hz]; auto. rewrite Forall_forall in Hf. auto.
  Qed.
  Lemma sorted_chronological (l : list el) : chronological (sorted l).
  Proof. induction l as [|x r IH]; cbn; [constructor | now apply insert_sorted]. Qed.

  (** Distinct indices: there is only one chronological arrangement. *)
  Lemma chronological_unique (l l' : list el) :
    chronological l -> chronological l' -> Permutation l l' -> NoDup (map el_idx l) -> l = l'.
  Proof.
    intros Hs. revert l'. induction Hs as [|x r Hs IH Hf]; intros l' Hs' Hp Hn.
    - apply Permutation_nil in Hp. now subst.
    - destruct l' as [|y r']; [apply Permutation_sym, Permutation_nil in Hp; discriminate|].
      inversion Hs' as [|? ? Hs'' Hf']; subst. inversion Hn as [|? ? Hx Hn']; subst.
      assert (x = y).
      { assert (Hin : In y (x :: r)) by (eapply Permutation_in; [symmetry; exact Hp | now left]).
        destruct Hin as [H|Hin]; auto. exfalso.
        assert (Hin' : In x (y :: r')) by (eapply Permutation_in; [exact Hp | now left]).
        rewrite Forall_forall in Hf, Hf'.
        destruct Hin' as [->|Hin'].
        - apply Hx. apply in_map_iff. eauto.
        - destruct (before_antisym x y (Hf _ Hin) (Hf' _ Hin')) as [_ E].
          apply Hx. rewrite E. apply in_map; auto. }
      subst y. f_equal. apply IH; auto. eapply Permutation_cons_inv; eauto.
  Qed.
  Lemma sorted_unique (l l' : list el) : chronological l' -> Permutation l l' -> NoDup (map el_idx l) -> sorted l = l'.
  Proof.
    intros Hs Hp Hn. apply chronological_unique; auto; [apply sorted_chronological | |].
    - eapply perm_trans; [symmetry; apply sorted_perm | exact Hp].
    - eapply Permutation_NoDup; [|exact Hn]. apply Permutation_map, sorted_perm.
  Qed.

  (** ** Incoming and outgoing on a chronological list cut in two *)
  Lemma outgoing_cut out kept cur (c : el) :
    Forall (fun e => (el_ts e < el_ts c)%Qc) out ->
    match kept with [] => True | k :: _ => (el_ts c <= el_ts k)%Qc end ->
    resolve_outgoing (out ++ kept) (c :: cur) = Ok out.
  Proof.
    induction 1 as [|x r Hx Hf IH]; intros Hk; cbn [app resolve_outgoing].
    - destruct kept as [|k kept]; auto. cbn [resolve_outgoing]. apply Qcle_bool_iff in Hk. now rewrite Hk.
    - apply Qcle_bool_false in Hx. rewrite Hx. now rewrite IH.
  Qed.
  Lemma later_app t (l r acc : list el) : Forall (fun e => (t < el_ts e)%Qc) l ->
    later t (l ++ r) acc = later t r (rev l ++ acc).
  Proof.
    intros Hf. revert acc. induction Hf as [|x l Hx Hf IH]; intros acc; cbn [app later rev]; auto.
    apply Qcle_bool_false in Hx. rewrite Hx, IH, <- app_assoc. reflexivity.
  Qed.
  Lemma later_cut t (kept inc acc : list el) :
    Forall (fun e => (t < el_ts e)%Qc) inc ->
    match rev kept with [] => True | k :: _ => (el_ts k <= t)%Qc end ->
    later t (rev (kept ++ inc)) acc = inc ++ acc.
  Proof.
    intros Hf Hk. rewrite rev_app_distr, later_app by now apply Forall_rev. rewrite rev_involutive.
    destruct (rev kept) as [|k rk]; auto. cbn [later]. apply Qcle_bool_iff in Hk. now rewrite Hk.
  Qed.
  Lemma incoming_cut (prev kept inc : list el) (p : el) :
    Forall (fun e => (el_ts p < el_ts e)%Qc) inc ->
    match rev kept with [] => True | k :: _ => (el_ts k <= el_ts p)%Qc end ->
    resolve_incoming (prev ++ [p]) (kept ++ inc) = inc.
  Proof.
    intros Hf Hk. unfold resolve_incoming. rewrite rev_app_distr. cbn [rev app].
    rewrite later_cut; auto. now rewrite app_nil_r.
  Qed.
  Lemma chrono_app (l l' : list el) : chronological (l ++ l') <->
    chronological l /\ chronological l' /\ (forall x y, In x l -> In y l' -> before x y).
  Proof.
    unfold chronological. induction l as [|x r IH]; cbn [app].
    - split; [intros H; repeat split; auto; [constructor | intros ? ? []] | tauto].
    - split.
      + intros H. inversion H as [|? ? Hs Hf]; subst. apply IH in Hs. destruct Hs as (H1 & H2 & H3).
        apply Forall_app in Hf. destruct Hf as [Hf Hf'].
        split; [constructor; auto|]. split; auto. intros y z [<-|Hy] Hz; auto.
        rewrite Forall_forall in Hf'. auto.
      + intros (H1 & H2 & H3). inversion H1 as [|? ? Hs Hf]; subst. constructor.
        * apply IH. split; auto. split; auto. intros; apply H3; auto. now right.
        * apply Forall_app. split; auto. apply Forall_forall. intros z Hz. apply H3; auto. now left.
  Qed.
End sorting.

(** ** What process does, in terms of what it presents *)
Section stages.
  Context {V SS : Type}.
  Notation el := (element V).

  Definition prev_els (b : bags V SS) : list el := last (b_els b) [].

  Lemma current_test w (b : bags V SS) :
    current w b <-> Qclt_bool (wn_ts w) (last_or (- (1))%Qc (b_ts b)) = false.
  Proof.
    unfold current, last_or. rewrite Qclt_bool_false. split; [auto|]. intros H t <-. exact H.
  Qed.

  Lemma presents_intro a o t0 w (b : bags V SS) els out :
    current w b -> window_elements a o (prev_els b) (wn_els w) = Ok els ->
    resolve_outgoing (prev_els b) els = Ok out ->
    presents a o t0 w b els (resolve_incoming (prev_els b) els) out.
  Proof.
    intros Hc Hw Ho R cb. cbv zeta. apply current_test in Hc.
    unfold process. rewrite Hc. change (last_or [] (b_els b)) with (prev_els b). rewrite Hw, Ho.
    change (last_or (new_model t0) (b_model b)) with (stored_model t0 b).
    change (last_or None (map Some (b_ss b))) with (stored_ss b).
    destruct (cb_map cb (stored_model t0 b) (stored_ss b) els (resolve_incoming (prev_els b) els) out)
      as [pm [m|e]]; cbn [snd]; [|reflexivity].
    intros Ha.
    destruct a; try congruence;
      destruct (cb_solve cb m (stored_ss b) els (resolve_incoming (prev_els b) els) out) as [m2 [ss|e]];
      reflexivity.
  Qed.
End stages.

(** ** C48 *)
Section C48.
  Context {V SS R : Type} (a : algorithm) (o : aoptions V) (cb : callbacks V SS R) (t0 : mtype).

  Theorem C48_outdated (w : win V) (b : bags V SS) t :
    processed b t -> (wn_ts w < t)%Qc ->
    exists t1 t2, process a o cb t0 w b = (b, Ok [Outdated t1 t2]).
  Proof.
    unfold processed, process, last_or. intros -> H. cbn [last].
    apply Qclt_bool_iff in H. rewrite H. eauto.
  Qed.

  (** A window that is not older and does not raise is recorded. *)
  Theorem C48_recorded (w : win V) (b : bags V SS) outs b' :
    current w b -> process a o cb t0 w b = (b', Ok outs) ->
    processed b' (wn_ts w) /\ forall t1 t2, ~ In (Outdated t1 t2) outs.
  Proof.
    unfold processed, process. intros Hc. apply current_test in Hc. rewrite Hc.
    destruct (window_elements _ _ _ _) as [els|e]; [|intros E; discriminate].
    destruct (resolve_outgoing _ _) as [out|e]; [|intros E; discriminate].
    destruct (cb_map _ _ _ _ _ _) as [pm [m|e]].
    - destruct (match a with Attenuation => _ | _ => _ end) as [m1 [x|e]]; [|intros E; discriminate].
      destruct (cb_solve _ _ _ _ _ _) as [m2 [ss|e]]; intros E; injection E as <- <-;
        (split; [reflexivity|]); intros t1 t2 [H|[]]; try discriminate.
      destruct (cb_unmap _ _ _ _ _); discriminate.
    - intros E. injection E as <- <-.
      split; [destruct (_ && _); reflexivity|]. intros t1 t2 [H|[]]; discriminate.
  Qed.

  Theorem C48_monotone (w : win V) (b : bags V SS) t :
    processed b t ->
    exists t', processed (fst (process a o cb t0 w b)) t' /\ (t <= t')%Qc.
  Proof.
    unfold processed, process, last_or. intros E. rewrite E. cbn [last].
    destruct (Qclt_bool (wn_ts w) t) eqn:L.
    - exists t. split; auto. apply Qcle_refl.
    - apply Qclt_bool_false in L.
      destruct (window_elements _ _ _ _) as [els|e]; [|exists t; split; [auto | apply Qcle_refl]].
      destruct (resolve_outgoing _ _) as [out|e]; [|exists t; split; [auto | apply Qcle_refl]].
      exists (wn_ts w). split; auto.
      destruct (cb_map _ _ _ _ _ _) as [pm [m|e]].
      + destruct (match a with Attenuation => _ | _ => _ end) as [m1 [x|e]]; [|reflexivity].
        destruct (cb_solve _ _ _ _ _ _) as [m2 [ss|e]]; reflexivity.
      + destruct (_ && _); reflexivity.
  Qed.
  Theorem C48_history (ws : list (win V)) (b : bags V SS) t :
    processed b t ->
    exists t', processed (fst (run a o cb t0 ws b)) t' /\ (t <= t')%Qc.
  Proof.
    revert b t. induction ws as [|w ws IH]; intros b t H; cbn [run].
    - exists t. split; [exact H | apply Qcle_refl].
    - unfold bind. destruct (C48_monotone w b t H) as (t1 & H1 & L1).
      destruct (process a o cb t0 w b) as [b1 [x|e]]; cbn [fst] in *.
      + destruct (IH b1 t1 H1) as (t2 & H2 & L2).
        exists t2. split; [|qord].
        destruct (run a o cb t0 ws b1) as [b2 [y|e]]; exact H2.
      + exists t1. auto.
  Qed.

  (** ** C49 *)
  Lemma process_single (w : win V) (b : bags V SS) :
    single b -> single (fst (process a o cb t0 w b)).
  Proof.
    intros H. unfold process. destruct (Qclt_bool _ _); [exact H|].
    destruct (window_elements _ _ _ _) as [els|e]; [|exact H].
    destruct (resolve_outgoing _ _) as [out|e]; [|exact H].
    destruct H as (H1 & H2 & H3 & H4).
    destruct (cb_map _ _ _ _ _ _) as [pm [m|e]].
    - destruct (match a with Attenuation => _ | _ => _ end) as [m1 [x|e]];
        [|unfold single; cbn; lia].
      destruct (cb_solve _ _ _ _ _ _) as [m2 [ss|e]]; unfold single; cbn; lia.
    - destruct (_ && _) eqn:E; unfold single; cbn; [|lia].
      destruct (b_model b) as [|m [|m' r]]; cbn in *; lia.
  Qed.
  Lemma process_one (w : win V) (b : bags V SS) b' outs :
    process a o cb t0 w b = (b', Ok outs) -> exists x, outs = [x].
  Proof.
    unfold process. destruct (Qclt_bool _ _); [intros E; injection E as _ <-; eauto|].
    destruct (window_elements _ _ _ _) as [els|e]; [|discriminate].
    destruct (resolve_outgoing _ _) as [out|e]; [|discriminate].
    destruct (cb_map _ _ _ _ _ _) as [pm [m|e]]; [|intros E; injection E as _ <-; eauto].
    destruct (match a with Attenuation => _ | _ => _ end) as [m1 [x|e]]; [|discriminate].
    destruct (cb_solve _ _ _ _ _ _) as [m2 [ss|e]]; intros E; injection E as _ <-; eauto.
  Qed.

  (** Whatever the windows and the callbacks do, from an empty state. *)
  Theorem C49_state (ws : list (win V)) : single (fst (run a o cb t0 ws no_bags)).
  Proof.
    assert (H : forall b, single b -> single (fst (run a o cb t0 ws b))).
    { induction ws as [|w r IH]; intros b H; cbn [run]; [exact H|]. unfold bind.
      pose proof (process_single w b H) as H1.
      destruct (process a o cb t0 w b) as [b1 [x|e]]; cbn [fst] in *; [|exact H1].
      specialize (IH b1 H1). destruct (run a o cb t0 r b1) as [b2 [y|e]]; exact IH. }
    apply H. unfold single. cbn. lia.
  Qed.
  Theorem C49_one_output (ws : list (win V)) (b : bags V SS) b' outs :
    run a o cb t0 ws b = (b', Ok outs) ->
    length outs = length ws /\ forall l, In l outs -> length l = 1.
  Proof.
    revert b outs. induction ws as [|w r IH]; intros b outs; cbn [run].
    - intros E. injection E as _ <-. split; auto. intros l [].
    - unfold bind. destruct (process a o cb t0 w b) as [b1 [x|e]] eqn:E1; [|discriminate].
      destruct (run a o cb t0 r b1) as [b2 [y|e]] eqn:E2; [|discriminate].
      intros E. injection E as -> <-. destruct (IH _ _ E2) as [H1 H2].
      split; [cbn; lia|]. intros l [<-|Hl]; auto.
      destruct (process_one _ _ _ _ E1) as [z ->]. reflexivity.
  Qed.

  Lemma outgoing_ok (prev cur : list (element V)) : cur <> [] -> exists out, resolve_outgoing prev cur = Ok out.
  Proof.
    intros H. destruct cur as [|c cur]; [congruence|]. clear H.
    induction prev as [|p r [out IH]]; cbn [resolve_outgoing]; [eauto|].
    destruct (Qcle_bool _ _); [eauto|]. rewrite IH. cbn. eauto.
  Qed.
  Lemma sorted_nonempty (l : list (element V)) : l <> [] -> sorted l <> [].
  Proof.
    intros H E. apply H. apply Permutation_nil. rewrite <- E. symmetry. apply sorted_perm.
  Qed.
  (** No exception escapes: windows are non-empty, and a filter, if there is
      one, is given and answers. Attenuation is treated in C69. *)
  Theorem C49_never_raises (ws : list (win V)) (b : bags V SS) :
    a <> Attenuation ->
    (a = Partial -> exists f g, ao_filter o = Some f /\ forall e, f e = Ok (g e)) ->
    (forall w, In w ws -> wn_els w <> []) ->
    exists outs, snd (run a o cb t0 ws b) = Ok outs.
  Proof.
    intros Ha Hp. revert b. induction ws as [|w r IH]; intros b Hne; cbn [run]; [cbn; eauto|].
    unfold bind.
    assert (E : exists b' x, process a o cb t0 w b = (b', Ok x)).
    { unfold process. destruct (Qclt_bool _ _); [eauto|].
      assert (Hw : wn_els w <> []) by (apply Hne; now left).
      assert (He : exists els, window_elements a o (last_or [] (b_els b)) (wn_els w) = Ok els /\ els <> []).
      { unfold window_elements. destruct a; try congruence.
        - eexists. split; [reflexivity|]. now apply sorted_nonempty.
        - eexists. split; [reflexivity|]. apply sorted_nonempty.
          pose proof (sorted_nonempty _ Hw). destruct (sorted (wn_els w)); [congruence | discriminate].
        - destruct (Hp eq_refl) as (f & g & -> & Hf).
          assert (Hk : exists kept, rfilter f (last_or [] (b_els b)) = Ok kept).
          { induction (last_or [] (b_els b)) as [|x l [kept IHk]]; cbn; [eauto|].
            rewrite Hf, IHk. cbn. eauto. }
          destruct Hk as [kept ->]. cbn [rbind]. eexists. split; [reflexivity|].
          apply sorted_nonempty. pose proof (sorted_nonempty _ Hw).
          destruct (sorted (wn_els w)); [congruence|]. now destruct kept.
        - eexists. split; [reflexivity|]. now apply sorted_nonempty. }
      destruct He as (els & -> & Hels).
      destruct (outgoing_ok (last_or [] (b_els b)) els Hels) as [out ->].
      destruct (cb_map _ _ _ _ _ _) as [pm [m|e]]; [|eauto].
      destruct a; try congruence;
        destruct (cb_solve _ _ _ _ _ _) as [m2 [ss|e]]; eauto. }
    destruct E as (b' & x & ->).
    destruct (IH b') as [outs Ho]; [intros; apply Hne; now right|].
    destruct (run a o cb t0 r b') as [b2 y]. cbn [snd] in Ho. rewrite Ho. cbn. eauto.
  Qed.
End C48.

(** ** C50 *)
Section cuts.
  Context {V : Type}.
  Notation el := (element V).

  Definition older (t : Qc) (e : el) : bool := Qclt_bool (el_ts e) t.
  Lemma older_true t e : older t e = true <-> (el_ts e < t)%Qc.
  Proof. apply Qclt_bool_iff. Qed.
  Lemma older_false t e : older t e = false <-> (t <= el_ts e)%Qc.
  Proof. apply Qclt_bool_false. Qed.

  Lemma chrono_split t (l : list el) : chronological l ->
    l = filter (older t) l ++ filter (fun e => negb (older t e)) l.
  Proof.
    induction 1 as [|x r Hs IH Hf]; auto. cbn [filter].
    destruct (older t x) eqn:E; cbn [negb app]; [now f_equal|].
    assert (F : filter (older t) r = []).
    { apply older_false in E. rewrite Forall_forall in Hf.
      destruct (filter (older t) r) as [|y s] eqn:Ef; auto. exfalso.
      assert (In y (filter (older t) r)) by (rewrite Ef; now left).
      apply filter_In in H as [H1 H2]. apply older_true in H2.
      specialize (Hf _ H1). apply before_ts in Hf. qord. }
    rewrite F in IH. rewrite F. cbn [app] in *. now f_equal.
  Qed.
  Lemma chrono_filter f (l : list el) : chronological l -> chronological (filter f l).
  Proof.
    induction 1 as [|x r Hs IH Hf]; cbn; [constructor|]. destruct (f x); auto. constructor; auto.
    rewrite Forall_forall in *. intros y Hy. apply filter_In in Hy as [Hy _]. auto.
  Qed.
  Lemma filter_perm {A} (f : A -> bool) l l' : Permutation l l' -> Permutation (filter f l) (filter f l').
  Proof.
    induction 1; cbn; auto.
    - destruct (f x); auto.
    - destruct (f x), (f y); auto. constructor.
    - eapply perm_trans; eauto.
  Qed.
  Lemma filter_filter' {A} (f g : A -> bool) l : filter f (filter g l) = filter (fun x => g x && f x) l.
  Proof.
    induction l as [|x r IH]; cbn; auto. destruct (g x); cbn; [|auto]. destruct (f x); cbn; congruence.
  Qed.
  Lemma idx_filter f (l : list el) : NoDup (map el_idx l) -> NoDup (map el_idx (filter f l)).
  Proof.
    induction l as [|x r IH]; cbn; auto. intros H. inversion H as [|? ? Hn Hd]; subst.
    destruct (f x); auto. cbn. constructor; auto. intros C. apply Hn.
    apply in_map_iff in C as (y & E & Hy). apply filter_In in Hy as [Hy _]. rewrite <- E. now apply in_map.
  Qed.
  Lemma idx_perm (l l' : list el) : Permutation l l' -> NoDup (map el_idx l) -> NoDup (map el_idx l').
  Proof. intros H. apply Permutation_NoDup. now apply Permutation_map. Qed.
  Lemma in_range_iff lo hi (e : el) : in_range lo hi e = true <-> (lo <= el_ts e)%Qc /\ (el_ts e < hi)%Qc.
  Proof. unfold in_range. rewrite andb_true_iff, Qcle_bool_iff, Qclt_bool_iff. tauto. Qed.
  Lemma filter_ext_in' {A} (f g : A -> bool) l : (forall x, In x l -> f x = g x) -> filter f l = filter g l.
  Proof. apply filter_ext_in. Qed.
  Lemma bool_eq (x y : bool) : (x = true <-> y = true) -> x = y.
  Proof. destruct x, y; intuition congruence. Qed.
  Lemma range_cut (s : list el) lo hi lo' hi' : (lo <= lo')%Qc -> (hi <= hi')%Qc ->
    filter (fun e => negb (older lo' e)) (range s lo hi) = filter (older hi) (range s lo' hi').
  Proof.
    intros L1 L2. unfold range. rewrite !filter_filter'. apply filter_ext_in'. intros e _.
    apply bool_eq. rewrite !andb_true_iff, negb_true_iff, !in_range_iff, older_true, older_false.
    split; intros; repeat split; try tauto; qord.
  Qed.
End cuts.

Section C50.
  Context {V SS : Type}.

  Lemma windowed_elements a (o : aoptions V) prev els : windowed a ->
    window_elements a o prev els = Ok (sorted els).
  Proof. intros [-> | [-> | ->]]; reflexivity. Qed.

  Lemma windowed_cut (stream prev els : list (element V)) lo hi lo' hi' :
    NoDup (map el_idx stream) -> chronological prev -> Permutation prev (range stream lo hi) ->
    Permutation els (range stream lo' hi') -> els <> [] -> (lo <= lo')%Qc -> (hi <= hi')%Qc ->
    exists out kept inc,
      prev = out ++ kept /\ sorted els = kept ++ inc /\
      resolve_outgoing prev (sorted els) = Ok out /\ resolve_incoming prev (sorted els) = inc /\
      (forall e, In e out <-> In e prev /\ ~ In e els) /\
      (forall e, In e inc <-> In e els /\ ~ In e prev).
  Proof.
    intros Hn Hs Hp Hw Hne L1 L2.
    pose (cur := sorted els).
    assert (Hcs : chronological cur) by apply sorted_chronological.
    assert (Hcp : Permutation cur els) by (symmetry; apply sorted_perm).
    assert (Hcr : Permutation cur (range stream lo' hi')) by (eapply perm_trans; eauto).
    pose (out := filter (older lo') prev). pose (kept := filter (fun e => negb (older lo' e)) prev).
    pose (inc := filter (fun e => negb (older hi e)) cur).
    assert (E1 : prev = out ++ kept) by (now apply chrono_split).
    assert (Ek : filter (older hi) cur = kept).
    { apply chronological_unique.
      - now apply chrono_filter.
      - now apply chrono_filter.
      - unfold kept. eapply perm_trans; [apply filter_perm, Hcr|].
        rewrite <- (range_cut stream lo hi lo' hi') by auto. symmetry. now apply filter_perm.
      - apply idx_filter. apply (idx_perm (range stream lo' hi')); [now symmetry | now apply idx_filter]. }
    assert (E2 : cur = kept ++ inc).
    { unfold inc. rewrite <- Ek. now apply chrono_split. }
    assert (Hin : forall e, In e prev -> (lo <= el_ts e)%Qc /\ (el_ts e < hi)%Qc).
    { intros e He. apply (Permutation_in _ Hp) in He. apply filter_In in He as [_ He]. now apply in_range_iff. }
    assert (Hin' : forall e, In e cur -> (lo' <= el_ts e)%Qc /\ (el_ts e < hi')%Qc).
    { intros e He. apply (Permutation_in _ Hcr) in He. apply filter_In in He as [_ He]. now apply in_range_iff. }
    assert (Ho : resolve_outgoing prev cur = Ok out).
    { assert (Hcn : cur <> []) by (now apply sorted_nonempty).
      destruct cur as [|c cur'] eqn:Ec; [congruence|]. rewrite E1.
      apply outgoing_cut.
      - apply Forall_forall. intros e He. apply filter_In in He as [_ He]. apply older_true in He.
        destruct (Hin' c (or_introl eq_refl)). qord.
      - destruct kept as [|k kept'] eqn:Ekk; auto. cbn in E2. injection E2 as -> _. apply Qcle_refl. }
    assert (Hi : resolve_incoming prev cur = inc).
    { destruct prev as [|p0 prev0] using rev_ind.
      - unfold resolve_incoming. cbn [rev]. rewrite E2. reflexivity.
      - clear IHprev0. rewrite E2. apply incoming_cut.
        + apply Forall_forall. intros e He. apply filter_In in He as [_ He].
          apply negb_true_iff, older_false in He. destruct (Hin p0); [apply in_app_iff; right; now left|]. qord.
        + destruct (rev kept) as [|k rk] eqn:Er; auto.
          assert (Hk : In k kept) by (apply in_rev; rewrite Er; now left).
          unfold kept in Hk. apply filter_In in Hk as [Hk _].
          apply in_app_iff in Hk as [Hk|[->|[]]]; [|apply Qcle_refl].
          apply chrono_app in Hs as (_ & _ & Hs). apply before_ts, Hs; [exact Hk | now left]. }
    exists out, kept, inc. split; [exact E1|]. split; [exact E2|]. split; [exact Ho|]. split; [exact Hi|].
    assert (Mem : forall e, In e els <-> In e cur).
      { intros e. split; apply Permutation_in; [now symmetry | auto]. }
      split; intros e; rewrite Mem.
      + unfold out. rewrite filter_In, older_true. split.
        * intros [H1 H2]. split; auto. intros C. apply Hin' in C. qord.
        * intros [H1 H2]. split; auto. rewrite E1 in H1. apply in_app_iff in H1 as [H1|H1].
          -- apply filter_In in H1 as [_ H1]. now apply older_true.
          -- exfalso. apply H2. rewrite E2. apply in_app_iff. now left.
      + unfold inc at 1. rewrite filter_In, negb_true_iff, older_false. split.
        * intros [H1 H2]. split; auto. intros C. apply Hin in C. qord.
        * intros [H1 H2]. split; auto. rewrite E2 in H1. apply in_app_iff in H1 as [H1|H1].
          -- exfalso. apply H2. rewrite E1. apply in_app_iff. now right.
          -- apply filter_In in H1 as [_ H1]. now apply older_false, negb_true_iff.
  Qed.

  (** Window k held the elements of [stream] in [lo, hi); window k+1 receives, in
      any order, those in [lo', hi'). *)
  Theorem C50_exact a (o : aoptions V) t0 (w : win V) (b : bags V SS) stream prev lo hi lo' hi' :
    windowed a -> NoDup (map el_idx stream) ->
    b_els b = [prev] -> chronological prev -> Permutation prev (range stream lo hi) ->
    Permutation (wn_els w) (range stream lo' hi') -> wn_els w <> [] ->
    (lo <= lo')%Qc -> (hi <= hi')%Qc -> current w b ->
    exists out kept inc,
      prev = out ++ kept /\ presents a o t0 w b (kept ++ inc) inc out /\
      chronological (kept ++ inc) /\ Permutation (kept ++ inc) (wn_els w) /\
      (forall e, In e out <-> In e prev /\ ~ In e (wn_els w)) /\
      (forall e, In e inc <-> In e (wn_els w) /\ ~ In e prev).
  Proof.
    intros Ha Hn Hb Hs Hp Hw Hne L1 L2 Hc.
    destruct (windowed_cut stream prev (wn_els w) lo hi lo' hi') as (out & kept & inc & E1 & E2 & Ho & Hi & HO & HI); auto.
    exists out, kept, inc. split; [exact E1|]. rewrite <- E2. split; [|split; [apply sorted_chronological | split; [symmetry; apply sorted_perm | auto]]].
    rewrite <- Hi at 1. assert (Ep : prev_els b = prev) by (unfold prev_els, last_or; now rewrite Hb).
    rewrite <- Ep at 1. apply presents_intro; auto.
    - now apply windowed_elements.
    - now rewrite Ep.
  Qed.
End C50.

Section C50_history.
  Context {V SS R : Type} (a : algorithm) (o : aoptions V) (cb : callbacks V SS R) (t0 : mtype).

  Lemma process_bags (w : win V) (b : bags V SS) els out :
    current w b -> window_elements a o (prev_els b) (wn_els w) = Ok els ->
    resolve_outgoing (prev_els b) els = Ok out ->
    b_els (fst (process a o cb t0 w b)) = [els] /\ b_ts (fst (process a o cb t0 w b)) = [wn_ts w].
  Proof.
    intros Hc He Ho. unfold process. apply current_test in Hc. rewrite Hc.
    unfold prev_els, last_or in *. rewrite He, Ho.
    destruct (cb_map _ _ _ _ _ _) as [pm [m|e]].
    - destruct (match a with Attenuation => _ | _ => _ end) as [m1 [x|e]]; [|split; reflexivity].
      destruct (cb_solve _ _ _ _ _ _) as [m2 [ss|e]]; split; reflexivity.
    - destruct (_ && _); split; reflexivity.
  Qed.
  Lemma process_bags_windowed (w : win V) (b : bags V SS) :
    windowed a -> current w b -> wn_els w <> [] ->
    b_els (fst (process a o cb t0 w b)) = [sorted (wn_els w)] /\
    b_ts (fst (process a o cb t0 w b)) = [wn_ts w].
  Proof.
    intros Ha Hc Hne.
    destruct (outgoing_ok (prev_els b) (sorted (wn_els w))) as [out Ho]; [now apply sorted_nonempty|].
    eapply process_bags; eauto. now apply windowed_elements.
  Qed.

  Lemma end_of_cons hi lo' hi' rs : end_of hi ((lo', hi') :: rs) = end_of hi' rs.
  Proof. unfold end_of. cbn [map snd]. destruct (map snd rs) eqn:E; auto. cbn [last]. clear E. revert q. induction l; intros; auto. cbn [last]. destruct l; auto. Qed.
  Lemma moving_end (stream : list (element V)) lo hi rs : moving stream lo hi rs -> (hi <= end_of hi rs)%Qc.
  Proof.
    revert lo hi. induction rs as [|[lo' hi'] rs IH]; intros lo hi; cbn [moving].
    - intros _. apply Qcle_refl.
    - intros (_ & H & _ & _ & Hm). rewrite end_of_cons. apply IH in Hm. qord.
  Qed.
  Lemma range_split (s : list (element V)) lo lo' hi : (lo <= lo')%Qc -> (lo' <= hi)%Qc ->
    Permutation (range s lo hi) (range s lo lo' ++ range s lo' hi).
  Proof.
    intros L1 L2. unfold range. induction s as [|e r IH]; auto. cbn [filter].
    destruct (in_range lo hi e) eqn:E; destruct (in_range lo lo' e) eqn:E1; destruct (in_range lo' hi e) eqn:E2;
      cbn [app]; auto; try (now apply Permutation_cons_app);
      exfalso; rewrite ?in_range_iff in *;
      repeat match goal with H : in_range _ _ _ = false |- _ =>
        apply not_true_iff_false in H; rewrite in_range_iff in H end;
      destruct (Qclt_le_dec (el_ts e) lo');
      intuition (try qord).
  Qed.

  Lemma history_windowed stream rs : forall ws (b : bags V SS) prev lo hi t,
    windowed a -> NoDup (map el_idx stream) ->
    b_ts b = [t] -> in_time t ws ->
    b_els b = [prev] -> chronological prev -> Permutation prev (range stream lo hi) -> (lo <= hi)%Qc ->
    moving stream lo hi rs ->
    Forall2 (fun r w => wn_els w <> [] /\ Permutation (wn_els w) (range stream (fst r) (snd r))) rs ws ->
    exists log,
      presented a o cb t0 b ws log /\
      prev ++ concat (incoming_of log) = concat (outgoing_of log) ++ last (elements_of log) prev /\
      chronological (prev ++ concat (incoming_of log)) /\
      Permutation (prev ++ concat (incoming_of log)) (range stream lo (end_of hi rs)).
  Proof.
    induction rs as [|[lo' hi'] rs IH]; intros ws b prev lo hi t Ha Hn Ht Hit Hb Hs Hp Hlh Hm Hf;
      inversion Hf as [|? w ? ws' [Hne Hw] Hf']; subst.
    - exists []. cbn. rewrite !app_nil_r. repeat split; auto.
    - cbn [moving] in Hm. destruct Hm as (L1 & L3 & L4 & Hgap & Hm). cbn [in_time] in Hit. destruct Hit as [Lt Hit].
      cbn [fst snd] in *.
      assert (Hc : current w b).
      { intros t' <-. rewrite Ht. exact Lt. }
      destruct (C50_exact a o t0 w b stream prev lo hi lo' hi')
        as (out & kept & inc & E1 & Hpr & Hcs & Hcp & Hout & Hinc); auto.
      destruct (process_bags_windowed w b Ha Hc Hne) as [Be Bt].
      assert (Es : sorted (wn_els w) = kept ++ inc).
      { apply sorted_unique; auto; [now symmetry|].
        apply (idx_perm (range stream lo' hi')); [now symmetry | now apply idx_filter]. }
      rewrite Es in Be.
      assert (Hcr : Permutation (kept ++ inc) (range stream lo' hi')) by (eapply perm_trans; eauto).
      destruct (IH ws' (fst (process a o cb t0 w b)) (kept ++ inc) lo' hi' (wn_ts w))
        as (log & Hlog & Hcons & Hch & Hperm); auto.
      exists ((kept ++ inc, inc, out) :: log). split; [cbn [presented]; auto|].
      unfold incoming_of, outgoing_of, elements_of in *. cbn [map fst snd concat].
      set (incs := concat (map (fun x => snd (fst x)) log)) in *.
      set (outs := concat (map snd log)) in *.
      assert (EL : last ((kept ++ inc) :: map (fun x => fst (fst x)) log) prev
                   = last (map (fun x => fst (fst x)) log) (kept ++ inc)).
      { clear. destruct (map (fun x => fst (fst x)) log) as [|x l] eqn:E; auto. cbn [last]. clear E.
        revert x. induction l; intros; auto. cbn [last]. destruct l; auto. }
      rewrite EL. rewrite <- app_assoc, <- Hcons, E1.
      assert (Eq : (out ++ kept) ++ inc ++ incs = out ++ (kept ++ inc) ++ incs) by (now rewrite <- !app_assoc).
      split; [exact Eq|]. rewrite Eq.
      assert (Hall : forall e, In e ((kept ++ inc) ++ incs) -> (lo' <= el_ts e)%Qc).
      { intros e He. apply (Permutation_in _ Hperm) in He. apply filter_In in He as [_ He].
        now apply in_range_iff in He. }
      assert (Hold : forall e, In e out -> (el_ts e < lo')%Qc).
      { intros e He. destruct (Qclt_le_dec (el_ts e) lo') as [|C]; auto. exfalso.
        apply Hout in He as [He1 He2]. apply He2.
        apply (Permutation_in _ Hp), filter_In in He1 as [He1 He3]. apply in_range_iff in He3.
        apply (Permutation_in _ (Permutation_sym Hw)). apply filter_In. split; auto.
        apply in_range_iff. split; [auto | qord]. }
      assert (Hkept : forall e, In e kept -> (lo' <= el_ts e)%Qc).
      { intros e He. apply Hall. apply in_app_iff. left. apply in_app_iff. now left. }
      split.
      + apply chrono_app. split; [|split; auto].
        * rewrite E1 in Hs. now apply chrono_app in Hs.
        * intros x y Hx Hy. left. apply Hold in Hx. apply Hall in Hy. qord.
      + rewrite end_of_cons. pose proof (moving_end _ _ _ _ Hm) as Hme.
        eapply perm_trans; [|symmetry; apply range_split with (lo' := lo'); [auto | qord]].
        apply Permutation_app; auto.
        assert (Eo : filter (older lo') prev = out).
        { rewrite E1, filter_app.
          replace (filter (older lo') kept) with (@nil (element V)).
          - rewrite app_nil_r. clear -Hold. induction out as [|e r IH]; auto. cbn [filter].
            assert (older lo' e = true) as -> by (apply older_true, Hold; now left).
            f_equal. apply IH. intros; apply Hold; now right.
          - clear -Hkept. induction kept as [|e r IH]; auto. cbn [filter].
            assert (older lo' e = false) as -> by (apply older_false, Hkept; now left).
            apply IH. intros; apply Hkept; now right. }
        rewrite <- Eo. eapply perm_trans; [apply filter_perm, Hp|].
        unfold range. rewrite filter_filter'.
        erewrite filter_ext_in'; [apply Permutation_refl|]. intros e He. apply bool_eq.
        rewrite andb_true_iff, !in_range_iff, older_true. split; [tauto|].
        intros [H1 H2]. repeat split; auto. destruct (Qclt_le_dec (el_ts e) hi); auto.
        exfalso. now apply (Hgap e).
  Qed.

  (** From an empty state: windows whose ranges move forward without skipping
      an element, with timestamps from -1 on, never going back. The incoming elements of all
      windows, put together, are the elements of the stream up to the end of the
      last range, each once, in chronological order; and they are the outgoing
      ones followed by those of the last window. *)
  Theorem C50_history stream lo hi rs w ws :
    windowed a -> a <> Attenuation -> NoDup (map el_idx stream) ->
    in_time (- (1))%Qc (w :: ws) -> (lo <= hi)%Qc -> moving stream lo hi rs ->
    Forall2 (fun r w => wn_els w <> [] /\ Permutation (wn_els w) (range stream (fst r) (snd r)))
            ((lo, hi) :: rs) (w :: ws) ->
    exists log,
      presented a o cb t0 no_bags (w :: ws) log /\
      chronological (concat (incoming_of log)) /\
      Permutation (concat (incoming_of log)) (range stream lo (end_of hi rs)) /\
      concat (incoming_of log) = concat (outgoing_of log) ++ last (elements_of log) [].
  Proof.
    intros Ha _ Hn [Lt Hit] Hlh Hm Hf. inversion Hf as [|? ? ? ? [Hne Hw] Hf']; subst. cbn [fst snd] in *.
    assert (Hc : current w (@no_bags V SS)) by (intros t' <-; exact Lt).
    destruct (process_bags_windowed w no_bags Ha Hc Hne) as [Be Bt].
    destruct (history_windowed stream rs ws (fst (process a o cb t0 w no_bags)) (sorted (wn_els w)) lo hi (wn_ts w))
      as (log & Hlog & Hcons & Hch & Hperm); auto.
    - apply sorted_chronological.
    - eapply perm_trans; [symmetry; apply sorted_perm | exact Hw].
    - exists ((sorted (wn_els w), sorted (wn_els w), []) :: log). split; [|split; [|split]].
      + cbn [presented]. split; auto.
        apply (presents_intro a o t0 w no_bags (sorted (wn_els w)) []); auto. now apply windowed_elements.
      + exact Hch.
      + exact Hperm.
      + cbn. unfold incoming_of, outgoing_of, elements_of in Hcons. rewrite Hcons. f_equal.
        clear. destruct (map (fun x => fst (fst x)) log) as [|x l] eqn:E; auto. clear E.
        revert x. induction l as [|y l IH]; intros; cbn [last]; auto.
        specialize (IH y). cbn [last] in IH. destruct l; auto.
  Qed.
End C50_history.

(** ** C51, C52 *)
Section C51.
  Context {V SS R : Type} (o : aoptions V) (cb : callbacks V SS R) (t0 : mtype).
  Notation el := (element V).

  Lemma outgoing_none (prev cur : list el) :
    chronological cur -> (forall e, In e prev -> In e cur) -> resolve_outgoing prev cur = Ok [].
  Proof.
    intros Hs Hi. destruct prev as [|p r]; [reflexivity|]. cbn.
    destruct cur as [|c cur]; [destruct (Hi p); now left|].
    replace (Qcle_bool (el_ts c) (el_ts p)) with true; auto. symmetry. apply Qcle_bool_iff.
    destruct (Hi p) as [->|H]; [now left | apply Qcle_refl|].
    inversion Hs as [|? ? _ Hf]; subst. rewrite Forall_forall in Hf. now apply before_ts, Hf.
  Qed.
  Lemma incremental_step (w : win V) (b : bags V SS) :
    current w b ->
    let els := sorted (sorted (wn_els w) ++ prev_els b) in
    presents Incremental o t0 w b els (resolve_incoming (prev_els b) els) [] /\
    b_els (fst (process Incremental o cb t0 w b)) = [els] /\
    b_ts (fst (process Incremental o cb t0 w b)) = [wn_ts w].
  Proof.
    intros Hc els.
    assert (Ho : resolve_outgoing (prev_els b) els = Ok []).
    { apply outgoing_none; [apply sorted_chronological|]. intros e He. unfold els.
      eapply Permutation_in; [apply sorted_perm|]. apply in_app_iff. now right. }
    split; [now apply presents_intro | eapply process_bags; [exact Hc | reflexivity | exact Ho]].
  Qed.

  Theorem C51_accumulates : forall (ws : list (win V)) (b : bags V SS) t seen,
    b_ts b = [t] -> b_els b = [seen] -> in_time t ws ->
    exists log,
      presented Incremental o cb t0 b ws log /\
      outgoing_of log = map (fun _ => []) ws /\
      forall k els, nth_error (elements_of log) k = Some els ->
        chronological els /\ Permutation els (seen ++ concat (map wn_els (firstn (S k) ws))).
  Proof.
    induction ws as [|w ws IH]; intros b t seen Ht He Hit.
    - exists []. repeat split; auto; destruct k; discriminate.
    - destruct Hit as [Lt Hit].
      assert (Hc : current w b) by (intros t' <-; now rewrite Ht).
      destruct (incremental_step w b Hc) as (Hp & Be & Bt).
      assert (Es : prev_els b = seen) by (unfold prev_els; now rewrite He). rewrite Es in *.
      set (els := sorted (sorted (wn_els w) ++ seen)) in *.
      assert (Hel : Permutation els (seen ++ wn_els w)).
      { unfold els. symmetry. eapply perm_trans; [|apply sorted_perm].
        eapply perm_trans; [apply Permutation_app_comm|]. apply Permutation_app_tail, sorted_perm. }
      destruct (IH _ _ els Bt Be Hit) as (log & Hlog & Hout & Hels).
      exists ((els, resolve_incoming seen els, []) :: log). split; [cbn [presented]; auto|].
      split; [cbn; now f_equal|]. intros [|k] els' E; cbn in E.
      + injection E as <-. cbn [firstn map concat]. rewrite app_nil_r. split; [apply sorted_chronological | auto].
      + destruct (Hels k els' E) as [H1 H2]. split; auto.
        eapply perm_trans; [exact H2|]. cbn [firstn map concat]. rewrite app_assoc.
        now apply Permutation_app_tail.
  Qed.
  (** From an empty state. *)
  Theorem C51_history (ws : list (win V)) :
    in_time (- (1))%Qc ws ->
    exists log,
      presented Incremental o cb t0 no_bags ws log /\
      outgoing_of log = map (fun _ => []) ws /\
      forall k els, nth_error (elements_of log) k = Some els ->
        chronological els /\ Permutation els (concat (map wn_els (firstn (S k) ws))).
  Proof.
    destruct ws as [|w ws]; intros Hit.
    - exists []. repeat split; auto; destruct k; discriminate.
    - destruct Hit as [Lt Hit].
      assert (Hc : current w (@no_bags V SS)) by (intros t' <-; exact Lt).
      destruct (incremental_step w no_bags Hc) as (Hp & Be & Bt).
      change (prev_els (@no_bags V SS)) with (@nil el) in *. rewrite app_nil_r in *.
      destruct (C51_accumulates ws _ _ _ Bt Be Hit) as (log & Hlog & Hout & Hels).
      exists ((sorted (sorted (wn_els w)), sorted (sorted (wn_els w)), []) :: log).
      split; [cbn [presented]; auto|]. split; [cbn; now f_equal|].
      assert (Hel : Permutation (sorted (sorted (wn_els w))) (wn_els w)).
      { symmetry. eapply perm_trans; apply sorted_perm. }
      intros [|k] els' E; cbn in E.
      + injection E as <-. cbn [firstn map concat]. rewrite app_nil_r. split; [apply sorted_chronological | auto].
      + destruct (Hels k els' E) as [H1 H2]. split; auto.
        eapply perm_trans; [exact H2|]. cbn [firstn map concat]. now apply Permutation_app_tail.
  Qed.

  Lemma incoming_all (prev els : list el) :
    chronological els -> (forall p e, In p prev -> In e els -> (el_ts p < el_ts e)%Qc) ->
    resolve_incoming prev (prev ++ els) = els.
  Proof.
    intros Hs Hl. destruct prev as [|p prev _] using rev_ind; [reflexivity|].
    apply incoming_cut.
    - apply Forall_forall. intros e He. apply Hl; auto. apply in_app_iff. right. now left.
    - rewrite rev_app_distr. cbn. apply Qcle_refl.
  Qed.

  (** What is missing: elements that arrive late, see C52_refuted. *)
  Lemma C52_from : forall (ws : list (win V)) (b : bags V SS) t seen,
    b_ts b = [t] -> b_els b = [seen] -> chronological seen -> in_time t ws -> arriving seen ws ->
    NoDup (map el_idx (seen ++ concat (map wn_els ws))) ->
    exists log,
      presented Incremental o cb t0 b ws log /\
      Forall2 (fun w inc => chronological inc /\ Permutation inc (wn_els w)) ws (incoming_of log).
  Proof.
    induction ws as [|w ws IH]; intros b t seen Ht He Hsc Hit Har Hn.
    - exists []. repeat split; auto. constructor.
    - destruct Hit as [Lt Hit]. destruct Har as [Hl Har].
      assert (Hc : current w b) by (intros t' <-; now rewrite Ht).
      destruct (incremental_step w b Hc) as (Hp & Be & Bt).
      assert (Es : prev_els b = seen) by (unfold prev_els; now rewrite He). rewrite Es in *.
      assert (Hl' : forall p e, In p seen -> In e (sorted (wn_els w)) -> (el_ts p < el_ts e)%Qc).
      { intros p e Hi Hj. apply Hl; auto. eapply Permutation_in; [symmetry; apply sorted_perm | exact Hj]. }
      cbn [map concat] in Hn.
      assert (Hw : Permutation (sorted (wn_els w) ++ seen) (seen ++ wn_els w)).
      { eapply perm_trans; [apply Permutation_app_comm|]. apply Permutation_app_head. symmetry. apply sorted_perm. }
      assert (Hels : sorted (sorted (wn_els w) ++ seen) = seen ++ sorted (wn_els w)).
      { apply sorted_unique.
        - apply chrono_app. split; auto. split; [apply sorted_chronological|].
          intros x y Hx Hy. left. now apply Hl'.
        - apply Permutation_app_comm.
        - apply (idx_perm (seen ++ wn_els w)); [now symmetry|].
          rewrite app_assoc, map_app in Hn. now apply NoDup_app_iff in Hn. }
      rewrite Hels in *.
      assert (Hin : resolve_incoming seen (seen ++ sorted (wn_els w)) = sorted (wn_els w)).
      { apply incoming_all; auto. apply sorted_chronological. }
      rewrite Hin in Hp.
      destruct (IH _ _ _ Bt Be) as (log & Hlog & Hinc); auto.
      + apply chrono_app. split; auto. split; [apply sorted_chronological|].
        intros x y Hx Hy. left. now apply Hl'.
      + clear -Har. revert Har. assert (G : forall l l' : list el, (forall x, In x l' -> In x l) -> arriving l ws -> arriving l' ws).
        { induction ws as [|w' ws IH]; intros l l' Hi; cbn [arriving]; auto. intros [H1 H2]. split.
          - intros p e Hp. apply H1; auto.
          - eapply IH; [|exact H2]. intros x. rewrite !in_app_iff. intros [H|H]; auto. }
        apply G. intros x. rewrite !in_app_iff. intros [H|H]; auto. right.
        eapply Permutation_in; [symmetry; apply sorted_perm | exact H].
      + rewrite <- app_assoc. apply (idx_perm (seen ++ wn_els w ++ concat (map wn_els ws))); auto.
        apply Permutation_app_head, Permutation_app_tail, sorted_perm.
      + exists ((seen ++ sorted (wn_els w), sorted (wn_els w), []) :: log). split; [cbn [presented]; auto|].
        constructor; auto. split; [apply sorted_chronological | symmetry; apply sorted_perm].
  Qed.
  Theorem C52_in_order_partial (ws : list (win V)) :
    in_time (- (1))%Qc ws -> arriving [] ws -> NoDup (map el_idx (concat (map wn_els ws))) ->
    exists log,
      presented Incremental o cb t0 no_bags ws log /\
      Forall2 (fun w inc => chronological inc /\ Permutation inc (wn_els w)) ws (incoming_of log).
  Proof.
    destruct ws as [|w ws]; intros Hit Har Hn.
    - exists []. repeat split; auto. constructor.
    - destruct Hit as [Lt Hit]. destruct Har as [_ Har]. cbn [app] in Har.
      assert (Hc : current w (@no_bags V SS)) by (intros t' <-; exact Lt).
      destruct (incremental_step w no_bags Hc) as (Hp & Be & Bt).
      change (prev_els (@no_bags V SS)) with (@nil el) in *. rewrite app_nil_r in *.
      cbn [map concat] in Hn.
      destruct (C52_from ws _ _ _ Bt Be) as (log & Hlog & Hinc); auto.
      + apply sorted_chronological.
      + clear -Har. revert Har. assert (G : forall l l' : list el, (forall x, In x l' -> In x l) -> arriving l ws -> arriving l' ws).
        { induction ws as [|w' ws IH]; intros l l' Hi; cbn [arriving]; auto. intros [H1 H2]. split.
          - intros p e Hp. apply H1; auto.
          - eapply IH; [|exact H2]. intros x. rewrite !in_app_iff. intros [H|H]; auto. }
        apply G. intros x Hx.
        eapply Permutation_in; [symmetry; apply sorted_perm|].
        eapply Permutation_in; [symmetry; apply sorted_perm|exact Hx].
      + apply (idx_perm (wn_els w ++ concat (map wn_els ws))); auto.
        apply Permutation_app_tail. eapply perm_trans; apply sorted_perm.
      + exists ((sorted (sorted (wn_els w)), sorted (sorted (wn_els w)), []) :: log). split; [cbn [presented]; auto|].
        constructor; auto. split; [apply sorted_chronological|].
        symmetry. eapply perm_trans; apply sorted_perm.
  Qed.
End C51.

(** ** C53 *)
Section C53.
  Context {V SS : Type} (o : aoptions V) (t0 : mtype).
  Notation el := (element V).

  Lemma rfilter_total (f : el -> res bool) g l : (forall e, f e = Ok (g e)) -> rfilter f l = Ok (filter g l).
  Proof. intros Hf. induction l as [|x r IH]; cbn; auto. rewrite Hf, IH. cbn. destruct (g x); reflexivity. Qed.

  Lemma outgoing_prefix (prev cur : list el) c out :
    resolve_outgoing prev (c :: cur) = Ok out -> Forall (fun e => (el_ts e < el_ts c)%Qc) out /\ exists k, prev = out ++ k.
  Proof.
    revert out. induction prev as [|p r IH]; intros out; cbn.
    - intros E. injection E as <-. split; [constructor | now exists []].
    - destruct (Qcle_bool (el_ts c) (el_ts p)) eqn:L.
      + intros E. injection E as <-. split; [constructor | now eexists].
      + apply Qcle_bool_false in L. cbn in IH. destruct (resolve_outgoing r (c :: cur)) as [x|]; cbn; [|discriminate].
        intros E. injection E as <-. destruct (IH x eq_refl) as [H1 [k ->]].
        split; [now constructor | now exists k].
  Qed.

  (** Sound: the elements are exact, and only dropped elements are outgoing. *)
  Theorem C53_elements (w : win V) (b : bags V SS) f g :
    ao_filter o = Some f -> (forall e, f e = Ok (g e)) -> current w b -> wn_els w <> [] ->
    exists els inc out,
      presents Partial o t0 w b els inc out /\
      chronological els /\ Permutation els (filter g (last (b_els b) []) ++ wn_els w) /\
      (forall e, In e out -> In e (last (b_els b) []) /\ ~ In e els).
  Proof.
    intros Hf Hg Hc Hne. fold (prev_els b).
    pose (els := sorted (filter g (prev_els b) ++ sorted (wn_els w))).
    assert (He : window_elements Partial o (prev_els b) (wn_els w) = Ok els).
    { cbn. rewrite Hf, (rfilter_total f g) by auto. reflexivity. }
    assert (Hnn : els <> []).
    { apply sorted_nonempty. pose proof (sorted_nonempty _ Hne).
      destruct (sorted (wn_els w)); [congruence|]. now destruct (filter g (prev_els b)). }
    destruct (outgoing_ok (prev_els b) els Hnn) as [out Ho].
    exists els, (resolve_incoming (prev_els b) els), out. split; [now apply presents_intro|].
    split; [apply sorted_chronological|]. split.
    - symmetry. eapply perm_trans; [|apply sorted_perm]. apply Permutation_app_head, sorted_perm.
    - intros e Hi. assert (Hs : chronological els) by apply sorted_chronological.
      destruct els as [|c cur]; [congruence|].
      apply outgoing_prefix in Ho as [H1 [k H2]]. split; [rewrite H2; apply in_app_iff; now left|].
      rewrite Forall_forall in H1. specialize (H1 _ Hi). intros [->|C]; [qord|].
      inversion Hs as [|? ? _ Hfa]; subst. rewrite Forall_forall in Hfa. specialize (Hfa _ C).
      apply before_ts in Hfa. qord.
  Qed.

  (** Complete when the dropped elements are older than everything else; what is
      missing: filters that drop anything else, see C53_refuted. *)
  Theorem C53_outgoing_partial (w : win V) (b : bags V SS) f g :
    ao_filter o = Some f -> (forall e, f e = Ok (g e)) -> current w b -> wn_els w <> [] ->
    chronological (last (b_els b) []) ->
    (forall d e, In d (last (b_els b) []) -> g d = false ->
       (In e (last (b_els b) []) /\ g e = true) \/ In e (wn_els w) -> (el_ts d < el_ts e)%Qc) ->
    exists els inc,
      presents Partial o t0 w b els inc (filter (fun e => negb (g e)) (last (b_els b) [])).
  Proof.
    intros Hf Hg Hc Hne Hs Hd. fold (prev_els b) in *.
    pose (els := sorted (filter g (prev_els b) ++ sorted (wn_els w))).
    assert (He : window_elements Partial o (prev_els b) (wn_els w) = Ok els).
    { cbn. rewrite Hf, (rfilter_total f g) by auto. reflexivity. }
    exists els, (resolve_incoming (prev_els b) els). apply presents_intro; auto.
    assert (Hm : forall e, In e els <-> (In e (prev_els b) /\ g e = true) \/ In e (wn_els w)).
    { intros e. rewrite <- filter_In.
      assert (P : Permutation els (filter g (prev_els b) ++ wn_els w)).
      { symmetry. eapply perm_trans; [|apply sorted_perm]. apply Permutation_app_head, sorted_perm. }
      rewrite <- in_app_iff. split; apply Permutation_in; [auto | now symmetry]. }
    assert (Hnn : els <> []).
    { destruct (wn_els w) as [|x xs]; [congruence|]. intros E.
      assert (H : In x els) by (apply Hm; right; now left). now rewrite E in H. }
    assert (Hcs : chronological els) by apply sorted_chronological.
    destruct els as [|c cur] eqn:Ec; [congruence|]. clear Ec He Hnn.
    assert (Es : prev_els b = filter (fun e => negb (g e)) (prev_els b) ++ filter g (prev_els b)).
    { clear -Hs Hd. induction (prev_els b) as [|x r IH]; auto. cbn [filter].
      inversion Hs as [|? ? Hs' Hfa]; subst. rewrite Forall_forall in Hfa.
      assert (IH' : r = filter (fun e => negb (g e)) r ++ filter g r).
      { apply IH; auto. intros d e H1 H2 H3. apply Hd; auto; [now right|]. destruct H3 as [[H3 H4]|H3]; auto.
        left. split; auto. now right. }
      destruct (g x) eqn:Eg; cbn [negb]; [|cbn [app]; now f_equal].
      replace (filter (fun e => negb (g e)) r) with (@nil el) in *; [cbn [app] in *; now f_equal|].
      destruct (filter (fun e => negb (g e)) r) as [|y l] eqn:Ef; auto. exfalso.
      assert (Hy : In y (filter (fun e => negb (g e)) r)) by (rewrite Ef; now left).
      apply filter_In in Hy as [Hy Hgy]. apply negb_true_iff in Hgy.
      assert ((el_ts y < el_ts x)%Qc) by (apply Hd; [now right | auto | left; split; [now left | auto]]).
      specialize (Hfa _ Hy). apply before_ts in Hfa. qord. }
    rewrite Es at 1. apply outgoing_cut.
    - apply Forall_forall. intros d Hdi. apply filter_In in Hdi as [H1 H2]. apply negb_true_iff in H2.
      apply Hd; auto. apply Hm. now left.
    - destruct (filter g (prev_els b)) as [|k ks] eqn:Ek; auto.
      assert (Hk : In k (c :: cur)).
      { apply Hm. left. apply filter_In. rewrite Ek. now left. }
      destruct Hk as [->|Hk]; [apply Qcle_refl|].
      inversion Hcs as [|? ? _ Hfa]; subst. rewrite Forall_forall in Hfa. now apply before_ts, Hfa.
  Qed.
End C53.
Print Assumptions C48_outdated.
Print Assumptions C48_recorded.
Print Assumptions C48_monotone.
Print Assumptions C48_history.
Print Assumptions C49_state.
Print Assumptions C49_one_output.
Print Assumptions C49_never_raises.
Print Assumptions C50_exact.
Print Assumptions C50_history.
Print Assumptions C51_accumulates.
Print Assumptions C51_history.
Print Assumptions C52_in_order_partial.
Print Assumptions C53_elements.
Print Assumptions C53_outgoing_partial.
