(** * PropsExactStream: what a window presents as incoming and outgoing, exactly
    (C115), and the exact effects behind C68-C71 and C73. *)
From Coq Require Import Sorted Permutation.
From Verif Require Import PyBase PyLemmas Numbers Constraint LogicalModel Spec LogicalProofs ConstraintProofs
  ToPhysicalProofs PropsPhysical Samples Solver SolverProofs.
From Verif Require Import Stream StreamSpec PropsPenalty PropsStream PropsPipeline PropsAttenuation.
Open Scope list_scope.

(** An element later than every one of [prev]; earlier than every one of [cur]. *)
Definition later_than_all {V} (prev : list (element V)) (e : element V) : bool :=
  forallb (fun p => Qclt_bool (el_ts p) (el_ts e)) prev.
Definition earlier_than_all {V} (cur : list (element V)) (p : element V) : bool :=
  forallb (fun e => Qclt_bool (el_ts p) (el_ts e)) cur.

Section exact.
  Context {V : Type}.
  Notation el := (element V).

  Lemma later_than_all_iff prev (e : el) :
    later_than_all prev e = true <-> forall p, In p prev -> (el_ts p < el_ts e)%Qc.
  Proof.
    unfold later_than_all. rewrite forallb_forall.
    split; intros H p Hp; specialize (H p Hp); now apply Qclt_bool_iff.
  Qed.
  Lemma earlier_than_all_iff cur (p : el) :
    earlier_than_all cur p = true <-> forall e, In e cur -> (el_ts p < el_ts e)%Qc.
  Proof.
    unfold earlier_than_all. rewrite forallb_forall.
    split; intros H e He; specialize (H e He); now apply Qclt_bool_iff.
  Qed.

  Lemma chrono_first (c : el) cur e : chronological (c :: cur) -> In e (c :: cur) -> (el_ts c <= el_ts e)%Qc.
  Proof.
    intros Hs [<-|Hi]; [qord|]. inversion Hs as [|? ? _ Hf]; subst. rewrite Forall_forall in Hf.
    apply before_ts. auto.
  Qed.
  Lemma chrono_last (prev : list el) p e : chronological (prev ++ [p]) -> In e (prev ++ [p]) -> (el_ts e <= el_ts p)%Qc.
  Proof.
    intros Hs Hi. apply in_app_iff in Hi as [Hi|[<-|[]]]; [|qord].
    apply chrono_app in Hs as (_ & _ & Hb). apply before_ts. apply Hb; auto. now left.
  Qed.

  Lemma outgoing_exact (prev cur : list el) : chronological prev -> chronological cur -> cur <> [] ->
    resolve_outgoing prev cur = Ok (filter (earlier_than_all cur) prev).
  Proof.
    intros Hp Hc Hn. destruct cur as [|c cur]; [congruence|].
    assert (Ex : forall p, earlier_than_all (c :: cur) p = older (el_ts c) p).
    { intros p. apply bool_eq. rewrite earlier_than_all_iff, older_true. split.
      - intros H. apply H. now left.
      - intros H e He. pose proof (chrono_first _ _ _ Hc He). qord. }
    rewrite (filter_ext _ _ Ex).
    rewrite (chrono_split (el_ts c) prev Hp) at 1. apply outgoing_cut.
    - apply Forall_forall. intros e He. apply filter_In in He as [_ He]. now apply older_true.
    - destruct (filter (fun e => negb (older (el_ts c) e)) prev) as [|k r] eqn:Ek; [exact I|].
      assert (Hi : In k (filter (fun e => negb (older (el_ts c) e)) prev)) by (rewrite Ek; now left).
      apply filter_In in Hi as [_ Hi]. apply negb_true_iff in Hi. now apply older_false.
  Qed.

  Definition newer (t : Qc) (e : el) : bool := Qclt_bool t (el_ts e).
  Lemma newer_split t (l : list el) : chronological l ->
    l = filter (fun e => negb (newer t e)) l ++ filter (newer t) l.
  Proof.
    induction 1 as [|x r Hs IH Hf]; auto. cbn [filter].
    destruct (newer t x) eqn:E; cbn [negb app]; [|now f_equal].
    assert (F : filter (fun e => negb (newer t e)) r = []).
    { apply Qclt_bool_iff in E. rewrite Forall_forall in Hf.
      destruct (filter (fun e => negb (newer t e)) r) as [|y s] eqn:Ef; auto. exfalso.
      assert (H : In y (filter (fun e => negb (newer t e)) r)) by (rewrite Ef; now left).
      apply filter_In in H as [H1 H2]. apply negb_true_iff in H2. apply Qclt_bool_false in H2.
      specialize (Hf _ H1). apply before_ts in Hf. qord. }
    rewrite F in IH. rewrite F. cbn [app] in *. now f_equal.
  Qed.

  Lemma incoming_exact (prev cur : list el) : chronological prev -> chronological cur ->
    resolve_incoming prev cur = filter (later_than_all prev) cur.
  Proof.
    intros Hp Hc. destruct prev as [|p0 prev0] eqn:Epv.
    - cbn. clear. induction cur as [|x r IH]; cbn; congruence.
    - rewrite <- Epv in *. destruct (@exists_last _ prev) as (prev' & p & ->); [subst; discriminate|].
      clear Epv p0 prev0.
      assert (Ex : forall e, later_than_all (prev' ++ [p]) e = newer (el_ts p) e).
      { intros e. apply bool_eq. rewrite later_than_all_iff. unfold newer. rewrite Qclt_bool_iff. split.
        - intros H. apply H. apply in_app_iff. right. now left.
        - intros H q Hq. pose proof (chrono_last _ _ _ Hp Hq). qord. }
      rewrite (filter_ext _ _ Ex).
      rewrite (newer_split (el_ts p) cur Hc) at 1. apply incoming_cut.
      + apply Forall_forall. intros e He. apply filter_In in He as [_ He]. now apply Qclt_bool_iff.
      + destruct (rev (filter (fun e => negb (newer (el_ts p) e)) cur)) as [|k r] eqn:Ek; [exact I|].
        assert (Hi : In k (filter (fun e => negb (newer (el_ts p) e)) cur)).
        { apply in_rev. rewrite Ek. now left. }
        apply filter_In in Hi as [_ Hi]. apply negb_true_iff in Hi. now apply Qclt_bool_false.
  Qed.
End exact.

(** The elements of a window: those received; with incremental the stored ones
    too, with partial the stored ones the filter keeps. *)
Definition assembled {V} (a : algorithm) (keep : element V -> bool) (prev received : list (element V)) : list (element V) :=
  match a with
  | Incremental => prev ++ received
  | Partial => filter keep prev ++ received
  | _ => received
  end.

Section C115.
  Context {V SS : Type} (a : algorithm) (o : aoptions V) (t0 : mtype) (keep : element V -> bool).
  Hypothesis Hkeep : a = Partial -> exists f, ao_filter o = Some f /\ forall e, f e = Ok (keep e).

  Lemma assembled_elements (prev received : list (element V)) : received <> [] ->
    exists els, window_elements a o prev received = Ok els /\ chronological els /\
                Permutation els (assembled a keep prev received) /\ els <> [].
  Proof.
    intros Hne. unfold window_elements, assembled. pose proof (sorted_nonempty _ Hne) as Hs.
    destruct a.
    - eexists. split; [reflexivity|]. split; [apply sorted_chronological|]. split; [|exact Hs]. symmetry. apply sorted_perm.
    - eexists. split; [reflexivity|]. split; [apply sorted_chronological|]. split; [|exact Hs]. symmetry. apply sorted_perm.
    - eexists. split; [reflexivity|]. split; [apply sorted_chronological|]. split.
      + symmetry. eapply perm_trans; [|apply sorted_perm].
        first [apply Permutation_app_head, sorted_perm
              | eapply perm_trans; [apply Permutation_app_comm|]; apply Permutation_app_tail, sorted_perm].
      + apply sorted_nonempty. destruct (sorted received); [congruence|]. now destruct prev.
    - destruct (Hkeep eq_refl) as (f & -> & Hf). rewrite (rfilter_total f keep) by auto.
      eexists. split; [reflexivity|]. split; [apply sorted_chronological|]. split.
      + symmetry. eapply perm_trans; [|apply sorted_perm]. apply Permutation_app_head, sorted_perm.
      + apply sorted_nonempty. destruct (sorted received); [congruence|]. now destruct (filter keep prev).
    - eexists. split; [reflexivity|]. split; [apply sorted_chronological|]. split; [|exact Hs]. symmetry. apply sorted_perm.
  Qed.

  Lemma exact_step (w : win V) (b : bags V SS) :
    chronological (last (b_els b) []) -> current w b -> wn_els w <> [] ->
    exists els,
      chronological els /\ Permutation els (assembled a keep (last (b_els b) []) (wn_els w)) /\
      presents a o t0 w b els
        (filter (later_than_all (last (b_els b) [])) els)
        (filter (earlier_than_all els) (last (b_els b) [])) /\
      forall R (cb : callbacks V SS R), b_els (fst (process a o cb t0 w b)) = [els].
  Proof.
    intros Hs Hc Hne. fold (prev_els b) in *.
    destruct (assembled_elements (prev_els b) (wn_els w) Hne) as (els & He & Hch & Hp & Hn).
    pose proof (outgoing_exact (prev_els b) els Hs Hch Hn) as Ho.
    exists els. split; [exact Hch|]. split; [exact Hp|]. split.
    - rewrite <- (incoming_exact (prev_els b) els Hs Hch). now apply presents_intro.
    - intros R cb. now apply (process_bags a o cb t0 w b els _ Hc He Ho).
  Qed.

  (** After any windows [ws], with any functions of the user (which may fail), a
      window that is not outdated presents its elements in chronological order;
      incoming are those later than everything stored, outgoing the stored ones
      earlier than everything presented, both in order. *)
  Theorem C115_differences {R} (cb : callbacks V SS R) (ws : list (win V)) (w : win V) :
    let b := fst (run a o cb t0 ws no_bags) in
    let stored := last (b_els b) [] in
    current w b -> wn_els w <> [] ->
    exists els,
      chronological els /\ Permutation els (assembled a keep stored (wn_els w)) /\
      presents a o t0 w b els (filter (later_than_all stored) els) (filter (earlier_than_all els) stored).
  Proof.
    cbv zeta. intros Hc Hne.
    destruct (exact_step w _ (C53_stored_chronological a o cb t0 ws) Hc Hne) as (els & H1 & H2 & H3 & _).
    exists els. split; [exact H1|]. split; [exact H2 | exact H3].
  Qed.

  (** C70: whatever map_fn did in a window, none of its elements is incoming in
      the next one. *)
  Theorem C70_exact {R} (cb : callbacks V SS R) (ws : list (win V)) (w1 w2 : win V) :
    let b := fst (run a o cb t0 ws no_bags) in
    let b1 := fst (process a o cb t0 w1 b) in
    current w1 b -> wn_els w1 <> [] -> current w2 b1 -> wn_els w2 <> [] ->
    exists els1 inc1 out1 els2 inc2 out2,
      presents a o t0 w1 b els1 inc1 out1 /\ presents a o t0 w2 b1 els2 inc2 out2 /\
      (forall e, In e (wn_els w1) -> In e els1) /\
      forall e, In e els1 -> ~ In e inc2.
  Proof.
    cbv zeta. intros Hc1 Hn1 Hc2 Hn2. pose proof (C53_stored_chronological a o cb t0 ws) as Hs.
    destruct (exact_step w1 _ Hs Hc1 Hn1) as (els1 & Hch1 & Hp1 & P1 & Hb1). specialize (Hb1 R cb).
    pose proof (process_chrono a o cb t0 w1 _ Hs) as Hs1.
    destruct (exact_step w2 _ Hs1 Hc2 Hn2) as (els2 & Hch2 & Hp2 & P2 & _).
    do 2 eexists. eexists. do 2 eexists. eexists. split; [exact P1|]. split; [exact P2|]. split.
    - intros e He. eapply Permutation_in; [symmetry; exact Hp1|]. unfold assembled.
      destruct a; auto; apply in_app_iff; now right.
    - intros e He Hi. apply filter_In in Hi as [_ Hi]. rewrite Hb1 in Hi. cbn [last] in Hi.
      pose proof (proj1 (later_than_all_iff _ _) Hi e He). qord.
  Qed.
End C115.

(** ** C52: with incremental, an element is reported exactly if it is later than
    everything seen; an element that is not (late or simultaneous) never is. *)
Section C52.
  Context {V SS : Type} (o : aoptions V) (t0 : mtype).
  Theorem C52_exact {R} (cb : callbacks V SS R) (ws : list (win V)) (w : win V) :
    let b := fst (run Incremental o cb t0 ws no_bags) in
    let stored := last (b_els b) [] in
    current w b -> wn_els w <> [] ->
    exists els inc, presents Incremental o t0 w b els inc [] /\
      Permutation els (stored ++ wn_els w) /\
      (forall e, In e inc <-> In e (wn_els w) /\ forall p, In p stored -> (el_ts p < el_ts e)%Qc).
  Proof.
    cbv zeta. intros Hc Hne.
    destruct (C115_differences Incremental o t0 (fun _ => true) ltac:(discriminate) cb ws w Hc Hne)
      as (els & Hch & Hp & P). cbv zeta in *. cbn [assembled] in Hp.
    set (stored := last (b_els (fst (run Incremental o cb t0 ws no_bags))) []) in *.
    assert (Ho : filter (earlier_than_all els) stored = []).
    { destruct (filter (earlier_than_all els) stored) as [|x r] eqn:E; [reflexivity|]. exfalso.
      assert (Hx : In x (filter (earlier_than_all els) stored)) by (rewrite E; now left).
      apply filter_In in Hx as [H1 H2]. pose proof (proj1 (earlier_than_all_iff _ _) H2 x) as H3.
      assert (Hi : In x els) by (eapply Permutation_in; [symmetry; exact Hp|]; apply in_app_iff; now left).
      specialize (H3 Hi). qord. }
    rewrite Ho in P. exists els. eexists. split; [exact P|]. split; [exact Hp|].
    intros e. rewrite filter_In, later_than_all_iff. split.
    - intros [Hi Hl]. split; [|exact Hl].
      assert (Hi' : In e (stored ++ wn_els w)) by (eapply Permutation_in; eauto).
      apply in_app_iff in Hi' as [Hs|Hr]; [|exact Hr]. specialize (Hl e Hs). qord.
    - intros [Hi Hl]. split; [|exact Hl]. eapply Permutation_in; [symmetry; exact Hp|].
      apply in_app_iff. now right.
  Qed.
End C52.

(** ** C53: with partial, a stored element is reported outgoing exactly if it is
    older than everything kept and received. *)
Section C53.
  Context {V SS : Type} (o : aoptions V) (t0 : mtype) (keep : element V -> bool).
  Theorem C53_exact {R} (cb : callbacks V SS R) (ws : list (win V)) (w : win V) f :
    let b := fst (run Partial o cb t0 ws no_bags) in
    let stored := last (b_els b) [] in
    ao_filter o = Some f -> (forall e, f e = Ok (keep e)) -> current w b -> wn_els w <> [] ->
    exists els inc out, presents Partial o t0 w b els inc out /\
      chronological out /\
      forall e, In e out <-> In e stored /\ keep e = false /\
        (forall x, In x stored -> keep x = true -> (el_ts e < el_ts x)%Qc) /\
        (forall x, In x (wn_els w) -> (el_ts e < el_ts x)%Qc).
  Proof.
    cbv zeta. intros Hf Hk Hc Hne.
    destruct (C115_differences Partial o t0 keep (fun _ => ex_intro _ f (conj Hf Hk)) cb ws w Hc Hne)
      as (els & Hch & Hp & P). cbv zeta in *. cbn [assembled] in Hp.
    pose proof (C53_stored_chronological Partial o cb t0 ws) as Hs.
    set (stored := last (b_els (fst (run Partial o cb t0 ws no_bags))) []) in *.
    exists els. eexists. eexists. split; [exact P|]. split; [now apply chrono_filter|].
    assert (Hm : forall e, In e els <-> (In e stored /\ keep e = true) \/ In e (wn_els w)).
    { intros e. rewrite <- filter_In, <- in_app_iff. split; apply Permutation_in; [exact Hp | now symmetry]. }
    intros e. rewrite filter_In, earlier_than_all_iff. split.
    - intros [Hi Ha]. split; [exact Hi|]. split.
      { destruct (keep e) eqn:Ke; [|reflexivity]. exfalso.
        assert (In e els) by (apply Hm; left; now split). specialize (Ha e H). qord. }
      split; intros x Hx; [intros Kx|]; apply Ha; apply Hm; [left; now split | now right].
    - intros (Hi & Ke & H1 & H2). split; [exact Hi|]. intros x Hx. apply Hm in Hx as [[Hx Kx]|Hx]; auto.
  Qed.

  (** C73: the elements presented are distinct exactly if no element that the
      filter keeps is received again. *)
  Theorem C73_exact {R} (cb : callbacks V SS R) (ws : list (win V)) (w : win V) f :
    let b := fst (run Partial o cb t0 ws no_bags) in
    let stored := last (b_els b) [] in
    ao_filter o = Some f -> (forall e, f e = Ok (keep e)) -> current w b -> wn_els w <> [] ->
    NoDup stored -> NoDup (wn_els w) ->
    exists els inc out, presents Partial o t0 w b els inc out /\
      (NoDup els <-> forall e, In e stored -> keep e = true -> ~ In e (wn_els w)).
  Proof.
    cbv zeta. intros Hf Hk Hc Hne.
    destruct (C115_differences Partial o t0 keep (fun _ => ex_intro _ f (conj Hf Hk)) cb ws w Hc Hne)
      as (els & Hch & Hp & P). cbv zeta in *. cbn [assembled] in Hp.
    set (stored := last (b_els (fst (run Partial o cb t0 ws no_bags))) []) in *.
    intros Hn1 Hn2. exists els. eexists. eexists. split; [exact P|].
    transitivity (NoDup (filter keep stored ++ wn_els w)).
    { split; apply Permutation_NoDup; [exact Hp | now symmetry]. }
    clear - Hn1 Hn2. induction stored as [|x r IH]; cbn [filter app].
    - split; [intros _ ? [] | intros _; exact Hn2].
    - inversion Hn1 as [|? ? Hx Hr]; subst. specialize (IH Hr). destruct (keep x) eqn:Kx.
      + cbn [app]. rewrite NoDup_cons_iff, IH, in_app_iff, filter_In. split.
        * intros [N H] e [<-|Hi]; [intros _ C; apply N; now right | now apply H].
        * intros H. split; [|intros e Hi; apply H; now right].
          intros [[C _]|C]; [contradiction|]. apply (H x); auto. now left.
      + rewrite IH. split; intros H e; [intros [<-|Hi]; [congruence | now apply H] | intros Hi; apply H; now right].
  Qed.
End C53.

(** ** C68, C71: exactly which windows are dropped, and what the message says *)
Theorem C71_exact {V SS R} a o (cb : callbacks V SS R) t0 (w : win V) (b : bags V SS) :
  (wn_ts w < last (b_ts b) (- (1)))%Qc ->
  process a o cb t0 w b = (b, Ok [Outdated (wn_ts w) (wn_ts w)]).
Proof. intros H. apply Qclt_bool_iff in H. unfold process, last_or. now rewrite H. Qed.
(** Hence the message never names the timestamp already processed. *)
Theorem C71_never {V SS R} a o (cb : callbacks V SS R) t0 (w : win V) (b b' : bags V SS) outs t t1 t2 :
  processed b t -> process a o cb t0 w b = (b', Ok outs) -> In (Outdated t1 t2) outs -> t2 <> t.
Proof.
  intros Ht E Hi. destruct (Qclt_bool (wn_ts w) (last (b_ts b) (- (1))%Qc)) eqn:L.
  - apply Qclt_bool_iff in L. rewrite C71_exact in E by exact L. injection E as <- <-.
    destruct Hi as [Hi|[]]. injection Hi as <- <-. unfold processed in Ht. rewrite Ht in L. cbn [last] in L.
    intros Et. rewrite Et in L. qord.
  - exfalso. apply (C48_recorded a o cb t0 w b outs b') in E as [_ E]; [now apply (E t1 t2)|].
    now apply current_test.
Qed.
Theorem C68_exact {V SS R} a o (cb : callbacks V SS R) t0 (w : win V) :
  (exists t1 t2, snd (process a o cb t0 w no_bags) = Ok [Outdated t1 t2]) <-> (wn_ts w < - (1))%Qc.
Proof.
  split.
  - intros (t1 & t2 & E). destruct (Qclt_bool (wn_ts w) (- (1))%Qc) eqn:L; [now apply Qclt_bool_iff|]. exfalso.
    destruct (process a o cb t0 w no_bags) as [b' x] eqn:Ep. cbn [snd] in E. subst x.
    apply (C48_recorded a o cb t0 w no_bags _ b') in Ep as [_ Ep]; [apply (Ep t1 t2); now left|].
    now apply current_test.
  - intros H. exists (wn_ts w), (wn_ts w). now rewrite C71_exact.
Qed.

(** ** C69: exactly which models returned by map_fn interrupt the stream *)
Section C69.
  Context (ev : env) (evs : nat -> env) (m : lmodel) (cms : list lmodel).
  Hypothesis HA : aligned m.
  Hypothesis HU : names_unique m.
  Hypothesis HC : cmodels evs 0 (m_mtype m) (dvals (m_constrs m)) = Ok cms.
  Hypothesis HP : forall r cm, In r (m_rows m) -> r_removed r = true -> In cm cms -> ~ In (r_name r) (names cm).

  Lemma attenuate_iff key ms : key = "timestamp"%string \/ In key (m_attrs m) ->
    (snd (attenuate ev evs (Some key) (Some ms) m) = Ok tt <->
     resolved [] m /\ live m <> [] /\ forall r, In r (live m) -> exists t, reference m key r = ANum t).
  Proof.
    intros HK. split.
    - unfold attenuate, bind, get, lift.
      destruct (to_physical ev evs [] m) as [m1 [p|e]] eqn:E; [|discriminate].
      pose proof (C11_frame _ _ _ _ _ _ _ HA HU HC HP E) as (_&_&_&_&_&_&F7&_&FR&_&FA&FU). fold (live m) in FR.
      destruct (ref_column m1 key) as [ref|e] eqn:ER; [|discriminate].
      apply (ref_column_iff m1 key ref FA FU) in ER; [|rewrite F7; exact HK]. rewrite FR, map_map in ER.
      assert (ER' : map (reference m key) (live m) = map ANum ref).
      { rewrite <- ER. apply map_ext_in. intros r Hr. symmetry. eapply reference_kept; eauto. }
      intros X. split.
      { assert (HL : m_len m = length (m_rows m)) by apply HA.
        destruct (C09_to_physical_energy _ _ _ _ _ _ HL E) as (? & _ & HR & _). exact HR. }
      split.
      + intros El. rewrite El in ER'. destruct ref; [|discriminate]. cbn in X. discriminate X.
      + intros r Hr. assert (HI : In (reference m key r) (map ANum ref)) by (rewrite <- ER'; now apply in_map).
        apply in_map_iff in HI as (t & <- & _). eauto.
    - intros (HR & HN & HT).
      destruct (C54_succeeds ev evs m cms HA HU HC HP key ms HR HN HK HT) as [m' ->]. reflexivity.
  Qed.
End C69.

Theorem C69_exact {V SS R} o (cb : callbacks V SS R) t0 (w : win V) (b : bags V SS) key ms m cms :
  ao_key o = Some key -> ao_min_scale o = Some ms -> wn_els w <> [] -> current w b ->
  (forall s e i u, snd (cb_map cb (stored_model t0 b) s e i u) = Ok m) ->
  aligned m -> names_unique m -> key = "timestamp"%string \/ In key (m_attrs m) ->
  cmodels (wn_envs w) 0 (m_mtype m) (dvals (m_constrs m)) = Ok cms ->
  (forall r cm, In r (m_rows m) -> r_removed r = true -> In cm cms -> ~ In (r_name r) (names cm)) ->
  ((exists e, snd (process Attenuation o cb t0 w b) = Err e) <->
   ~ (resolved [] m /\ live m <> [] /\ forall r, In r (live m) -> exists t, reference m key r = ANum t)).
Proof.
  intros Hk Hs Hne Hc Hm HA HU HK HC HP.
  rewrite <- (attenuate_iff (wn_env w) (wn_envs w) m cms HA HU HC HP key ms HK).
  apply current_test in Hc. unfold process, last_or in *. rewrite Hc. cbn [window_elements].
  destruct (outgoing_ok (last (b_els b) []) (sorted (wn_els w))) as [out ->]; [now apply sorted_nonempty|].
  fold (stored_model t0 b).
  match goal with |- context [cb_map cb ?a1 ?a2 ?a3 ?a4 ?a5] => specialize (Hm a2 a3 a4 a5);
    change a1 with (stored_model t0 b) in *; destruct (cb_map cb (stored_model t0 b) a2 a3 a4 a5) as [pm x] end.
  cbn [snd] in Hm. subst x. rewrite Hk, Hs.
  destruct (attenuate _ _ _ _ m) as [m1 [[]|e]]; cbn [snd].
  - split; [|intros H; exfalso; now apply H].
    intros [e E]. exfalso. revert E. destruct (cb_solve _ _ _ _ _ _) as [m2 [ss|e']]; discriminate.
  - split; [intros _; discriminate | intros _; now exists e].
Qed.

(** ** The hypotheses are met *)
Definition three_windows := [w_ 10 [e_ 5 0]; w_ 15 [e_ 5 0; e_ 11 1]].
Definition odd_filter : aoptions nat := mkAo (Some (fun e => Ok (Nat.odd (el_idx e)))) None None.
Example C115_hyps :
  let b := fst (run Window o_ cb_ Qubo three_windows no_bags) in
  let w := w_ 20 [e_ 16 2; e_ 11 1; e_ 17 3] in
  current w b /\ last (b_els b) [] = [e_ 5 0; e_ 11 1] /\
  filter (later_than_all [e_ 5 0; e_ 11 1]) [e_ 11 1; e_ 16 2; e_ 17 3] = [e_ 16 2; e_ 17 3] /\
  filter (earlier_than_all [e_ 11 1; e_ 16 2; e_ 17 3]) [e_ 5 0; e_ 11 1] = [e_ 5 0].
Proof.
  split; [apply current_test; vm_compute; reflexivity|].
  split; [vm_compute; reflexivity|]. split; vm_compute; reflexivity.
Qed.
Example C70_exact_hyps :
  let b := fst (run Window o_ cb_ Qubo [w_ 10 [e_ 5 0]] no_bags) in
  let w1 := w_ 15 [e_ 5 0; e_ 11 1] in
  current w1 b /\ snd (process Window o_ cb_ Qubo w1 b) = Ok [MapFailed (UserError 7)] /\
  current (w_ 20 [e_ 5 0; e_ 11 1; e_ 16 2]) (fst (process Window o_ cb_ Qubo w1 b)).
Proof.
  split; [apply current_test; vm_compute; reflexivity|].
  split; [vm_compute; reflexivity|]. apply current_test; vm_compute; reflexivity.
Qed.
(** A late element and a simultaneous one. *)
Example C52_exact_hyps :
  let b := fst (run Incremental o_ cb_ Qubo [w_ 10 [e_ 5 0]; w_ 15 [e_ 11 1]] no_bags) in
  current (w_ 20 [e_ 4 2; e_ 11 3; e_ 12 4]) b /\ last (b_els b) [] = [e_ 5 0; e_ 11 1] /\
  filter (later_than_all [e_ 5 0; e_ 11 1]) (wn_els (w_ 20 [e_ 4 2; e_ 11 3; e_ 12 4])) = [e_ 12 4].
Proof.
  split; [apply current_test; vm_compute; reflexivity|]. split; vm_compute; reflexivity.
Qed.
(** The filter drops an element older than everything that stays (0) and one that
    is not (2). *)
Example C53_exact_hyps :
  let b := fst (run Partial odd_filter cb_ Qubo [w_ 10 [e_ 5 0; e_ 7 1; e_ 8 2]] no_bags) in
  let w := w_ 20 [e_ 7 1; e_ 12 4] in
  current w b /\ last (b_els b) [] = [e_ 5 0; e_ 7 1; e_ 8 2] /\
  NoDup (wn_els w) /\ snd (process Partial odd_filter cb_ Qubo w b) <> Err ValueError /\
  b_els (fst (process Partial odd_filter cb_ Qubo w b)) = [[e_ 7 1; e_ 7 1; e_ 12 4]].
Proof.
  split; [apply current_test; vm_compute; reflexivity|].
  split; [vm_compute; reflexivity|].
  split; [repeat constructor; cbn; intuition discriminate|].
  split; [vm_compute; discriminate | vm_compute; reflexivity].
Qed.
Example C71_exact_hyps :
  let b := fst (run Window o_ cb_ Qubo [w_ 10 [e_ 5 0]] no_bags) in
  processed b (qz 10) /\ process Window o_ cb_ Qubo (w_ 8 [e_ 7 1]) b = (b, Ok [Outdated (qz 8) (qz 8)]).
Proof. split; vm_compute; reflexivity. Qed.
Example C69_exact_hyps :
  current (w_ 5 [e_ 3 0]) (no_bags (V := nat) (SS := nat)) /\
  (forall s e i u, snd (cb_map aged_cb (stored_model Ising (no_bags (V := nat) (SS := nat))) s e i u) = Ok aged) /\
  aligned aged /\ names_unique aged /\
  cmodels (wn_envs (w_ 5 [e_ 3 0])) 0 (m_mtype aged) (dvals (m_constrs aged)) = Ok [].
Proof.
  split; [apply current_test; vm_compute; reflexivity|].
  split; [reflexivity|]. split; [exact (proj1 C54_hyps)|]. split; [exact (proj1 (proj2 C54_hyps))|].
  vm_compute. reflexivity.
Qed.
Print Assumptions C115_differences.
Print Assumptions C70_exact.
Print Assumptions C52_exact.
Print Assumptions C53_exact.
Print Assumptions C73_exact.
Print Assumptions C71_exact.
Print Assumptions C71_never.
Print Assumptions C68_exact.
Print Assumptions C69_exact.
