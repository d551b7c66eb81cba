(** * PropsAttenuation: the attenuation algorithm (C54, C69). *)
From Coq Require Import Lqa.
From Verif Require Import PyBase PyLemmas Numbers Constraint LogicalModel Spec LogicalProofs ConstraintProofs
  ToPhysicalProofs PropsPhysical Samples Solver SolverProofs.
From Verif Require Import Stream StreamSpec PropsStream PropsPipeline.
Open Scope list_scope.

Lemma Qc_inv_pos x : (0 < x)%Qc -> (0 < / x)%Qc.
Proof.
  unfold Qclt. cbn [Qcinv this Q2Qc]. rewrite !Qred_correct. apply Qinv_lt_0_compat.
Qed.

(** ** The line of 173 *)
Section line.
  Context (lo hi ms : Qc) (Hlh : (lo < hi)%Qc) (H0 : (0 <= ms)%Qc) (H1 : (ms <= 1)%Qc).
  Let f := new_scale lo hi ms.
  Lemma gap_pos : (0 < hi - lo)%Qc.
  Proof. qlin. Qed.
  Lemma gap_neq : (hi - lo <> 0)%Qc.
  Proof. intros E. pose proof gap_pos as G. rewrite E in G. discriminate G. Qed.
  Lemma slope_pos : (0 <= (1 - ms) / (hi - lo))%Qc.
  Proof.
    unfold Qcdiv. replace 0%Qc with (0 * / (hi - lo))%Qc by ring. apply Qcmult_le_compat_r; [qlin|].
    apply Qclt_le_weak, Qc_inv_pos, gap_pos.
  Qed.
  Lemma line_lo : f lo = ms.
  Proof. unfold f, new_scale. ring. Qed.
  Lemma line_hi : f hi = 1%Qc.
  Proof. unfold f, new_scale. field. apply gap_neq. Qed.
  Lemma line_mono a b : (a <= b)%Qc -> (f a <= f b)%Qc.
  Proof.
    intros L. unfold f, new_scale. pose proof slope_pos as S. set (c := ((1 - ms) / (hi - lo))%Qc) in *.
    assert (L' : ((a - lo) * c <= (b - lo) * c)%Qc) by (apply Qcmult_le_compat_r; [qlin | exact S]).
    rewrite (Qcmult_comm c), (Qcmult_comm c). qlin.
  Qed.
End line.

(** ** min and max *)
Lemma fold_qmin r : forall x, (fold_left qmin r x <= x)%Qc /\ (forall y, In y r -> fold_left qmin r x <= y)%Qc /\
  (fold_left qmin r x = x \/ In (fold_left qmin r x) r).
Proof.
  induction r as [|y r IH]; intros x; cbn [fold_left].
  - split; [apply Qcle_refl|]. split; [intros ? []|auto].
  - destruct (IH (qmin x y)) as (A & B & C). unfold qmin in *. destruct (Qclt_bool y x) eqn:E.
    + apply Qclt_bool_iff in E. split; [qord|]. split; [intros z [<-|Hz]; auto|].
      destruct C as [C|C]; [right; left; auto | right; right; auto].
    + apply Qclt_bool_false in E. split; [auto|]. split; [intros z [<-|Hz]; [qord|auto]|].
      destruct C as [C|C]; [left; auto | right; right; auto].
Qed.
Lemma fold_qmax r : forall x, (x <= fold_left qmax r x)%Qc /\ (forall y, In y r -> y <= fold_left qmax r x)%Qc /\
  (fold_left qmax r x = x \/ In (fold_left qmax r x) r).
Proof.
  induction r as [|y r IH]; intros x; cbn [fold_left].
  - split; [apply Qcle_refl|]. split; [intros ? []|auto].
  - destruct (IH (qmax x y)) as (A & B & C). unfold qmax in *. destruct (Qclt_bool x y) eqn:E.
    + apply Qclt_bool_iff in E. split; [qord|]. split; [intros z [<-|Hz]; auto|].
      destruct C as [C|C]; [right; left; auto | right; right; auto].
    + apply Qclt_bool_false in E. split; [auto|]. split; [intros z [<-|Hz]; [qord|auto]|].
      destruct C as [C|C]; [left; auto | right; right; auto].
Qed.
Lemma list_min_spec l x : list_min l = Ok x -> In x l /\ forall y, In y l -> (x <= y)%Qc.
Proof.
  destruct l as [|a r]; [discriminate|]. intros E. injection E as <-. destruct (fold_qmin r a) as (A & B & C).
  split; [destruct C as [->|C]; [now left | now right]|]. intros y [<-|Hy]; auto.
Qed.
Lemma list_max_spec l x : list_max l = Ok x -> In x l /\ forall y, In y l -> (y <= x)%Qc.
Proof.
  destruct l as [|a r]; [discriminate|]. intros E. injection E as <-. destruct (fold_qmax r a) as (A & B & C).
  split; [destruct C as [->|C]; [now left | now right]|]. intros y [<-|Hy]; auto.
Qed.

(** ** The reference column *)
Lemma all_nums_iff c ref : all_nums c = Ok ref <-> c = map ANum ref.
Proof.
  revert ref. induction c as [|v c IH]; intros ref; cbn.
  - split; [intros E; injection E as <-; reflexivity | destruct ref; [reflexivity | discriminate]].
  - destruct v as [|q|s].
    + split; [discriminate | destruct ref; discriminate].
    + destruct (all_nums c) as [t|e] eqn:E; cbn.
      * pose proof (proj1 (IH t) eq_refl) as ->. split.
        -- intros E'. injection E' as <-. reflexivity.
        -- destruct ref as [|q' ref]; [discriminate|]. cbn. intros E'. injection E' as -> E'.
           apply IH in E'. injection E' as ->. reflexivity.
      * split; [discriminate|]. destruct ref as [|q' ref]; [discriminate|]. cbn. intros E'. injection E' as -> E'.
        apply IH in E'. discriminate.
    + split; [discriminate | destruct ref; discriminate].
Qed.
Lemma attr_column m key c : aligned m -> names_unique m -> dget key (m_cols m) = Some c ->
  c = map (fun r => attr_of m (r_name r) key) (m_rows m).
Proof.
  intros (A & B & C & D) HU Ec.
  assert (Lc : length c = length (m_rows m)).
  { rewrite Forall_forall in D. rewrite <- A. apply (D (key, c)). now apply dget_in. }
  assert (G : forall pre post, m_rows m = pre ++ post ->
    skipn (length pre) c = map (fun r => attr_of m (r_name r) key) post).
  { intros pre post. revert pre. induction post as [|r post IH]; intros pre E.
    - rewrite app_nil_r in E. rewrite <- E, <- Lc. apply skipn_all.
    - cbn [map]. specialize (IH (pre ++ [r])). rewrite <- app_assoc in IH. specialize (IH E).
      rewrite app_length in IH. cbn [length] in IH. rewrite <- IH.
      unfold attr_of. unfold names. rewrite E, map_app. cbn [map].
      rewrite index_of_mid.
      + rewrite map_length. unfold attr_val. rewrite Ec.
        assert (L : length pre < length c) by (rewrite Lc, E, app_length; cbn; lia).
        clear -L. revert L. generalize (length pre) as k. intros k. revert k.
        induction c as [|x c IHc]; intros [|k] L; cbn in *; try lia; auto.
        rewrite <- (IHc k) by lia. f_equal.
      + unfold names_unique, names in HU. rewrite E, map_app in HU. cbn [map] in HU.
        apply NoDup_remove_2 in HU. intros HI. apply HU. apply in_app_iff. now left. }
  apply (G [] (m_rows m) eq_refl).
Qed.
Lemma ref_column_iff m key ref : aligned m -> names_unique m ->
  (key = "timestamp"%string \/ In key (m_attrs m)) ->
  (ref_column m key = Ok ref <-> map (reference m key) (m_rows m) = map ANum ref).
Proof.
  intros HA HU HK. unfold ref_column, reference. destruct (String.eqb key "timestamp") eqn:E.
  - rewrite all_nums_iff. reflexivity.
  - destruct HK as [->|HK]; [discriminate|]. pose proof HA as (_ & B & _). rewrite <- B in HK.
    apply dget_some_in in HK as [c Ec]. rewrite Ec, all_nums_iff. rewrite (attr_column m key c HA HU Ec). reflexivity.
Qed.
Lemma ref_column_ok_key m key ref : aligned m -> ref_column m key = Ok ref ->
  key = "timestamp"%string \/ In key (m_attrs m).
Proof.
  intros (_ & B & _). unfold ref_column. destruct (String.eqb_spec key "timestamp") as [->|N]; auto.
  destruct (dget key (m_cols m)) eqn:E; [|discriminate]. intros _. right. rewrite <- B. apply dget_some_in. eauto.
Qed.

Lemma rescale_all f ref rows : length ref = length rows ->
  rescale f ref rows = (map (fun tr => set_scale (CNum (f (fst tr))) (snd tr)) (combine ref rows), Ok tt).
Proof.
  revert rows. induction ref as [|t ref IH]; intros [|r rows] L; cbn in *; try lia; auto.
  rewrite IH by lia. reflexivity.
Qed.

Definition ref_num (v : aval) : Qc := match v with ANum q => q | _ => 0%Qc end.

Section C54.
  Context (ev : env) (evs : nat -> env) (m : lmodel) (cms : list lmodel).
  (** The model map_fn returned: any model of an ordinary history (C01, C63), and
      to_physical can build its constraints (C09, C11). *)
  Hypothesis HA : aligned m.
  Hypothesis HU : names_unique m.
  Hypothesis HC : cmodels evs 0 (m_mtype m) (dvals (m_constrs m)) = Ok cms.
  Hypothesis HP : forall r cm, In r (m_rows m) -> r_removed r = true -> In cm cms -> ~ In (r_name r) (names cm).

  Lemma reference_kept m1 p key r : to_physical ev evs [] m = (m1, Ok p) -> In r (live m) ->
    reference m1 key (set_dirty false r) = reference m key r.
  Proof.
    intros E Hr. apply filter_In in Hr as [Hr Hk]. apply negb_true_iff in Hk.
    pose proof (C11_frame _ _ _ _ _ _ _ HA HU HC HP E) as (_&_&_&_&_&_&_&_&_&F&_).
    unfold reference. cbn [set_dirty r_ts r_name]. destruct (String.eqb key "timestamp"); auto.
  Qed.

  Theorem C54_scales key ms m' :
    (0 <= ms)%Qc -> (ms <= 1)%Qc ->
    attenuate ev evs (Some key) (Some ms) m = (m', Ok tt) ->
    (forall r, In r (live m) -> exists t, reference m key r = ANum t) /\
    ((exists r1 r2, In r1 (live m) /\ In r2 (live m) /\ reference m key r1 <> reference m key r2) ->
     exists scale,
       m_rows m' = map (fun r => set_scale (CNum (scale (ref_num (reference m key r)))) (set_dirty false r)) (live m) /\
       (forall t1 t2, (t1 <= t2)%Qc -> (scale t1 <= scale t2)%Qc) /\
       (forall r, In r (live m) -> (ms <= scale (ref_num (reference m key r)))%Qc /\ (scale (ref_num (reference m key r)) <= 1)%Qc) /\
       (forall r, In r (live m) -> (forall r', In r' (live m) -> (ref_num (reference m key r) <= ref_num (reference m key r'))%Qc) ->
          scale (ref_num (reference m key r)) = ms) /\
       (forall r, In r (live m) -> (forall r', In r' (live m) -> (ref_num (reference m key r') <= ref_num (reference m key r))%Qc) ->
          scale (ref_num (reference m key r)) = 1%Qc)) /\
    ((forall r1 r2, In r1 (live m) -> In r2 (live m) -> reference m key r1 = reference m key r2) ->
     m_rows m' = map (set_dirty false) (live m)).
  Proof.
    intros Hm0 Hm1. unfold attenuate, bind, get, lift.
    destruct (to_physical ev evs [] m) as [m1 [p|e]] eqn:E; [|discriminate].
    pose proof (C11_frame _ _ _ _ _ _ _ HA HU HC HP E) as (_&_&_&_&_&_&_&_&FR&_&FA&FU). fold (live m) in FR.
    destruct (ref_column m1 key) as [ref|e] eqn:ER; [|discriminate].
    destruct (list_min ref) as [lo|e] eqn:EL; [|discriminate].
    destruct (list_max ref) as [hi|e] eqn:EH; [|discriminate].
    apply list_min_spec in EL as [IL BL]. apply list_max_spec in EH as [IH BH].
    pose proof (ref_column_ok_key _ _ _ FA ER) as HK.
    apply (ref_column_iff m1 key ref FA FU HK) in ER. rewrite FR, map_map in ER.
    assert (ER' : map (reference m key) (live m) = map ANum ref).
    { rewrite <- ER. apply map_ext_in. intros r Hr. symmetry. eapply reference_kept; eauto. }
    clear ER. rename ER' into ER.
    assert (HT : forall r, In r (live m) -> exists t, reference m key r = ANum t /\ In t ref).
    { intros r Hr. assert (HI : In (reference m key r) (map ANum ref)) by (rewrite <- ER; now apply in_map).
      apply in_map_iff in HI as (t & <- & Ht). eauto. }
    assert (HV : forall t, In t ref -> exists r, In r (live m) /\ reference m key r = ANum t).
    { intros t Ht. assert (HI : In (ANum t) (map (reference m key) (live m))) by (rewrite ER; now apply in_map).
      apply in_map_iff in HI as (r & Er & Hr). eauto. }
    assert (Href : ref = map (fun r => ref_num (reference m key r)) (live m)).
    { rewrite <- (map_map (reference m key) ref_num), ER, map_map. symmetry. apply map_id. }
    destruct (Qclt_bool lo hi) eqn:LH.
    - apply Qclt_bool_iff in LH.
      rewrite rescale_all by (rewrite Href, FR, !map_length; reflexivity).
      intros X. injection X as <-. cbn [m_rows with_rows].
      split; [intros r Hr; destruct (HT r Hr) as (t & Et & _); eauto|]. split.
      + intros _. exists (new_scale lo hi ms).
        assert (Hb : forall r, In r (live m) -> (lo <= ref_num (reference m key r))%Qc /\ (ref_num (reference m key r) <= hi)%Qc).
        { intros r Hr. destruct (HT r Hr) as (t & -> & Ht). cbn. auto. }
        split; [|split; [|split; [|split]]].
        * rewrite FR, Href. clear. induction (live m) as [|r l IH]; cbn; auto. now rewrite IH.
        * intros; now apply line_mono.
        * intros r Hr. destruct (Hb r Hr) as [B1 B2]. split.
          -- rewrite <- (line_lo lo hi ms) at 1. now apply line_mono.
          -- rewrite <- (line_hi lo hi ms LH). now apply line_mono.
        * intros r Hr Hmin. destruct (HV lo IL) as (r0 & Hr0 & E0). specialize (Hmin _ Hr0). rewrite E0 in Hmin.
          cbn [ref_num] in Hmin. destruct (Hb r Hr) as [B1 _].
          replace (ref_num (reference m key r)) with lo by (apply Qcle_antisym; auto). apply line_lo.
        * intros r Hr Hmax. destruct (HV hi IH) as (r0 & Hr0 & E0). specialize (Hmax _ Hr0). rewrite E0 in Hmax.
          cbn [ref_num] in Hmax. destruct (Hb r Hr) as [_ B1].
          replace (ref_num (reference m key r)) with hi by (apply Qcle_antisym; auto). now apply line_hi.
      + intros Heq. exfalso. destruct (HV lo IL) as (r1 & Hr1 & E1). destruct (HV hi IH) as (r2 & Hr2 & E2).
        specialize (Heq _ _ Hr1 Hr2). rewrite E1, E2 in Heq. injection Heq as ->. qord.
    - apply Qclt_bool_false in LH. intros X. injection X as <-.
      split; [intros r Hr; destruct (HT r Hr) as (t & Et & _); eauto|]. split; [|auto].
      intros (r1 & r2 & Hr1 & Hr2 & N). exfalso. apply N.
      destruct (HT r1 Hr1) as (t1 & -> & T1). destruct (HT r2 Hr2) as (t2 & -> & T2).
      f_equal. pose proof (BL _ T1). pose proof (BL _ T2). pose proof (BH _ T1). pose proof (BH _ T2).
      apply Qcle_antisym; qord.
  Qed.

  (** Nothing else is touched: coefficients, names, keys and timestamps are those
      of the interactions kept, and the other parts of the model are unchanged. *)
  Theorem C54_frame key ms m' :
    attenuate ev evs (Some key) (Some ms) m = (m', Ok tt) ->
    m_mtype m' = m_mtype m /\ m_vars m' = m_vars m /\ m_offset m' = m_offset m /\
    m_deleted m' = m_deleted m /\ m_fixed m' = m_fixed m /\ m_constrs m' = m_constrs m /\
    m_attrs m' = m_attrs m /\
    map (set_scale (CNum 0)) (m_rows m') = map (fun r => set_scale (CNum 0) (set_dirty false r)) (live m).
  Proof.
    unfold attenuate, bind, get, lift.
    destruct (to_physical ev evs [] m) as [m1 [p|e]] eqn:E; [|discriminate].
    pose proof (C11_frame _ _ _ _ _ _ _ HA HU HC HP E) as (F1&F2&F3&F4&F5&F6&F7&_&FR&_). fold (live m) in FR.
    destruct (ref_column m1 key) as [ref|e] eqn:ER; [|discriminate].
    destruct (list_min ref) as [lo|e] eqn:EL; [|discriminate].
    destruct (list_max ref) as [hi|e] eqn:EH; [|discriminate].
    assert (G : forall f ref rows rows' x, rescale f ref rows = (rows', x) ->
      map (set_scale (CNum 0)) rows' = map (set_scale (CNum 0)) rows).
    { clear. intros f. induction ref as [|t ref IH]; intros [|r rows] rows' x; cbn.
      - intros X; injection X as <- _; reflexivity.
      - intros X; injection X as <- _; reflexivity.
      - intros X; injection X as <- _; reflexivity.
      - destruct (rescale f ref rows) as [rs y] eqn:E. intros X; injection X as <- _. cbn. f_equal. eapply IH, E. }
    destruct (Qclt_bool lo hi).
    - destruct (rescale _ ref (m_rows m1)) as [rows' x] eqn:Er. intros X. injection X as <- ->.
      cbn. repeat split; auto. rewrite (G _ _ _ _ _ Er), FR, map_map. reflexivity.
    - intros X. injection X as <-. repeat split; auto. rewrite FR, map_map. reflexivity.
  Qed.

  (** It succeeds when there is an interaction and every reference is a number. *)
  Theorem C54_succeeds key ms :
    resolved [] m -> live m <> [] ->
    (key = "timestamp"%string \/ In key (m_attrs m)) ->
    (forall r, In r (live m) -> exists t, reference m key r = ANum t) ->
    exists m', attenuate ev evs (Some key) (Some ms) m = (m', Ok tt).
  Proof.
    intros HR HN HK HT. unfold attenuate, bind, get, lift.
    destruct (C09_to_physical_succeeds ev evs [] m cms HA HU HR HC HP) as (m1 & p & E). rewrite E.
    pose proof (C11_frame _ _ _ _ _ _ _ HA HU HC HP E) as (_&_&_&_&_&_&F7&_&FR&_&FA&FU). fold (live m) in FR.
    assert (Hex : exists ref, map (reference m key) (live m) = map ANum ref).
    { clear -HT. induction (live m) as [|r l IH]; [now exists []|].
      destruct IH as [ref E]; [intros; apply HT; now right|]. destruct (HT r) as [t Et]; [now left|].
      exists (t :: ref). cbn. now rewrite Et, E. }
    destruct Hex as [ref Eref].
    assert (ER : ref_column m1 key = Ok ref).
    { apply ref_column_iff; auto; [rewrite F7; auto|]. rewrite FR, map_map, <- Eref. apply map_ext_in.
      intros r Hr. eapply reference_kept; eauto. }
    rewrite ER.
    assert (Lr : length ref = length (m_rows m1)).
    { apply (f_equal (@length _)) in Eref. rewrite !map_length in Eref. rewrite FR, map_length. now symmetry. }
    destruct ref as [|t ref].
    - exfalso. apply HN. rewrite FR, map_length in Lr. now destruct (live m).
    - cbn [list_min list_max]. destruct (Qclt_bool _ _); [|eexists; reflexivity].
      rewrite rescale_all by exact Lr. eexists. reflexivity.
  Qed.
  (** The scale is the point at the reference value of the line from (oldest,
      min_scale) to (newest, 1), whatever min_scale is. *)
  Theorem C54_line key ms m' lo hi :
    attenuate ev evs (Some key) (Some ms) m = (m', Ok tt) ->
    (exists r, In r (live m) /\ reference m key r = ANum lo) ->
    (exists r, In r (live m) /\ reference m key r = ANum hi) ->
    (forall r t, In r (live m) -> reference m key r = ANum t -> (lo <= t)%Qc /\ (t <= hi)%Qc) -> (lo < hi)%Qc ->
    m_rows m' = map (fun r => set_scale (CNum (ms + (1 - ms) * ((ref_num (reference m key r) - lo) / (hi - lo)))%Qc) (set_dirty false r)) (live m).
  Proof.
    intros EA Hlo Hhi Hb LH. revert EA. unfold attenuate, bind, get, lift.
    destruct (to_physical ev evs [] m) as [m1 [p|e]] eqn:E; [|discriminate].
    pose proof (C11_frame _ _ _ _ _ _ _ HA HU HC HP E) as (_&_&_&_&_&_&_&_&FR&_&FA&FU). fold (live m) in FR.
    destruct (ref_column m1 key) as [ref|e] eqn:ER; [|discriminate].
    destruct (list_min ref) as [lo'|e] eqn:EL; [|discriminate].
    destruct (list_max ref) as [hi'|e] eqn:EH; [|discriminate].
    apply list_min_spec in EL as [IL BL]. apply list_max_spec in EH as [IH BH].
    pose proof (ref_column_ok_key _ _ _ FA ER) as HK.
    apply (ref_column_iff m1 key ref FA FU HK) in ER. rewrite FR, map_map in ER.
    assert (ER' : map (reference m key) (live m) = map ANum ref).
    { rewrite <- ER. apply map_ext_in. intros r Hr. symmetry. eapply reference_kept; eauto. }
    clear ER. rename ER' into ER.
    assert (HT : forall r t, In r (live m) -> reference m key r = ANum t -> In t ref).
    { intros r t Hr Et. assert (HI : In (reference m key r) (map ANum ref)) by (rewrite <- ER; now apply in_map).
      apply in_map_iff in HI as (t' & E' & Ht). rewrite Et in E'. injection E' as <-. auto. }
    assert (HV : forall t, In t ref -> exists r, In r (live m) /\ reference m key r = ANum t).
    { intros t Ht. assert (HI : In (ANum t) (map (reference m key) (live m))) by (rewrite ER; now apply in_map).
      apply in_map_iff in HI as (r & Er & Hr). eauto. }
    assert (Href : ref = map (fun r => ref_num (reference m key r)) (live m)).
    { rewrite <- (map_map (reference m key) ref_num), ER, map_map. symmetry. apply map_id. }
    assert (lo' = lo) as ->.
    { apply Qcle_antisym.
      - destruct Hlo as (r & Hr & Er). apply BL. eapply HT; eauto.
      - destruct (HV _ IL) as (r & Hr & Er). apply (Hb r lo' Hr Er). }
    assert (hi' = hi) as ->.
    { apply Qcle_antisym.
      - destruct (HV _ IH) as (r & Hr & Er). apply (Hb r hi' Hr Er).
      - destruct Hhi as (r & Hr & Er). apply BH. eapply HT; eauto. }
    rewrite (proj2 (Qclt_bool_iff _ _) LH).
    rewrite rescale_all by (rewrite Href, FR, !map_length; reflexivity).
    intros X. injection X as <-. cbn [m_rows with_rows]. rewrite FR, Href.
    assert (NE : (hi - lo)%Qc <> 0%Qc).
    { intros C. assert (hi = lo) by (rewrite <- (Qcplus_0_l lo), <- C; ring). subst. qord. }
    clear - NE. induction (live m) as [|r l IH]; cbn [map combine fst snd]; auto. rewrite IH. f_equal. f_equal. f_equal.
    unfold new_scale. field. exact NE.
  Qed.

  (** If all references are equal the scales stay as they are, whatever min_scale is. *)
  Theorem C54_equal key ms m' :
    attenuate ev evs (Some key) (Some ms) m = (m', Ok tt) ->
    (forall r1 r2, In r1 (live m) -> In r2 (live m) -> reference m key r1 = reference m key r2) ->
    m_rows m' = map (set_dirty false) (live m).
  Proof.
    intros EA Heq. revert EA. unfold attenuate, bind, get, lift.
    destruct (to_physical ev evs [] m) as [m1 [p|e]] eqn:E; [|discriminate].
    pose proof (C11_frame _ _ _ _ _ _ _ HA HU HC HP E) as (_&_&_&_&_&_&_&_&FR&_&FA&FU). fold (live m) in FR.
    destruct (ref_column m1 key) as [ref|e] eqn:ER; [|discriminate].
    destruct (list_min ref) as [lo'|e] eqn:EL; [|discriminate].
    destruct (list_max ref) as [hi'|e] eqn:EH; [|discriminate].
    apply list_min_spec in EL as [IL BL]. apply list_max_spec in EH as [IH BH].
    pose proof (ref_column_ok_key _ _ _ FA ER) as HK.
    apply (ref_column_iff m1 key ref FA FU HK) in ER. rewrite FR, map_map in ER.
    assert (ER' : map (reference m key) (live m) = map ANum ref).
    { rewrite <- ER. apply map_ext_in. intros r Hr. symmetry. eapply reference_kept; eauto. }
    assert (HV : forall t, In t ref -> exists r, In r (live m) /\ reference m key r = ANum t).
    { intros t Ht. assert (HI : In (ANum t) (map (reference m key) (live m))) by (rewrite ER'; now apply in_map).
      apply in_map_iff in HI as (r & Er & Hr). eauto. }
    destruct (HV _ IL) as (r1 & H1 & E1). destruct (HV _ IH) as (r2 & H2 & E2).
    pose proof (Heq _ _ H1 H2) as Q. rewrite E1, E2 in Q. injection Q as ->.
    rewrite (proj2 (Qclt_bool_false _ _)) by apply Qcle_refl. intros X. injection X as <-. exact FR.
  Qed.

  (** The attributes of the interactions kept are unchanged too. *)
  Theorem C54_attributes key ms m' :
    attenuate ev evs (Some key) (Some ms) m = (m', Ok tt) ->
    aligned m' /\ names_unique m' /\
    (forall r a, In r (live m) -> attr_of m' (r_name r) a = attr_of m (r_name r) a).
  Proof.
    unfold attenuate, bind, get, lift.
    destruct (to_physical ev evs [] m) as [m1 [p|e]] eqn:E; [|discriminate].
    pose proof (C11_frame _ _ _ _ _ _ _ HA HU HC HP E) as (_&_&_&_&_&_&_&_&FR&F10&FA&FU). fold (live m) in FR.
    destruct (ref_column m1 key) as [ref|e] eqn:ER; [|discriminate].
    destruct (list_min ref) as [lo|e] eqn:EL; [|discriminate].
    destruct (list_max ref) as [hi|e] eqn:EH; [|discriminate].
    assert (F10' : forall r a, In r (live m) -> attr_of m1 (r_name r) a = attr_of m (r_name r) a).
    { intros r a Hr. apply filter_In in Hr as [Hr Hk]. apply negb_true_iff in Hk. auto. }
    assert (G : forall f ref rows rows' x, rescale f ref rows = (rows', x) ->
      map r_name rows' = map r_name rows /\ length rows' = length rows).
    { clear. intros f. induction ref as [|t ref IH]; intros [|r rows] rows' x; cbn.
      - intros X; injection X as <- _; auto.
      - intros X; injection X as <- _; auto.
      - intros X; injection X as <- _; auto.
      - destruct (rescale f ref rows) as [rs y] eqn:E. intros X; injection X as <- _. cbn. destruct (IH _ _ _ E). split; f_equal; auto. }
    destruct (Qclt_bool lo hi).
    - destruct (rescale _ ref (m_rows m1)) as [rows' x] eqn:Er. intros X. injection X as <- ->.
      destruct (G _ _ _ _ _ Er) as [G1 G2]. split; [|split].
      + destruct FA as (A & B & C & D). cbn. repeat split; auto. cbn. congruence.
      + unfold names_unique, names in *. cbn. now rewrite G1.
      + intros r a Hr. rewrite <- F10' by auto. unfold attr_of, names. cbn. rewrite G1. reflexivity.
    - intros X. injection X as <-. auto.
  Qed.
End C54.

(** solve_fn receives the attenuated model. *)
Theorem C54_solved {V SS R} o (cb : callbacks V SS R) t0 (w : win V) (b : bags V SS) els pm m m' outgoing :
  current w b -> window_elements Attenuation o (last (b_els b) []) (wn_els w) = Ok els ->
  resolve_outgoing (last (b_els b) []) els = Ok outgoing ->
  let incoming := resolve_incoming (last (b_els b) []) els in
  cb_map cb (stored_model t0 b) (stored_ss b) els incoming outgoing = (pm, Ok m) ->
  attenuate (wn_env w) (wn_envs w) (ao_key o) (ao_min_scale o) m = (m', Ok tt) ->
  snd (process Attenuation o cb t0 w b) =
  Ok [match snd (cb_solve cb m' (stored_ss b) els incoming outgoing) with
      | Err e => SolveFailed e
      | Ok ss => match cb_unmap cb ss els incoming outgoing with Ok r => Solved r | Err e => UnmapFailed e end
      end].
Proof.
  intros Hc He Ho incoming Hm Ha. unfold process. apply current_test in Hc. rewrite Hc.
  unfold last_or in *. rewrite He, Ho. unfold stored_model, stored_ss in *. fold incoming. rewrite Hm, Ha.
  destruct (cb_solve _ _ _ _ _ _) as [m2 [ss|e]]; reflexivity.
Qed.

(** ** C69 *)
Definition attn_o : aoptions nat := mkAo None (Some "timestamp"%string) (Some (Q2Qc (1 # 2))).
(** A map_fn that returns a model without interactions stops the stream ... *)
Theorem C69_refuted :
  exists (w : win nat) (cb : callbacks nat nat nat),
    wn_els w <> [] /\ snd (process Attenuation attn_o cb Ising w no_bags) = Err ValueError.
Proof.
  exists (w_ 5 [e_ 3 0]).
  exists (mkCb (fun m _ _ _ _ => (m, Ok m)) (fun m _ _ _ _ => (m, Ok 0)) (fun _ _ _ _ => Ok 0)).
  split; [discriminate | vm_compute; reflexivity].
Qed.
(** ... and so does one that leaves a placeholder. *)
Definition refs_okb m key : bool :=
  forallb (fun r => match reference m key r with ANum _ => true | _ => false end) (live m).
Lemma refs_ok m key : refs_okb m key = true -> forall r, In r (live m) -> exists t, reference m key r = ANum t.
Proof.
  unfold refs_okb. rewrite forallb_forall. intros H r Hr. specialize (H r Hr).
  destruct (reference m key r); try discriminate. eauto.
Qed.
Theorem C69_placeholder_refuted :
  exists (w : win nat) (cb : callbacks nat nat nat) m,
    wn_els w <> [] /\ live m <> [] /\
    (forall r, In r (live m) -> exists t, reference m "timestamp" r = ANum t) /\
    (forall x s e i o, cb_map cb x s e i o = (x, Ok m)) /\
    snd (process Attenuation attn_o cb Ising w no_bags) = Err PlaceholderError.
Proof.
  exists (w_ 5 [e_ 3 0]).
  exists (mkCb (fun x _ _ _ _ => (x, Ok ising_model)) (fun m _ _ _ _ => (m, Ok 0)) (fun _ _ _ _ => Ok 0)), ising_model.
  split; [discriminate|]. split; [vm_compute; discriminate|].
  split.
  - apply refs_ok. vm_compute. reflexivity.
  - split; [reflexivity | vm_compute; reflexivity].
Qed.
(** What is missing is exactly the side conditions on the model map_fn returns. *)
Theorem C69_one_output_partial {V SS R} o (cb : callbacks V SS R) t0 (w : win V) (b : bags V SS) key ms :
  ao_key o = Some key -> ao_min_scale o = Some ms -> wn_els w <> [] ->
  (forall x s e i u pm m, cb_map cb x s e i u = (pm, Ok m) ->
     aligned m /\ names_unique m /\ resolved [] m /\ live m <> [] /\
     (key = "timestamp"%string \/ In key (m_attrs m)) /\
     (forall r, In r (live m) -> exists t, reference m key r = ANum t) /\
     exists cms, cmodels (wn_envs w) 0 (m_mtype m) (dvals (m_constrs m)) = Ok cms /\
       forall r cm, In r (m_rows m) -> r_removed r = true -> In cm cms -> ~ In (r_name r) (names cm)) ->
  exists x, snd (process Attenuation o cb t0 w b) = Ok [x].
Proof.
  intros Hk Hs Hne Hm. unfold process. destruct (Qclt_bool _ _); [eexists; reflexivity|]. cbn [window_elements].
  destruct (outgoing_ok (last_or [] (b_els b)) (sorted (wn_els w))) as [out ->]; [now apply sorted_nonempty|].
  destruct (cb_map _ _ _ _ _ _) as [pm [m|e]] eqn:E; [|eexists; reflexivity].
  destruct (Hm _ _ _ _ _ _ _ E) as (HA & HU & HR & HN & HK & HT & cms & HC & HP).
  destruct (C54_succeeds (wn_env w) (wn_envs w) m cms HA HU HC HP key ms HR HN HK HT) as [m' Ha].
  rewrite Hk, Hs, Ha. destruct (cb_solve _ _ _ _ _ _) as [m2 [ss|e]]; eexists; reflexivity.
Qed.

(** A model with three live interactions of different age and one removed. *)
Definition aged_ops : LM unit :=
  variables (VName "x") (ShTuple [ShInt 3]) ;;;
  add_interaction env0 (TVar (spn "x" 0)) (NStr "a") (Samples.num 7) (Samples.num 1) (AtDict [("attn"%string, ANum (qz 3))]) (TsNum (qz 10)) ;;;
  add_interaction env0 (TVar (spn "x" 1)) (NStr "gone") (Samples.num 7) (Samples.num 1) (AtDict [("attn"%string, ANum (qz 90))]) (TsNum (qz 60)) ;;;
  add_interaction env0 (TTuple [EVar (spn "x" 0); EVar (spn "x" 1)]) (NStr "b") (Samples.num 2) (Samples.num 4) (AtDict [("attn"%string, ANum (qz 9))]) (TsNum (qz 20)) ;;;
  add_interaction env0 (TTuple [EVar (spn "x" 1); EVar (spn "x" 2)]) (NStr "c") (Samples.num 4) (Samples.num 3) (AtDict [("attn"%string, ANum (qz 1))]) (TsNum (qz 50)) ;;;
  remove_interaction TNone (NStr "gone").
Definition aged : lmodel := fst (aged_ops (new_model Ising)).
Definition scale_of (r : row) : string * Q :=
  (r_name r, match r_scale r with CNum q => this q | _ => 7%Q end).
Example C54_hyps :
  aligned aged /\ names_unique aged /\ cmodels evs0 0 (m_mtype aged) (dvals (m_constrs aged)) = Ok [] /\
  resolved [] aged /\ map r_name (live aged) = ["a"; "b"; "c"]%string /\
  (forall r, In r (live aged) -> exists t, reference aged "timestamp" r = ANum t) /\
  map scale_of (m_rows (fst (attenuate env0 evs0 (Some "timestamp"%string) (Some (Q2Qc (1 # 5))) aged))) =
    [("a", 1 # 5); ("b", 2 # 5); ("c", 1)]%string%Q /\
  map scale_of (m_rows (fst (attenuate env0 evs0 (Some "attributes.attn"%string) (Some 0%Qc) aged))) =
    [("a", 1 # 4); ("b", 1); ("c", 0)]%string%Q.
Proof.
  split; [apply alignedb_ok; vm_compute; reflexivity|].
  split; [apply nodupb_ok; vm_compute; reflexivity|].
  split; [reflexivity|]. split; [apply resolvedb_ok; vm_compute; reflexivity|].
  split; [vm_compute; reflexivity|]. split.
  - apply refs_ok. vm_compute. reflexivity.
  - split; vm_compute; reflexivity.
Qed.
Definition aged_cb : callbacks nat nat nat :=
  mkCb (fun x _ _ _ _ => (x, Ok aged)) (fun m _ _ _ _ => (m, Ok 0)) (fun _ _ _ _ => Ok 0).
Example C69_hyps :
  snd (process Attenuation attn_o aged_cb Ising (w_ 5 [e_ 3 0]) no_bags) = Ok [Solved 0].
Proof. vm_compute. reflexivity. Qed.
Print Assumptions C54_scales.
Print Assumptions C54_line.
Print Assumptions C54_equal.
Print Assumptions C54_attributes.
Print Assumptions C54_frame.
Print Assumptions C54_succeeds.
Print Assumptions C54_solved.
Print Assumptions C69_refuted.
Print Assumptions C69_placeholder_refuted.
Print Assumptions C69_one_output_partial.
