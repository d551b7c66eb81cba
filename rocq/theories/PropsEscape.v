(** * PropsEscape: C141 which windows fail as a whole, and with which exception. *)
From Verif Require Import PyBase PyLemmas Numbers Constraint LogicalModel Spec LogicalProofs Stream StreamSpec PropsStream PropsHistory PropsErrors PropsPipeline PropsAttenuation Samples.
Open Scope list_scope.

(** ** Specification *)

(** filter_fn raises [e] when it is applied to the elements of [l] in turn. *)
Definition breaks {V} (f : element V -> res bool) (l : list (element V)) (e : exn) : Prop :=
  exists l1 x l2, l = l1 ++ x :: l2 /\ (forall y, In y l1 -> exists k, f y = Ok k) /\ f x = Err e.
(** No element is left to present, although there were elements in the window before. *)
Definition nothing_left {V} (a : algorithm) (o : aoptions V) (prev : list (element V)) (w : win V) : Prop :=
  wn_els w = [] /\ prev <> [] /\
  match a with
  | Incremental => False
  | Partial => exists f, ao_filter o = Some f /\ forall y, In y prev -> f y = Ok false
  | _ => True
  end.
(** The reasons why the presentation of a window raises [e]; [prev]: the elements kept from the window before. *)
Definition unpresentable {V} (a : algorithm) (o : aoptions V) (prev : list (element V)) (w : win V) (e : exn) : Prop :=
  (a = Partial /\ ao_filter o = None /\ e = KeyError) \/
  (a = Partial /\ exists f, ao_filter o = Some f /\ breaks f prev e) \/
  (nothing_left a o prev w /\ e = IndexError).

(** The number by which the interaction at position [i] is scaled: its timestamp or an attribute. *)
Definition number_at (m : lmodel) (k : string) (i : nat) (q : Qc) : Prop :=
  if String.eqb k "timestamp" then exists r, nth_error (m_rows m) i = Some r /\ r_ts r = Some q else attr_val m i k = ANum q.
(** What can be wrong with the options and the model map_fn returned, after to_physical. *)
Definition attenuation_problems {V} (o : aoptions V) (m : lmodel) : list (Prop * exn) :=
  [ (ao_key o = None, KeyError);
    ((exists k, ao_key o = Some k /\ k <> "timestamp"%string /\ ~ In k (m_attrs m)), KeyError);
    ((exists k i, ao_key o = Some k /\ i < length (m_rows m) /\ forall q, ~ number_at m k i q), TypeError);
    (m_rows m = [], ValueError);
    (ao_min_scale o = None, KeyError) ].

(** ** Proof *)
Section escape.
  Context {V SS R : Type}.
  Lemma rfilter_err (f : element V -> res bool) l e : rfilter f l = Err e <-> breaks f l e.
  Proof.
    induction l as [|x l IH]; cbn [rfilter].
    - split; [discriminate|]. intros (l1 & x & l2 & E & _). destruct l1; discriminate.
    - destruct (f x) as [k|e'] eqn:EX; cbn [rbind].
      + destruct (rfilter f l) as [r|e'] eqn:ER; cbn [rbind].
        * split; [discriminate|]. intros ([|y l1] & z & l2 & E & H1 & H2); injection E as <- E'; [congruence|]. destruct IH as [_ IH]. discriminate IH.
          exists l1, z, l2. split; auto. split; auto. intros u HU. apply H1. now right.
        * split.
          -- intros E. injection E as <-. destruct (proj1 IH eq_refl) as (l1 & z & l2 & -> & H1 & H2). exists (x :: l1), z, l2. split; auto. split; auto.
             intros y [<-|HY]; eauto.
          -- intros ([|y l1] & z & l2 & E & H1 & H2); injection E as <- E'; [congruence|]. destruct IH as [_ IH]. f_equal. assert (X : Err e' = Err e :> res (list (element V))); [|congruence].
             apply IH. exists l1, z, l2. split; auto. split; auto. intros u HU. apply H1. now right.
      + split.
        * intros E. injection E as <-. exists [], x, l. split; auto. split; auto. intros y [].
        * intros ([|y l1] & z & l2 & E & H1 & H2); injection E as <- E'; [congruence|]. destruct (H1 x (or_introl eq_refl)) as [k HK]. congruence.
  Qed.
  Lemma rfilter_nil (f : element V -> res bool) l : rfilter f l = Ok [] <-> forall y, In y l -> f y = Ok false.
  Proof.
    induction l as [|x l IH]; cbn [rfilter]; [split; auto; intros _ y []|].
    destruct (f x) as [[]|e] eqn:EX; cbn [rbind].
    - split; [destruct (rfilter f l); discriminate|]. intros H. specialize (H x (or_introl eq_refl)). congruence.
    - destruct (rfilter f l) as [r|] eqn:ER; cbn [rbind].
      + split; intros H.
        * injection H as ->. intros y [<-|HY]; auto. apply IH; auto.
        * f_equal. assert (X : Ok r = Ok []) by (apply IH; intros y HY; apply H; now right). congruence.
      + split; [discriminate|]. intros H. assert (X : Err e = Ok [] :> res (list (element V))) by (apply IH; intros y HY; apply H; now right). discriminate.
    - split; [discriminate|]. intros H. specialize (H x (or_introl eq_refl)). congruence.
  Qed.
  Lemma sorted_nil (l : list (element V)) : sorted l = [] <-> l = [].
  Proof. split; [|intros ->; reflexivity]. destruct l as [|x l]; auto. intros E. destruct (sorted_nonempty (x :: l)); [discriminate|exact E]. Qed.
  (** Before map_fn is called. *)
  Lemma first_phase a (o : aoptions V) prev (w : win V) e :
    rbind (window_elements a o prev (wn_els w)) (fun els => resolve_outgoing prev els) = Err e <-> unpresentable a o prev w e.
  Proof.
    assert (HO : forall els x, resolve_outgoing prev els = Err x <-> els = [] /\ prev <> [] /\ x = IndexError).
    { intros els x. destruct els as [|y els].
      - destruct prev; cbn; [split; [discriminate|intros (_ & X & _); congruence]|]. split; [intros E; injection E as <-; repeat split; discriminate|intros (_ & _ & ->); reflexivity].
      - destruct (outgoing_ok prev (y :: els)) as [out ->]; [discriminate|]. split; [discriminate|intros (X & _); discriminate]. }
    unfold unpresentable, nothing_left, window_elements. destruct a; cbn [rbind].
    1,2,5: rewrite HO, sorted_nil; split; [intros (A & B & C); auto 10|intros [(X & _)|[(X & _)|((A & B & _) & C)]]; try discriminate; auto].
    - rewrite HO, sorted_nil. split; [intros (A & B & _); destruct (B (proj2 (app_eq_nil _ _ A)))|intros [(X & _)|[(X & _)|((_ & _ & []) & _)]]; discriminate].
    - destruct (ao_filter o) as [f|] eqn:EF; cbn [rbind].
      + destruct (rfilter f prev) as [kept|e'] eqn:ER; cbn [rbind].
        * rewrite HO, sorted_nil. split.
          -- intros (A & B & C). apply app_eq_nil in A. destruct A as [-> A]. rewrite sorted_nil in A. right. right. split; auto. split; auto. split; auto. exists f. split; auto. now apply rfilter_nil.
          -- intros [(_ & X & _)|[(_ & f' & X & HB)|((A & B & f' & X & HB) & C)]]; [discriminate| |].
             ++ injection X as <-. apply rfilter_err in HB. congruence.
             ++ injection X as <-. apply rfilter_nil in HB. rewrite ER in HB. injection HB as ->. rewrite A. auto.
        * split.
          -- intros E. injection E as <-. right. left. split; auto. exists f. split; auto. now apply rfilter_err.
          -- intros [(_ & X & _)|[(_ & f' & X & HB)|((A & B & f' & X & HB) & C)]]; [discriminate| |]; injection X as <-.
             ++ apply rfilter_err in HB. congruence.
             ++ apply rfilter_nil in HB. congruence.
      + split; [intros E; injection E as <-; auto|]. intros [(_ & _ & ->)|[(_ & f & X & _)|((_ & _ & f & X & _) & _)]]; auto; discriminate.
  Qed.
  (** process raises [e] exactly for these reasons if the algorithm is not attenuation; nothing is then stored. *)
  Theorem C141_escapes : forall a (o : aoptions V) (cb : callbacks V SS R) t0 (w : win V) (b : bags V SS) e,
    a <> Attenuation ->
    (snd (process a o cb t0 w b) = Err e <-> current w b /\ unpresentable a o (last (b_els b) []) w e).
  Proof.
    intros a o cb t0 w b e NA. rewrite current_test, <- first_phase. unfold process. destruct (Qclt_bool _ _); cbn [snd]; [split; [discriminate|intros [X _]; discriminate]|].
    change (last (b_els b) []) with (last_or [] (b_els b)).
    destruct (window_elements _ _ _ _) as [els|e']; cbn [rbind snd]; [|split; [intros E; injection E as ->; auto|intros [_ E]; exact (f_equal (fun r => match r with Ok _ => Ok [] | Err x => Err x end) E)]].
    destruct (resolve_outgoing _ _) as [out|e']; cbn [snd]; [|split; [intros E; injection E as ->; auto|intros [_ E]; injection E as ->; auto]].
    split; [|intros [_ X]; discriminate].
    destruct (cb_map _ _ _ _ _ _) as [pm [m|e']]; [|discriminate].
    replace (match a with Attenuation => attenuate (wn_env w) (wn_envs w) (ao_key o) (ao_min_scale o) m | _ => (m, Ok tt) end)
      with ((m, Ok tt) : lmodel * res unit) by (destruct a; congruence).
    destruct (cb_solve _ _ _ _ _ _) as [m2 [ss|e']]; [|discriminate]. discriminate.
  Qed.
  Theorem C141_nothing_stored : forall a (o : aoptions V) (cb : callbacks V SS R) t0 (w : win V) (b : bags V SS) e,
    current w b -> unpresentable a o (last (b_els b) []) w e -> process a o cb t0 w b = (b, Err e).
  Proof.
    intros a o cb t0 w b e HC HU. apply first_phase in HU. apply current_test in HC. unfold process. rewrite HC. change (last (b_els b) []) with (last_or [] (b_els b)) in HU.
    destruct (window_elements _ _ _ _) as [els|e']; cbn [rbind] in HU; [|injection HU as ->; reflexivity]. rewrite HU. reflexivity.
  Qed.
  (** Every window with an element gets its output with the window, delta and incremental algorithms, whatever the callbacks do. *)
  Theorem C141_never : forall a (o : aoptions V) (cb : callbacks V SS R) t0 (w : win V) (b : bags V SS),
    a = Window \/ a = Delta \/ a = Incremental -> wn_els w <> [] -> exists x, snd (process a o cb t0 w b) = Ok [x].
  Proof.
    intros a o cb t0 w b HA HN. destruct (snd (process a o cb t0 w b)) as [l|e] eqn:E.
    - unfold process in E. destruct (Qclt_bool _ _); [injection E as <-; eauto|]. destruct (window_elements _ _ _ _) as [els|e]; [|discriminate]. destruct (resolve_outgoing _ _) as [out|e]; [|discriminate].
      destruct (cb_map _ _ _ _ _ _) as [pm [m|e]]; [|injection E as <-; eauto]. destruct (match a with Attenuation => _ | _ => _ end) as [m1 [x|e]]; [|discriminate].
      destruct (cb_solve _ _ _ _ _ _) as [m2 [ss|e]]; injection E as <-; eauto.
    - apply C141_escapes in E; [|intros ->; destruct HA as [X|[X|X]]; discriminate]. destruct E as [_ [(X & _)|[(X & _)|((X & _) & _)]]]; [| |congruence]; subst a; destruct HA as [Y|[Y|Y]]; discriminate.
  Qed.

  (** *** Attenuation *)
  Lemma all_nums_err l : (exists r, all_nums l = Ok r) \/ (all_nums l = Err TypeError /\ exists i, i < length l /\ forall q, nth i l ANan <> ANum q).
  Proof.
    induction l as [|x l IH]; cbn [all_nums]; [left; eauto|]. destruct x as [|q|s]; try (right; split; [reflexivity|exists 0; split; [cbn; lia|cbn; discriminate]]).
    destruct IH as [[r ->]|[-> (i & L & H)]]; cbn [rbind]; [left; eauto|]. right. split; auto. exists (S i). split; [cbn; lia|exact H].
  Qed.
  Lemma all_nums_ok l r : all_nums l = Ok r -> length r = length l /\ forall i, i < length l -> exists q, nth i l ANan = ANum q.
  Proof.
    revert r. induction l as [|x l IH]; intros r E; cbn [all_nums] in E; [injection E as <-; split; auto; intros i L; cbn in L; lia|].
    destruct x as [|q|s]; try discriminate. destruct (all_nums l) as [t|]; [|discriminate]. cbn [rbind] in E. injection E as <-. destruct (IH t eq_refl) as [A B].
    split; [cbn; congruence|]. intros [|i] L; cbn; [eauto|]. apply B. cbn in L. lia.
  Qed.
  Lemma ref_verdict (o : aoptions V) m : aligned m ->
    verdict (attenuation_problems o m) (raised (lift (rbind (match ao_key o with Some k => Ok k | None => Err KeyError end) (fun k =>
       rbind (ref_column m k) (fun ref => rbind (list_min ref) (fun lo => rbind (list_max ref) (fun hi =>
         match ao_min_scale o with Some s => Ok (ref, lo, hi, s) | None => Err KeyError end))))) m)).
  Proof.
    intros HA. unfold raised, lift. cbn [snd]. destruct (ao_key o) as [k|] eqn:EK; cbn [rbind]; unfold attenuation_problems; rewrite EK; [|now here]. next; [discriminate|].
    assert (HC : (k <> "timestamp"%string /\ ~ In k (m_attrs m) /\ ref_column m k = Err KeyError) \/
                 exists c, ref_column m k = all_nums c /\ length c = length (m_rows m) /\ (forall i q, i < length c -> (number_at m k i q <-> nth i c ANan = ANum q)) /\ ~ (k <> "timestamp"%string /\ ~ In k (m_attrs m))).
    { destruct HA as (HL & HK & HN & HF). unfold ref_column, number_at. destruct (String.eqb_spec k "timestamp") as [->|NE].
      - right. eexists. split; [reflexivity|]. split; [apply map_length|]. split; [|intros [X _]; congruence]. intros i q L. rewrite map_length in L.
        destruct (nth_error (m_rows m) i) as [r|] eqn:ER; [|apply nth_error_None in ER; lia].
        set (g := fun r : row => match r_ts r with Some q0 => ANum q0 | None => ANan end). assert (EN : nth i (map g (m_rows m)) ANan = g r).
        { apply nth_error_nth. rewrite nth_error_map, ER. reflexivity. } rewrite EN. unfold g. split.
        + intros (r' & X & Y). injection X as <-. rewrite Y. reflexivity.
        + intros H. exists r. split; auto. destruct (r_ts r); [injection H as ->; reflexivity|discriminate].
      - destruct (dget k (m_cols m)) as [c|] eqn:EC.
        + right. exists c. split; auto. rewrite Forall_forall in HF. pose proof (dget_in _ _ _ EC) as HI. specialize (HF _ HI). cbn [snd] in HF. split; [congruence|]. split.
          * intros i q L. unfold attr_val. rewrite EC. tauto.
          * intros [_ X]. apply X. rewrite <- HK. apply dget_some_in. eauto.
        + left. split; auto. split; auto. rewrite <- HK. intros X. apply dget_some_in in X. destruct X as [v X]. congruence. }
    destruct HC as [(N1 & N2 & ->)|(c & EC & LC & HNUM & NK)]; cbn [rbind].
    - here. exists k. auto.
    - next; [intros (k' & X & Y); injection X as <-; auto|]. rewrite EC. destruct (all_nums_err c) as [[r ER]|[ER (i & L & H)]]; rewrite ER; cbn [rbind].
      + destruct (all_nums_ok _ _ ER) as [LR HQ]. next.
        * intros (k' & i & X & L & H). injection X as <-. rewrite <- LC in L. destruct (HQ i L) as [q Hq]. apply (H q). apply HNUM; auto.
        * destruct r as [|x r]; cbn [list_min list_max rbind].
          -- here. destruct (m_rows m); auto. cbn in LR. rewrite LC in LR. discriminate.
          -- next; [intros X; rewrite X in LC; cbn in LR, LC; lia|]. destruct (ao_min_scale o) as [s|]; [next; [discriminate|constructor]|now here].
      + here. exists k, i. split; auto. split; [congruence|]. intros q HQ. apply HNUM in HQ; auto. exact (H q HQ).
  Qed.
  Lemma attenuate_raises ev evs (o : aoptions V) m m1 p : to_physical ev evs [] m = (m1, Ok p) -> aligned m1 ->
    verdict (attenuation_problems o m1) (raised (attenuate ev evs (ao_key o) (ao_min_scale o) m)).
  Proof.
    intros EP A1. pose proof (ref_verdict o m1 A1) as HV. unfold attenuate. unfold bind at 1. rewrite EP. unfold raised, lift in *. cbn [snd] in HV.
    unfold bind at 1, get at 1. destruct (ao_key o) as [k|]; cbn [rbind] in HV; [|exact HV]. unfold bind at 1.
    destruct (ref_column m1 k) as [ref|e0] eqn:ER; cbn [rbind] in HV; [|exact HV]. unfold bind at 1.
    destruct ref as [|q ref]; cbn [list_min list_max rbind] in *; [exact HV|]. unfold bind at 1. unfold bind at 1.
    destruct (ao_min_scale o) as [s|]; [|exact HV]. unfold bind at 1.
    assert (HL : length (q :: ref) = length (m_rows m1)).
    { clear - ER A1. destruct A1 as (HL & HK & HN & HF). unfold ref_column in ER. destruct (String.eqb k "timestamp").
      - apply all_nums_ok in ER. rewrite map_length in ER. tauto.
      - destruct (dget k (m_cols m1)) as [c|] eqn:EC; [|discriminate]. apply all_nums_ok in ER. rewrite Forall_forall in HF. specialize (HF _ (dget_in _ _ _ EC)). cbn [snd] in HF. destruct ER. congruence. }
    destruct (Qclt_bool _ _); [|exact HV]. rewrite rescale_all by exact HL. exact HV.
  Qed.
  Lemma process_attenuates (o : aoptions V) (cb : callbacks V SS R) t0 (w : win V) (b : bags V SS) m :
    current w b -> wn_els w <> [] -> (forall els inc out, snd (cb_map cb (stored_model t0 b) (stored_ss b) els inc out) = Ok m) ->
    match raised (attenuate (wn_env w) (wn_envs w) (ao_key o) (ao_min_scale o) m) with
    | Some e => snd (process Attenuation o cb t0 w b) = Err e
    | None => exists y, snd (process Attenuation o cb t0 w b) = Ok [y]
    end.
  Proof.
    intros HC HN HM. apply current_test in HC. unfold process. rewrite HC. cbn [window_elements].
    destruct (outgoing_ok (last_or [] (b_els b)) (sorted (wn_els w))) as [out EO]; [now apply sorted_nonempty|]. rewrite EO.
    specialize (HM (sorted (wn_els w)) (resolve_incoming (last_or [] (b_els b)) (sorted (wn_els w))) out). unfold stored_model, stored_ss in HM.
    fold (last_or (new_model t0) (b_model b)) in HM. change (last (map Some (b_ss b)) None) with (last_or None (map Some (b_ss b))) in HM.
    destruct (cb_map cb _ _ _ _ _) as [pm mr]. cbn [snd] in HM. subst mr.
    destruct (attenuate _ _ _ _ m) as [m2 [u|e]]; unfold raised; cbn [snd]; [|reflexivity].
    destruct (cb_solve _ _ _ _ _ _) as [m3 [ss|e]]; eexists; reflexivity.
  Qed.
  (** With attenuation, after map_fn returned [m]: what to_physical raises comes first, then the problems above in
      this order; otherwise there is exactly one output. *)
  Theorem C141_attenuation : forall (o : aoptions V) (cb : callbacks V SS R) t0 (w : win V) (b : bags V SS) m m1 r,
    current w b -> wn_els w <> [] -> aligned m ->
    (forall els inc out, snd (cb_map cb (stored_model t0 b) (stored_ss b) els inc out) = Ok m) ->
    to_physical (wn_env w) (wn_envs w) [] m = (m1, r) ->
    match r with
    | Err e => snd (process Attenuation o cb t0 w b) = Err e
    | Ok _ => forall x, verdict (attenuation_problems o m1) x <-> match x with
                | Some e => snd (process Attenuation o cb t0 w b) = Err e
                | None => exists y, snd (process Attenuation o cb t0 w b) = Ok [y]
                end
    end.
  Proof.
    intros o cb t0 w b m m1 r HC HN HA HM EP. assert (A1 : aligned m1) by (eapply al_physical; eauto).
    pose proof (process_attenuates o cb t0 w b m HC HN HM) as HP. destruct r as [p|e].
    - pose proof (attenuate_raises (wn_env w) (wn_envs w) o m m1 p EP A1) as HV. intros x. rewrite (verdict_decides _ _ HV x).
      destruct (raised _) as [e|]; (destruct x as [e'|]).
      + split; intros X; congruence.
      + split; [discriminate|]. intros [y X]. congruence.
      + split; [discriminate|]. destruct HP as [y HP]. intros X. congruence.
      + tauto.
    - unfold attenuate in HP. unfold bind at 1 in HP. rewrite EP in HP. exact HP.
  Qed.
End escape.

(** ** Concrete cases *)
Definition odd_only : aoptions nat := mkAo (Some (fun x => if Nat.eqb (el_idx x) 7 then Err (UserError 1) else Ok (Nat.odd (el_idx x)))) None None.
Definition held (l : list (element nat)) : bags nat nat := mkBags [qz 5] [l] [new_model Qubo] [1].
Example C141_escapes_hyps :
  unpresentable Partial odd_only (last (b_els (held [e_ 1 0; e_ 2 3; e_ 3 7; e_ 4 9])) []) (w_ 8 [e_ 6 10]) (UserError 1) /\
  unpresentable Partial odd_only (last (b_els (held [e_ 1 0; e_ 2 2])) []) (w_ 8 []) IndexError /\
  unpresentable Partial o_ [] (w_ 8 [e_ 6 10]) KeyError /\
  unpresentable Delta o_ (last (b_els (held [e_ 1 0])) []) (w_ 8 []) IndexError /\ current (w_ 8 []) (held [e_ 1 0]) /\
  ~ unpresentable Partial odd_only (last (b_els (held [e_ 1 0; e_ 2 3])) []) (w_ 8 []) IndexError.
Proof.
  unfold unpresentable, nothing_left. cbn [b_els held last wn_els w_]. split; [|split; [|split; [|split; [|split]]]].
  - right. left. split; auto. eexists. split; [reflexivity|]. exists [e_ 1 0; e_ 2 3], (e_ 3 7), [e_ 4 9]. split; [reflexivity|]. split; [|reflexivity].
    intros y [<-|[<-|[]]]; eexists; reflexivity.
  - right. right. split; auto. split; auto. split; [discriminate|]. eexists. split; [reflexivity|]. intros y [<-|[<-|[]]]; reflexivity.
  - left. auto.
  - right. right. repeat split; discriminate.
  - intros t <-. vm_compute. discriminate.
  - intros [(_ & X & _)|[(_ & f & X & l1 & x & l2 & EL & _ & HX)|((_ & _ & f & X & HF) & _)]]; [discriminate| |]; injection X as <-.
    + assert (HI : In x [e_ 1 0; e_ 2 3]) by (rewrite EL; apply in_or_app; right; now left). destruct HI as [<-|[<-|[]]]; discriminate.
    + specialize (HF (e_ 2 3) (or_intror (or_introl eq_refl))). discriminate.
Qed.
(** A model without interactions: the window fails with ValueError. *)
Example C141_attenuation_hyps :
  let cb := mkCb (fun m _ _ _ _ => (m, Ok m)) (fun m (_ : option nat) (_ _ _ : list (element nat)) => (m, Ok 0)) (fun _ _ _ _ => Ok 0) in
  let w := w_ 5 [e_ 3 0] in
  current w (@no_bags nat nat) /\ wn_els w <> [] /\ aligned (new_model Qubo) /\
  (forall els inc out, snd (cb_map cb (stored_model Qubo (@no_bags nat nat)) (stored_ss (@no_bags nat nat)) els inc out) = Ok (new_model Qubo)) /\
  exists m1 p, to_physical (wn_env w) (wn_envs w) [] (new_model Qubo) = (m1, Ok p) /\ verdict (attenuation_problems attn_o m1) (Some ValueError).
Proof.
  cbv zeta. split; [intros t <-; vm_compute; discriminate|]. split; [discriminate|]. split; [repeat split; constructor|]. split; [reflexivity|].
  eexists. eexists. split; [reflexivity|]. next; [discriminate|]. next; [intros (k & X & Y & _); injection X as <-; congruence|].
  next; [intros (k & i & _ & L & _); cbn in L; lia|]. here. reflexivity.
Qed.
Print Assumptions C141_escapes.
Print Assumptions C141_nothing_stored.
Print Assumptions C141_never.
Print Assumptions C141_attenuation.
