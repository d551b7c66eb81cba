(** * PropsHandover: C84, what one window of a stream hands to the next. *)
From Verif Require Import PyBase PyLemmas Numbers Constraint LogicalModel Solver SolverProofs.
From Verif Require Import Stream StreamSpec PropsStream PropsPipeline.
Open Scope list_scope.

Section handover.
  Context {V SS R : Type} (s0 : SS).

  (** What is presented is determined. *)
  Definition probe : callbacks V SS (list (element V) * list (element V) * list (element V)) :=
    mkCb (fun m _ _ _ _ => (m, Ok m)) (fun m _ _ _ _ => (m, Ok s0)) (fun _ els inc out => Ok (els, inc, out)).
  Lemma presents_inv a (o : aoptions V) t0 w (b : bags V SS) els inc out :
    a <> Attenuation -> presents a o t0 w b els inc out ->
    Qclt_bool (wn_ts w) (last_or (- (1))%Qc (b_ts b)) = false /\
    window_elements a o (last_or [] (b_els b)) (wn_els w) = Ok els /\
    resolve_outgoing (last_or [] (b_els b)) els = Ok out /\
    resolve_incoming (last_or [] (b_els b)) els = inc.
  Proof.
    intros NA H. specialize (H _ probe). cbn in H. specialize (H NA). unfold process in H.
    destruct (Qclt_bool (wn_ts w) (last_or (- (1))%Qc (b_ts b))); [discriminate|].
    destruct (window_elements a o (last_or [] (b_els b)) (wn_els w)) as [els'|]; [|discriminate].
    destruct (resolve_outgoing (last_or [] (b_els b)) els') as [out'|] eqn:EO; [|discriminate].
    cbn in H. destruct a; try congruence; cbn in H; injection H as -> -> ->; auto.
  Qed.
  Lemma presents_unique a (o : aoptions V) t0 w (b : bags V SS) els inc out els' inc' out' :
    a <> Attenuation -> presents a o t0 w b els inc out -> presents a o t0 w b els' inc' out' ->
    els = els' /\ inc = inc' /\ out = out'.
  Proof.
    intros NA H H'. destruct (presents_inv _ _ _ _ _ _ _ _ NA H) as (_ & E & O & I).
    destruct (presents_inv _ _ _ _ _ _ _ _ NA H') as (_ & E' & O' & I').
    rewrite E in E'. injection E' as <-. rewrite O in O'. injection O' as <-. rewrite I in I'. auto.
  Qed.

  Lemma last_removelast A (l : list A) (d x : A) : last (removelast l ++ [x]) d = x.
  Proof. apply last_last. Qed.

  (** One window: what the state holds afterwards. *)
  Theorem C84_state a (o : aoptions V) (cb : callbacks V SS R) t0 w (b : bags V SS) els inc out b' x :
    a <> Attenuation -> presents a o t0 w b els inc out -> process a o cb t0 w b = (b', x) ->
    match cb_map cb (stored_model t0 b) (stored_ss b) els inc out with
    | (touched, Err _) =>
        stored_ss b' = stored_ss b /\
        stored_model t0 b' = (if wn_same w && negb (Nat.eqb (length (b_model b)) 0) then touched else stored_model t0 b)
    | (_, Ok mapped) =>
        match cb_solve cb mapped (stored_ss b) els inc out with
        | (left_, Err _) => stored_model t0 b' = left_ /\ stored_ss b' = stored_ss b
        | (left_, Ok s) => stored_model t0 b' = left_ /\ stored_ss b' = Some s
        end
    end.
  Proof.
    intros NA HP E. destruct (presents_inv _ _ _ _ _ _ _ _ NA HP) as (L & EW & EO & EI). unfold process in E.
    rewrite L, EW, EO, EI in E.
    fold (stored_ss b) in E. fold (stored_model t0 b) in E. unfold last_or in E.
    change (last (map Some (b_ss b)) None) with (stored_ss b) in E. change (last (b_model b) (new_model t0)) with (stored_model t0 b) in E.
    destruct (cb_map cb (stored_model t0 b) (stored_ss b) els inc out) as [pm [m|e]].
    - replace (match a with Attenuation => attenuate (wn_env w) (wn_envs w) (ao_key o) (ao_min_scale o) m | _ => (m, Ok tt) end)
        with ((m, Ok tt) : lmodel * res unit) in E by (destruct a; congruence).
      destruct (cb_solve cb m (stored_ss b) els inc out) as [m2 [s|e]]; injection E as <- _; split; reflexivity.
    - injection E as <- _. destruct (wn_same w && negb (Nat.eqb (length (b_model b)) 0)); split; try reflexivity.
      unfold stored_model. cbn. apply last_last.
  Qed.

  Lemma outcomes_from a (o : aoptions V) (cb : callbacks V SS R) t0 : a <> Attenuation -> forall ws b log,
    map_fn_safe cb ws -> presented a o cb t0 b ws log ->
    snd (run a o cb t0 ws b) = Ok (outcomes cb (stored_model t0 b) (stored_ss b) log).
  Proof.
    intros NA ws. induction ws as [|w ws IH]; intros b [|((els, inc), out) log] HS HP; try contradiction; auto.
    destruct HP as [P HP]. cbn [run]. unfold bind at 1.
    destruct (process a o cb t0 w b) as [b' x] eqn:E. pose proof (C84_state _ _ _ _ _ _ _ _ _ _ _ NA P E) as ST.
    pose proof (P _ cb) as Y. cbn in Y. rewrite E in Y. cbn [snd] in Y.
    assert (HS' : map_fn_safe cb ws) by (destruct HS as [HS|HS]; [left; intros; apply HS; right; auto|right; auto]).
    cbn [outcomes]. cbn [fst] in HP. specialize (IH b' log HS' HP).
    assert (STEP : forall y, x = Ok y -> snd (match x with Ok z => bind (run a o cb t0 ws) (fun y0 => ret (z :: y0)) b' | Err e => (b', Err e) end)
      = Ok (y :: outcomes cb (stored_model t0 b') (stored_ss b') log)).
    { intros y ->. unfold bind. destruct (run a o cb t0 ws b') as [b'' r]. cbn [snd] in IH. rewrite IH. reflexivity. }
    destruct (cb_map cb (stored_model t0 b) (stored_ss b) els inc out) as [pm [m|e]] eqn:EM; cbn [snd] in Y.
    - specialize (Y NA). destruct (cb_solve cb m (stored_ss b) els inc out) as [m2 [s|e]]; cbn [snd] in Y; destruct ST as [<- <-]; apply STEP; auto.
    - destruct ST as [<- SM]. assert (EQ : stored_model t0 b' = stored_model t0 b).
      { rewrite SM. destruct HS as [HS|HS].
        - rewrite (HS w (or_introl eq_refl)). reflexivity.
        - destruct (wn_same w && _); auto. specialize (HS (stored_model t0 b) (stored_ss b) els inc out e). rewrite EM in HS. apply HS. reflexivity. }
      rewrite <- EQ. apply STEP; auto.
  Qed.
  Theorem C84_history a (o : aoptions V) (cb : callbacks V SS R) t0 ws log :
    a <> Attenuation -> map_fn_safe cb ws -> presented a o cb t0 no_bags ws log ->
    snd (run a o cb t0 ws no_bags) = Ok (outcomes cb (new_model t0) None log).
  Proof. intros. apply (outcomes_from a o cb t0) with (b := no_bags); auto. Qed.
End handover.

(** Together with C50 and C51: what a stream cut into windows yields. *)
Theorem C84_windows {V SS R} (s0 : SS) a (o : aoptions V) (cb : callbacks V SS R) t0 stream lo hi rs w ws :
  windowed a -> a <> Attenuation -> NoDup (map el_idx stream) -> map_fn_safe cb (w :: ws) ->
  in_time (- (1))%Qc (w :: ws) -> (lo <= hi)%Qc -> moving stream lo hi rs ->
  Forall2 (fun r w => wn_els w <> [] /\ Permutation (wn_els w) (range stream (fst r) (snd r)))
          ((lo, hi) :: rs) (w :: ws) ->
  exists log,
    snd (run a o cb t0 (w :: ws) no_bags) = Ok (outcomes cb (new_model t0) None log) /\
    chronological (concat (incoming_of log)) /\
    Permutation (concat (incoming_of log)) (range stream lo (end_of hi rs)) /\
    concat (incoming_of log) = concat (outgoing_of log) ++ last (elements_of log) [].
Proof.
  intros Ha NA Hn HS Hit Hlh Hm Hf.
  destruct (C50_history a o cb t0 stream lo hi rs w ws Ha NA Hn Hit Hlh Hm Hf) as (log & HP & H).
  exists log. split; auto. apply (C84_history s0); auto.
Qed.
Theorem C84_incremental {V SS R} (s0 : SS) (o : aoptions V) (cb : callbacks V SS R) t0 ws :
  map_fn_safe cb ws -> in_time (- (1))%Qc ws ->
  exists log,
    snd (run Incremental o cb t0 ws no_bags) = Ok (outcomes cb (new_model t0) None log) /\
    outgoing_of log = map (fun _ => []) ws /\
    forall k els, nth_error (elements_of log) k = Some els ->
      chronological els /\ Permutation els (concat (map wn_els (firstn (S k) ws))).
Proof.
  intros HS Hit. destruct (C51_history o cb t0 ws Hit) as (log & HP & H).
  exists log. split; auto. apply (C84_history s0); auto. discriminate.
Qed.

(** ** C85: the order in which the elements of a window are delivered *)

(** The same window, its elements delivered in another order. *)
Definition reordered {V} (w w' : win V) : Prop :=
  wn_ts w = wn_ts w' /\ wn_same w = wn_same w' /\ wn_env w = wn_env w' /\ wn_envs w = wn_envs w' /\
  Permutation (wn_els w) (wn_els w') /\ NoDup (map el_idx (wn_els w)).
Lemma sorted_order {V} (l l' : list (element V)) : Permutation l l' -> NoDup (map el_idx l) -> sorted l = sorted l'.
Proof.
  intros P N. apply sorted_unique; auto; [apply sorted_chronological|]. eapply perm_trans; [exact P|apply sorted_perm].
Qed.
Theorem C85_window {V SS R} a (o : aoptions V) (cb : callbacks V SS R) t0 w w' b :
  reordered w w' -> process a o cb t0 w b = process a o cb t0 w' b.
Proof.
  intros (H1 & H2 & H3 & H4 & HP & HN). unfold process. rewrite H1, H2, H3, H4.
  assert (E : forall prev, window_elements a o prev (wn_els w) = window_elements a o prev (wn_els w')).
  { intros prev. unfold window_elements. rewrite (sorted_order _ _ HP HN). reflexivity. }
  rewrite E. reflexivity.
Qed.
Theorem C85_history {V SS R} a (o : aoptions V) (cb : callbacks V SS R) t0 ws ws' :
  Forall2 reordered ws ws' -> forall b, run a o cb t0 ws b = run a o cb t0 ws' b.
Proof.
  induction 1 as [|w w' ws ws' H HF IH]; intros b; auto. cbn [run]. unfold bind. rewrite (C85_window a o cb t0 w w' b H).
  destruct (process a o cb t0 w' b) as [b' [x|e]]; auto. rewrite IH. reflexivity.
Qed.

(** ** Concrete cases *)

(** Functions that record what they receive in the model's offset: map_fn adds
    the previous answer, solve_fn counts the windows. solve_fn fails on windows
    of two elements. *)
Definition cb_off : callbacks nat Qc Qc :=
  mkCb (fun m ss _ _ _ => (m, Ok (with_offset (CNum ((match m_offset m with CNum q => q | _ => 0 end) + match ss with Some q => q | None => 0 end)%Qc) m)))
       (fun m _ els _ _ =>
          let off := match m_offset m with CNum q => q | _ => 0%Qc end in
          (with_offset (CNum (off + 1)%Qc) m, if (length els =? 2)%nat then Err (UserError 3) else Ok off))
       (fun ss _ _ _ => Ok ss).
Example C84_hyps :
  map_fn_safe cb_off ws_ /\ windowed Window /\ NoDup (map el_idx stream_) /\
  exists log, presented Window o_ cb_off Ising no_bags ws_ log /\ length log = 6 /\
    map (map (fun x => match x with Solved q => Some (this q) | _ => None end)) (outcomes cb_off (new_model Ising) None log) =
    [[Some (0 # 1)]; [None]; [None]; [Some (3 # 1)]; [Some (7 # 1)]; [Some (15 # 1)]]%Q.
Proof.
  split; [left; intros w H; repeat destruct H as [<-|H]; try reflexivity; destruct H|].
  split; [left; reflexivity|]. split; [repeat constructor; cbn; intuition discriminate|].
  eexists. split; [traced|]. split; [reflexivity|vm_compute; reflexivity].
Qed.
Example C85_hyps : Forall2 reordered [w_ 5 [e_ 4 2; e_ 3 1]; w_ 6 []] [w_ 5 [e_ 3 1; e_ 4 2]; w_ 6 []] /\
  wn_els (w_ 5 [e_ 4 2; e_ 3 1]) <> wn_els (w_ 5 [e_ 3 1; e_ 4 2]).
Proof.
  split; [|intros E; injection E; discriminate].
  constructor; [|constructor; [|constructor]]; repeat split; auto; try apply perm_swap; repeat constructor; cbn; intuition discriminate.
Qed.
Print Assumptions C84_state.
Print Assumptions C84_history.
Print Assumptions C84_windows.
Print Assumptions C84_incremental.
Print Assumptions C85_window.
Print Assumptions C85_history.
