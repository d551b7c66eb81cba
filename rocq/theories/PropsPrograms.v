(** * PropsPrograms: programs with several models, shared constraints and shared sets (C95, C96, C97). *)
From Verif Require Import PyBase PyLemmas Constraint LogicalModel Spec LogicalProofs ConstraintProofs History ConstrFrame Heap HeapSpec HeapProofs Samples.
Require Import Lia.
Open Scope list_scope.

(** ** What a statement touches *)
Definition touched_models (s : stmt) : list nat :=
  match s with SOp i _ => [i] | SMerge i j => [i; j] | SAddConstraint i _ => [i] | _ => [] end.
Definition touched_obj (w : world) (s : stmt) (d : nat) : Prop :=
  match s with
  | SAddVariable c _ | SRemoveVariable c _ | SEqAdd _ c _ | SEqRemove _ c _ => d = c
  | SOp i o => holds_any w i d /\ plain o = false
  | _ => False
  end.
Definition touched_set (s : stmt) (t : nat) : Prop := match s with SSetAdd u _ | SSetDiscard u _ => t = u | _ => False end.
Record frame (w w' : world) (s : stmt) : Prop := mkFrame {
  f_ok : ok w';
  f_models : forall k h, nth_error (w_models w) k = Some h -> ~ In k (touched_models s) -> nth_error (w_models w') k = Some h;
  f_objs : forall d o, nth_error (w_objs w) d = Some o -> ~ touched_obj w s d -> nth_error (w_objs w') d = Some o;
  f_sets : forall t, t < length (w_sets w) -> ~ touched_set s t -> set_at w' t = set_at w t;
  f_links : forall k h' c l, nth_error (w_models w') k = Some h' -> In (l, c) (h_constrs h') ->
     holds_any w k c \/ length (w_objs w) <= c \/
     match s with SMerge i j => k = i /\ holds_any w j c | SAddConstraint i x => k = i /\ x = Some c | _ => False end;
  f_count : length (w_models w') = match s with SModel _ => S (length (w_models w)) | _ => length (w_models w) end;
  f_slen : length (w_sets w) <= length (w_sets w') }.
Definition no_model (s : stmt) : bool := match s with SModel _ => false | _ => true end.
Lemma same_count {A B} (l : list A) (l' : list B) : (forall j, nth_error l j = None <-> nth_error l' j = None) -> length l' = length l.
Proof.
  intros H. assert (A1 := proj2 (nth_error_None l (length l)) (le_n _)). apply H in A1. apply nth_error_None in A1.
  assert (A2 := proj2 (nth_error_None l' (length l')) (le_n _)). apply H in A2. apply nth_error_None in A2. lia.
Qed.

Lemma frame_only w w' s P : ok w' -> only w w' P -> (forall d, P d -> touched_obj w s d) -> w_models w' = w_models w -> no_model s = true -> frame w w' s.
Proof.
  intros HO ON HP HM HS. split; auto.
  - intros k h E _. rewrite HM. exact E.
  - intros d o E HN. assert (L := nth_error_lt _ _ _ E). destruct (on_same _ _ _ ON d L) as [X _]; [auto|congruence].
  - intros t HT _. apply ON, HT.
  - intros k h' c l E HI. left. rewrite HM in E. exists h', l. auto.
  - rewrite HM. destruct s; auto; discriminate.
  - apply ON.
Qed.
Lemma links_of_op w i ev evs o h w' r h' : ok w -> nth_error (w_models w) i = Some h -> h_op ev evs i o w = (w', r) -> nth_error (w_models w') i = Some h' ->
  forall l c, In (l, c) (h_constrs h') -> In (l, c) (h_constrs h) \/ length (w_objs w) <= c.
Proof.
  intros HW EH E EH' l c HI. assert (HL := nth_error_lt _ _ _ EH).
  assert (ON : forall f w w' r h', nth_error (w_models w) i = Some h -> on_model i f w = (w', r) -> nth_error (w_models w') i = Some h' -> h_constrs h' = h_constrs h).
  { intros f w1 w2 r1 g A B C. unfold on_model, bind, get_model, get in B. rewrite A in B. destruct (f (content w1 h)). unfold set_model, lift in B. inversion B; subst w2 r1.
    simpl in C. rewrite put_nth_same in C by (eapply nth_error_lt; eauto). inversion C; reflexivity. }
  destruct o; cbn [h_op] in E; try (left; erewrite <- ON; eauto; fail).
  - left. unfold h_delete in E. unfold bind at 1, get_model in E. rewrite EH in E. destruct (t_truthy t); cbn [guard] in E; [|inversion E; subst; congruence].
    unfold bind at 1, ret at 1 in E. destruct t as [|v|a|]; try (inversion E; subst; congruence).
    unfold bind at 1 in E. set (f1 := modify _) in E. assert (HF1 : frame_c (m_constrs (content w h)) f1) by (apply fc_modify; auto).
    destruct (on_model_spec w i h f1 HW EH HF1) as (h1 & E1 & HC1 & HV1 & HO1). rewrite E1 in E. unfold f1, modify in E. cbn [snd] in E. unfold bind at 1 in E.
    set (w1 := with_models (put_nth i h1 (w_models w)) w) in *. assert (EH1 : nth_error (w_models w1) i = Some h1) by (simpl; apply put_nth_same; auto).
    destruct (mfor (h_constrs h) _ w1) as [w2 r2] eqn:E2. destruct (del_objs v h1 (h_constrs h) w1 w2 r2 HO1 (nth_error_In _ _ EH1)) as (A & B & C & D); [rewrite HC1; apply incl_refl|exact E2|].
    destruct r2 as [u|e].
    + unfold on_model at 1 in E. unfold bind at 1, get_model in E. rewrite B, EH1 in E. unfold bind at 1, get in E.
      match type of E with (let (m, r) := ?f ?x in _) _ = _ => destruct (f x) as [m2 r3] end. unfold bind, set_model, lift in E. inversion E; subst w' r. simpl in EH'.
      rewrite B in EH'. simpl in EH'. rewrite put_nth_same in EH' by (rewrite put_nth_length; auto). inversion EH'; subst h'. simpl in HI. rewrite <- HC1. exact HI.
    + inversion E; subst. rewrite B, EH1 in EH'. inversion EH'; subst. rewrite <- HC1. exact HI.
  - destruct c0 as [c0|].
    + unfold bind at 1, get_model in E. rewrite EH in E. unfold bind at 1 in E. destruct (fresh_spec w c0 HW) as (w1 & F1 & F2 & F3 & F4 & F5 & F6). rewrite F1 in E.
      unfold h_add_constraint, bind, get_model, get_obj in E. rewrite F4, EH in E. destruct (nth_error (w_objs w1) (length (w_objs w))) as [x|] eqn:EX; [|apply nth_error_None in EX; lia].
      unfold set_model in E. inversion E; subst w' r. simpl in EH'. rewrite F4, put_nth_same in EH' by auto. inversion EH'; subst h'. simpl in HI. apply dset_in in HI. destruct HI as [[_ ->]|HI]; auto.
    + unfold h_add_constraint, bind, get_model in E. rewrite EH in E. inversion E; subst. left. congruence.
  - left. unfold h_remove_constraint, bind, get_model in E. rewrite EH in E. destruct l0 as [l0|]; [|inversion E; subst; congruence]. destruct (dmem l0 (h_constrs h)); [|inversion E; subst; congruence].
    unfold set_model in E. inversion E; subst w' r. simpl in EH'. rewrite put_nth_same in EH' by auto. inversion EH'; subst h'. simpl in HI. revert HI. generalize (h_constrs h). clear.
    intros d. induction d as [|[a b] d IH]; simpl; auto. destruct (String.eqb l0 a); simpl; intuition.
Qed.
Lemma frame_same w s : ok w -> no_model s = true -> frame w w s.
Proof. intros H HS. split; auto. - intros k h' c l E HI. left. exists h', l; auto. - destruct s; auto; discriminate. Qed.
Lemma make_frame w x v w' r s : makes x v -> ok w -> no_model s = true -> x w = (w', r) -> frame w w' s.
Proof. intros HM HW HS E. destruct (HM w w' r HW E) as (A & B & C & _). eapply frame_only; eauto. intros d []. Qed.
Lemma method_frame w h v c a w' r s : method_spec h v -> ok w -> no_model s = true -> touched_obj w s c -> h c a w = (w', r) -> (forall w, length (w_objs w) <= c -> h c a w = (w, Err UnboundLocalError)) -> frame w w' s.
Proof.
  intros HS HW HNM HT E HN. destruct (le_lt_dec (length (w_objs w)) c) as [HC|HC].
  - rewrite HN in E by auto. inversion E; subst. apply frame_same; auto.
  - destruct (HS w c a w' r HW HC E) as (A & B & _). eapply frame_only; [exact A|apply (changes_only _ _ _ _ B)| |apply B|exact HNM]. intros d ->. exact HT.
Qed.
Lemma no_obj w c : length (w_objs w) <= c -> nth_error (w_objs w) c = None.
Proof. apply nth_error_None. Qed.
Lemma no_method h w c a : h = h_add_variable \/ h = h_remove_variable \/ (exists b, h = h_eq_add b) \/ (exists b, h = h_eq_remove b) ->
  length (w_objs w) <= c -> h c a w = (w, Err UnboundLocalError).
Proof.
  intros H L. apply no_obj in L. destruct H as [->|[->|[[b ->]|[b ->]]]]; unfold h_add_variable, h_remove_variable, h_eq_add, h_eq_remove, bind, get_obj; rewrite L; reflexivity.
Qed.
Lemma set_change_frame w f t w' r s : ok w -> no_model s = true -> (forall vs, NoDup vs -> NoDup (f vs)) -> touched_set s t -> set_change f t w = (w', r) -> frame w w' s.
Proof.
  intros HW HNM HF HT E. unfold set_change in E. destruct (nth_error (w_sets w) t) as [vs|] eqn:ET; [|inversion E; subst; apply frame_same; auto].
  inversion E; subst w' r. split; simpl; auto.
  - split; simpl; try apply HW.
    + apply Forall_forall. intros x HX. apply put_nth_in in HX. destruct HX as [->|HX]; [|exact (proj1 (Forall_forall _ _) (ok_sets _ HW) _ HX)].
      apply HF. exact (proj1 (Forall_forall _ _) (ok_sets _ HW) _ (nth_error_In _ _ ET)).
    + intros o u. rewrite put_nth_length. apply HW.
  - intros u HU HN. unfold set_at. simpl. apply nth_put_other. intros ->. auto.
  - intros k h' c l EK HI. left. exists h', l; auto.
  - destruct s; auto; discriminate.
  - rewrite put_nth_length. auto.
Qed.
Lemma exec_frame ids ev evo evs s w w' r : ok w -> exec ids ev evo evs s w = (w', r) -> frame w w' s.
Proof.
  intros HW E. destruct s; cbn [exec] in E.
  - unfold bind, new_set, ret in E. inversion E; subst w' r.
    assert (N : NoDup (to_set [] vs)) by (apply to_set_nodup; constructor).
    eapply frame_only; [exact (new_set_ok w _ HW N)|exact (grows_only w _ (fun _ => False) HW (new_set_grows w (to_set [] vs)) eq_refl)|intros d []|reflexivity|reflexivity].
  - eapply set_change_frame; eauto; [|reflexivity]. intros vs N. apply union_nodup, N.
  - eapply set_change_frame; eauto; [|reflexivity]. intros vs N. apply diff_nodup, N.
  - eapply make_frame; [apply nhot_makes|auto|reflexivity|exact E].
  - eapply make_frame; [apply zero_or_one_makes|auto|reflexivity|exact E].
  - eapply make_frame; [apply equality_makes|auto|reflexivity|exact E].
  - eapply method_frame; [apply add_spec|auto|reflexivity|reflexivity|exact E|]. intros; apply no_method; auto.
  - eapply method_frame; [apply remove_spec|auto|reflexivity|reflexivity|exact E|]. intros; apply no_method; auto.
  - eapply method_frame; [apply (eq_add_spec side1)|auto|reflexivity|reflexivity|exact E|]. intros; apply no_method; eauto.
  - eapply method_frame; [apply (eq_remove_spec side1)|auto|reflexivity|reflexivity|exact E|]. intros; apply no_method; eauto.
  - inversion E; subst w' r. split; simpl; auto.
    + split; simpl; try apply HW.
      * intros h HI. apply in_app_or in HI. destruct HI as [HI|[<-|[]]]; [apply HW, HI|constructor].
      * intros h kc HI HK. apply in_app_or in HI. destruct HI as [HI|[<-|[]]]; [apply (ok_links _ HW h kc HI HK)|destruct HK].
    + intros k h EK _. rewrite nth_error_app1 by (eapply nth_error_lt; eauto). exact EK.
    + intros k h' c l EK HI. destruct (le_lt_dec (length (w_models w)) k) as [L|L].
      * rewrite nth_error_app2 in EK by lia. destruct (k - length (w_models w)) as [|[|]]; simpl in EK; inversion EK; subst. destruct HI.
      * rewrite nth_error_app1 in EK by lia. left. exists h', l; auto.
    + rewrite app_length. simpl. lia.
  - destruct (nth_error (w_models w) i) as [h|] eqn:EH.
    2: { unfold h_add_constraint, bind, get_model in E. rewrite EH in E. inversion E; subst. apply frame_same; [exact HW|reflexivity]. }
    destruct c as [c|]. 2: { unfold h_add_constraint, bind, get_model in E. rewrite EH in E. inversion E; subst. apply frame_same; [exact HW|reflexivity]. }
    destruct (nth_error (w_objs w) c) as [o|] eqn:EO.
    2: { unfold h_add_constraint, bind, get_model, get_obj in E. rewrite EH, EO in E. inversion E; subst. apply frame_same; [exact HW|reflexivity]. }
    assert (HL := nth_error_lt _ _ _ EH). destruct (add_constraint_own w i c (fun _ => False) HW (nth_error_lt _ _ _ EO) h w' r EH E) as (A & B & C & h' & D & _). split; auto.
    + intros k g EK HN. rewrite C; auto. intros ->. apply HN. simpl; auto.
    + intros d x EX _. destruct (on_same _ _ _ B d (nth_error_lt _ _ _ EX)) as [X _]; auto. congruence.
    + intros t HT _. apply B, HT.
    + unfold h_add_constraint, bind, get_model, get_obj in E. rewrite EH, EO in E. unfold set_model in E. inversion E; subst w' r. intros k g d l EK HI. simpl in EK.
      destruct (Nat.eq_dec i k) as [<-|NE]; [|rewrite put_nth_other in EK by auto; left; exists g, l; auto].
      rewrite put_nth_same in EK by auto. inversion EK; subst g. simpl in HI. apply dset_in in HI. destruct HI as [[_ ->]|HI]; [right; right; auto|left; exists h, l; auto].
    + apply same_count. intros j. destruct (Nat.eq_dec j i) as [->|NE]; [rewrite EH, D; split; discriminate|rewrite C by auto; reflexivity].
    + apply B.
  - destruct (nth_error (w_models w) i) as [h|] eqn:EH.
    2: { assert (X : exec ids ev evo evs (SOp i o) w = (w, Err UnboundLocalError)); [|cbn [exec] in X; rewrite X in E; inversion E; subst; apply frame_same; [exact HW|reflexivity]].
         cbn [exec]. destruct o; cbn [h_op]; try (unfold on_model, bind, get_model; rewrite EH; reflexivity);
           [unfold h_delete|destruct c; [|unfold h_add_constraint]|unfold h_remove_constraint]; unfold bind, get_model; rewrite EH; reflexivity. }
    destruct (op_own w i ev evs o HW h w' r EH E) as (A & B & C & h' & D & _). split; auto.
    + intros k g EK HN. rewrite C; auto. intros ->. apply HN. simpl; auto.
    + intros d x EX HN. destruct (on_same _ _ _ B d (nth_error_lt _ _ _ EX)) as [X _]; auto. congruence.
    + intros t HT _. apply B, HT.
    + intros k g d l EK HI. destruct (Nat.eq_dec k i) as [->|NE]; [|rewrite C in EK by auto; left; exists g, l; auto].
      destruct (links_of_op w i ev evs o h w' r g HW EH E EK l d HI) as [X|X]; [left; exists h, l; auto|auto].
    + apply same_count. intros j. destruct (Nat.eq_dec j i) as [->|NE]; [rewrite EH, D; split; discriminate|rewrite C by auto; reflexivity].
    + apply B.
  - destruct (nth_error (w_models w) i) as [h|] eqn:EH.
    2: { unfold h_merge, bind, get_model in E. rewrite EH in E. inversion E; subst. apply frame_same; [exact HW|reflexivity]. }
    destruct (Nat.eq_dec i j) as [<-|NE].
    + destruct (merge_self_spec ids ev evo w i h w' r HW EH E) as (A & B & C & D & h' & F & G & _). split; auto.
      * intros k g EK HN. rewrite D; auto. intros ->. apply HN. simpl; auto.
      * intros d x EX _. rewrite B. exact EX.
      * intros t HT _. unfold set_at. rewrite C. reflexivity.
      * intros k g d l EK HI. left. destruct (Nat.eq_dec k i) as [->|NK]; [|rewrite D in EK by auto; exists g, l; auto]. rewrite F in EK. inversion EK; subst g. rewrite G in HI.
        apply merged_in in HI. exists h, l. split; auto. destruct HI; auto.
      * apply same_count. intros j. destruct (Nat.eq_dec j i) as [->|NE]; [rewrite EH, F; split; discriminate|rewrite D by auto; reflexivity].
      * rewrite C. auto.
    + destruct (nth_error (w_models w) j) as [g|] eqn:EG.
      2: { unfold h_merge, bind, get_model in E. rewrite EH, EG in E. inversion E; subst. apply frame_same; [exact HW|reflexivity]. }
      destruct (merge_spec ids ev evo w i j h g w' r HW NE EH EG E) as (A & B & C & D & h' & g' & F & F' & G & G' & _). split; auto.
      * intros k x EK HN. rewrite D; auto; intros ->; apply HN; simpl; auto.
      * intros d x EX _. rewrite B. exact EX.
      * intros t HT _. unfold set_at. rewrite C. reflexivity.
      * intros k x d l EK HI. destruct (Nat.eq_dec k i) as [->|NK].
        -- rewrite F in EK. inversion EK; subst x. rewrite G in HI. apply merged_in in HI. destruct HI as [HI|HI]; [left; exists h, l; auto|]. right; right. split; auto. exists g, l; auto.
        -- left. destruct (Nat.eq_dec k j) as [->|NJ]; [|rewrite D in EK by auto; exists x, l; auto]. rewrite F' in EK. inversion EK; subst x. rewrite G' in HI. exists g, l; auto.
      * apply same_count. intros k. destruct (Nat.eq_dec k i) as [->|NI]; [rewrite EH, F; split; discriminate|].
        destruct (Nat.eq_dec k j) as [->|NJ]; [rewrite EG, F'; split; discriminate|]. rewrite D by auto. reflexivity.
      * rewrite C. auto.
Qed.
Lemma ok_empty : ok empty_world.
Proof. split; simpl; try constructor; intros; contradiction. Qed.
Lemma runs_ok ids w : runs ids w -> ok w.
Proof. induction 1; [apply ok_empty|]. destruct (exec ids ev evo evs s w) eqn:E. apply (exec_frame _ _ _ _ _ _ _ _ IHruns E). Qed.

(** ** C95: models of a program *)
Lemma holds_get w k l c : ok w -> (holds w k l c <-> exists h, nth_error (w_models w) k = Some h /\ In (l, c) (h_constrs h)).
Proof.
  intros HW. split; intros (h & E & H); exists h; split; auto.
  - apply dget_in, H.
  - apply in_dget; auto. apply (ok_keys _ HW), (nth_error_In _ _ E).
Qed.
Lemma held_any w k c : ok w -> (held w k c <-> holds_any w k c).
Proof.
  intros HW. split.
  - intros (l & H). apply (proj1 (holds_get _ _ _ _ HW)) in H. destruct H as (h & E & H). exists h, l. auto.
  - intros (h & l & E & H). exists l. apply holds_get; auto. exists h. auto.
Qed.
Lemma as_sets_same o : set_like o -> op_sets o = o.
Proof.
  assert (T : forall vs, NoDup vs -> to_set [] vs = vs) by (intros; apply (to_set_app vs []); auto).
  destruct o; simpl; auto. destruct c as [[vs n l s|vs l s|a b l s]|]; simpl; auto; [intros H|intros H|intros [H1 H2]]; rewrite ?T; auto.
Qed.

(** A call of a method of model [i] does to it exactly what the theorems about single models say. *)
Theorem C95_calls : forall ids w i m ev evo evs o, runs ids w -> model_at w i = Some m -> set_like o ->
  model_at (fst (exec ids ev evo evs (SOp i o) w)) i = Some (fst (do_op ev evs o m)) /\
  snd (exec ids ev evo evs (SOp i o) w) = snd (do_op ev evs o m).
Proof.
  intros ids w i m ev evo evs o HR EM HS. assert (HW := runs_ok _ _ HR). unfold model_at in EM. destruct (nth_error (w_models w) i) as [h|] eqn:EH; inversion EM; subst m.
  cbn [exec]. destruct (h_op ev evs i o w) as [w' r] eqn:E. destruct (op_own w i ev evs o HW h w' r EH E) as (A & B & C & h' & D & F).
  rewrite as_sets_same in F by auto. rewrite F. unfold model_at. cbn [fst snd]. rewrite D. auto.
Qed.
(** merge of two models is the merge of their contents; the program's ids are the ids it sees. *)
Theorem C95_merge : forall ids w i j m o ev evo evs, runs ids w -> i <> j -> model_at w i = Some m -> model_at w j = Some o ->
  exists m' o' r, merge (mkEnv (e_now ev) (e_import ev) (e_clock_str ev) (ids i) (fun _ => ids j)) evo 0 m o = (m', o', r) /\
    model_at (fst (exec ids ev evo evs (SMerge i j) w)) i = Some m' /\ model_at (fst (exec ids ev evo evs (SMerge i j) w)) j = Some o' /\
    snd (exec ids ev evo evs (SMerge i j) w) = r.
Proof.
  intros ids w i j m o ev evo evs HR NE EM EO. assert (HW := runs_ok _ _ HR). unfold model_at in EM, EO.
  destruct (nth_error (w_models w) i) as [h|] eqn:EH; inversion EM; subst m. destruct (nth_error (w_models w) j) as [g|] eqn:EG; inversion EO; subst o.
  cbn [exec]. destruct (h_merge ids ev evo i j w) as [w' r] eqn:E. destruct (merge_spec ids ev evo w i j h g w' r HW NE EH EG E) as (A & B & C & D & h' & g' & F & F' & G & G' & H).
  exists (content w' h'), (content w' g'), r. cbn [fst snd]. unfold model_at. rewrite F, F'. auto.
Qed.
(** merge of a model with itself. *)
Theorem C95_merge_itself : forall ids w i m ev evo evs, runs ids w -> model_at w i = Some m ->
  exists m' r, merge (mkEnv (e_now ev) (e_import ev) (e_clock_str ev) (ids i) (fun _ => ids i)) evo 0 m m = (m', m, r) /\
    model_at (fst (exec ids ev evo evs (SMerge i i) w)) i = Some m' /\ snd (exec ids ev evo evs (SMerge i i) w) = r.
Proof.
  intros ids w i m ev evo evs HR EM. assert (HW := runs_ok _ _ HR). unfold model_at in EM.
  destruct (nth_error (w_models w) i) as [h|] eqn:EH; inversion EM; subst m.
  cbn [exec]. destruct (h_merge ids ev evo i i w) as [w' r] eqn:E. destruct (merge_self_spec ids ev evo w i h w' r HW EH E) as (A & B & C & D & h' & F & G & H).
  exists (content w' h'), r. cbn [fst snd]. unfold model_at. rewrite F. auto.
Qed.

(** Every model of every program is one the theorems about single models speak of. *)
Lemma readd w h D core : reachable (with_constrs D core) -> forall todo done,
  (forall kc, In kc todo -> c_label (constr_at w (snd kc)) = fst kc) -> dkeys D = dkeys (done ++ todo) -> NoDup (dkeys D) ->
  (forall k c, In (k, c) done -> dget k D = Some (constr_at w c)) -> h = done ++ todo ->
  exists D', reachable (with_constrs D' core) /\ dkeys D' = dkeys D /\ forall k c, In (k, c) h -> dget k D' = Some (constr_at w c).
Proof.
  intros HR todo. revert D HR. induction todo as [|[k c] todo IH]; intros D HR done HL HK HN HD ->.
  - exists D. rewrite app_nil_r. auto.
  - assert (EL := HL (k, c) (or_introl eq_refl)). cbn [fst snd] in EL.
    assert (HR2 := r_op (mkEnv 0%Qc 0%Qc (fun _ => "") "" (fun _ => "")) (fun _ => mkEnv 0%Qc 0%Qc (fun _ => "") "" (fun _ => "")) (OAddConstraint (Some (constr_at w c))) _ HR).
    cbn [do_op add_constraint] in HR2. unfold modify in HR2. cbn [fst] in HR2. rewrite with_constrs_twice, EL in HR2. cbn [m_constrs with_constrs] in HR2.
    assert (KI : In k (dkeys D)) by (rewrite HK; unfold dkeys; rewrite map_app; apply in_or_app; right; left; reflexivity).
    destruct (IH (dset k (constr_at w c) D) HR2 (done ++ [(k, c)])) as (D' & A & B & C).
    + intros kc HI. apply HL. right; exact HI.
    + rewrite dset_keys_in by auto. rewrite <- app_assoc. exact HK.
    + apply dset_nodup, HN.
    + assert (NK : ~ In k (dkeys done)).
      { rewrite HK in HN. unfold dkeys in HN. rewrite map_app in HN. simpl in HN. apply NoDup_remove_2 in HN. intros X. apply HN. apply in_or_app. left. exact X. }
      intros k' c' HI. apply in_app_or in HI. destruct HI as [HI|[HI|[]]].
      * rewrite dget_dset_other; auto. intros ->. apply NK. apply (in_map fst) in HI. exact HI.
      * inversion HI; subst. apply dget_dset_same.
    + rewrite <- app_assoc. reflexivity.
    + exists D'. split; auto. split; auto. rewrite B. apply dset_keys_in, KI.
Qed.
Lemma dict_same (d : dict string nat) (D : dict string constr) f : dkeys D = dkeys d -> NoDup (dkeys d) -> (forall k c, In (k, c) d -> dget k D = Some (f c)) ->
  D = map (fun kc => (fst kc, f (snd kc))) d.
Proof.
  revert D. induction d as [|[k c] d IH]; intros [|[a b] D] HK HN HD; simpl in *; try discriminate; auto. inversion HK; subst. inversion HN as [|? ? N1 N2]; subst.
  assert (X := HD k c (or_introl eq_refl)). rewrite String.eqb_refl in X. inversion X; subst. f_equal. apply IH; auto. intros k' c' HI.
  specialize (HD k' c' (or_intror HI)). destruct (String.eqb k' k) eqn:E; auto. apply String.eqb_eq in E. subst. exfalso. apply N1. apply (in_map fst) in HI. exact HI.
Qed.
Lemma reach_swap w w' h : ok w' -> In h (w_models w') -> reachable (content w h) -> reachable (content w' h).
Proof.
  intros HW HI HR. assert (HN := ok_keys _ HW _ HI). unfold content in HR.
  destruct (readd w' (h_constrs h) _ _ HR (h_constrs h) []) as (D & A & B & C); auto.
  - intros [k c] HK. destruct (link_label _ _ _ _ HW HI HK) as (o & EO & EL). simpl. rewrite (constr_at_some _ _ _ EO), value_label. exact EL.
  - unfold dkeys. rewrite map_map. reflexivity.
  - unfold dkeys. rewrite map_map. exact HN.
  - intros k c [].
  - unfold content. rewrite <- (dict_same (h_constrs h) D (constr_at w')); auto. rewrite B. unfold dkeys. rewrite map_map. reflexivity.
Qed.
Theorem C95_faithful : forall ids w i m, runs ids w -> model_at w i = Some m -> reachable m.
Proof.
  intros ids w i m HR. revert i m. induction HR as [|ev evo evs s w HR IH]; intros i m EM; [unfold model_at in EM; simpl in EM; destruct i; discriminate|].
  assert (HW := runs_ok _ _ HR). destruct (exec ids ev evo evs s w) as [w' r] eqn:E. cbn [fst] in *. assert (F := exec_frame _ _ _ _ _ _ _ _ HW E). assert (HW' := f_ok _ _ _ F).
  unfold model_at in EM. destruct (nth_error (w_models w') i) as [h'|] eqn:EH'; inversion EM; subst m. clear EM.
  assert (OLD : nth_error (w_models w) i = Some h' -> reachable (content w' h')).
  { intros X. apply (reach_swap w); auto; [eapply nth_error_In; eauto|]. apply (IH i). unfold model_at. rewrite X. reflexivity. }
  assert (IHc : forall k h, nth_error (w_models w) k = Some h -> reachable (content w h)) by (intros k h X; apply (IH k); unfold model_at; rewrite X; reflexivity).
  assert (BND : forall h, nth_error (w_models w) i = Some h -> ~ In i (touched_models s) -> reachable (content w' h')).
  { intros h X N. apply OLD. rewrite (f_models _ _ _ F _ _ X N) in EH'. congruence. }
  destruct (nth_error (w_models w) i) as [h|] eqn:EH.
  2: { destruct s; try (apply nth_error_lt in EH'; apply nth_error_None in EH; rewrite (f_count _ _ _ F) in EH'; lia).
       cbn [exec] in E. inversion E; subst w' r. simpl in EH'. apply nth_error_None in EH. rewrite nth_error_app2 in EH' by lia.
       destruct (i - length (w_models w)) as [|[|]]; simpl in EH'; inversion EH'; subst h'. apply (r_new t). }
  destruct (in_dec Nat.eq_dec i (touched_models s)) as [HT|HT]; [|exact (BND h eq_refl HT)].
  destruct s; simpl in HT; try contradiction; cbn [exec] in E.
  - destruct HT as [->|[]]. destruct c as [c|]; [|unfold h_add_constraint, bind, get_model in E; rewrite EH in E; inversion E; subst; apply OLD; congruence].
    destruct (nth_error (w_objs w) c) as [o|] eqn:EO; [|unfold h_add_constraint, bind, get_model, get_obj in E; rewrite EH, EO in E; inversion E; subst; apply OLD; congruence].
    destruct (add_constraint_own w i c (fun _ => False) HW (nth_error_lt _ _ _ EO) h w' r EH E) as (A & B & C & h2 & D & G). rewrite D in EH'. inversion EH'; subst h2.
    assert (X := r_op ev evs (OAddConstraint (Some (constr_at w c))) _ (IHc i h EH)). cbn [do_op] in X. rewrite G in X. exact X.
  - destruct HT as [->|[]]. destruct (op_own w i ev evs o HW h w' r EH E) as (A & B & C & h2 & D & G). rewrite D in EH'. inversion EH'; subst h2.
    assert (X := r_op ev evs (op_sets o) _ (IHc i h EH)). rewrite G in X. exact X.
  - rename i0 into a. destruct (Nat.eq_dec a j) as [->|NE].
    + assert (i = j) by (destruct HT as [HT|[HT|[]]]; auto). subst j. destruct (merge_self_spec ids ev evo w i h w' r HW EH E) as (A & B & C & D & h2 & G & G2 & K).
      rewrite G in EH'. inversion EH'; subst h2. assert (X := r_merge (with_ids (ids i) (ids i) ev) evo 0 _ _ (IHc i h EH) (IHc i h EH)). rewrite K in X. exact X.
    + destruct (nth_error (w_models w) a) as [ha|] eqn:EA; [|unfold h_merge, bind, get_model in E; rewrite EA in E; inversion E; subst; apply OLD; congruence].
      destruct (nth_error (w_models w) j) as [hj|] eqn:EJ; [|unfold h_merge, bind, get_model in E; rewrite EA, EJ in E; inversion E; subst; apply OLD; congruence].
      destruct (merge_spec ids ev evo w a j ha hj w' r HW NE EA EJ E) as (A & B & C & D & h2 & g2 & G & G' & G2 & G3 & K).
      destruct HT as [->|[->|[]]].
      * rewrite G in EH'. inversion EH'; subst h2. assert (X := r_merge (with_ids (ids i) (ids j) ev) evo 0 _ _ (IHc i ha EA) (IHc j hj EJ)). rewrite K in X. exact X.
      * rewrite G' in EH'. inversion EH'; subst g2. assert (X := r_merged (with_ids (ids a) (ids i) ev) evo 0 _ _ (IHc a ha EA) (IHc i hj EJ)). rewrite K in X. exact X.
Qed.

Lemma delete_links w i t w' r h h' : ok w -> nth_error (w_models w) i = Some h -> h_delete i t w = (w', r) -> nth_error (w_models w') i = Some h' -> h_constrs h' = h_constrs h.
Proof.
  intros HW EH E EH'. assert (HL := nth_error_lt _ _ _ EH). unfold h_delete in E. unfold bind at 1, get_model in E. rewrite EH in E. destruct (t_truthy t); cbn [guard] in E; [|inversion E; subst; congruence].
  unfold bind at 1, ret at 1 in E. destruct t as [|v|a|]; try (inversion E; subst; congruence).
  unfold bind at 1 in E. set (f1 := modify _) in E. assert (HF1 : frame_c (m_constrs (content w h)) f1) by (apply fc_modify; auto).
  destruct (on_model_spec w i h f1 HW EH HF1) as (h1 & E1 & HC1 & HV1 & HO1). rewrite E1 in E. unfold f1, modify in E. cbn [snd] in E. unfold bind at 1 in E.
  set (w1 := with_models (put_nth i h1 (w_models w)) w) in *. assert (EH1 : nth_error (w_models w1) i = Some h1) by (simpl; apply put_nth_same; auto).
  destruct (mfor (h_constrs h) _ w1) as [w2 r2] eqn:E2. destruct (del_objs v h1 (h_constrs h) w1 w2 r2 HO1 (nth_error_In _ _ EH1)) as (A & B & C & D); [rewrite HC1; apply incl_refl|exact E2|].
  destruct r2 as [u|e].
  - unfold on_model at 1 in E. unfold bind at 1, get_model in E. rewrite B, EH1 in E. unfold bind at 1, get in E.
    match type of E with (let (m, r) := ?f ?x in _) _ = _ => destruct (f x) as [m2 r3] end. unfold bind, set_model, lift in E. inversion E; subst w' r. simpl in EH'.
    rewrite B in EH'. simpl in EH'. rewrite put_nth_same in EH' by (rewrite put_nth_length; auto). inversion EH'; subst h'. simpl. exact HC1.
  - inversion E; subst. rewrite B, EH1 in EH'. inversion EH'; subst. exact HC1.
Qed.
(** What a method of model [i] does to another model: nothing, except that a
    constraint object both hold is changed for both by delete_variable. *)
Lemma content_others w w' s k h : ok w -> frame w w' s -> nth_error (w_models w) k = Some h ->
  (forall t, ~ touched_set s t) -> (forall l c, In (l, c) (h_constrs h) -> ~ touched_obj w s c) -> content w' h = content w h.
Proof.
  intros HW F EH HS HO. unfold content. f_equal. apply map_ext_in. intros [l c] HI. simpl. f_equal.
  destruct (link_label _ _ _ _ HW (nth_error_In _ _ EH) HI) as (o & EO & _). rewrite (constr_at_some _ _ _ EO), (constr_at_some _ _ _ (f_objs _ _ _ F _ _ EO (HO _ _ HI))).
  apply value_grows; [eapply obj_sets; eauto|]. intros t HT. apply (f_sets _ _ _ F); auto.
Qed.
Theorem C95_others : forall ids w i k m m' ev evo evs o, runs ids w -> i <> k ->
  model_at w k = Some m -> model_at (fst (exec ids ev evo evs (SOp i o) w)) k = Some m' ->
  m' = with_constrs (m_constrs m') m /\ dkeys (m_constrs m') = dkeys (m_constrs m) /\
  ((forall t, o <> ODelete t) -> m' = m) /\
  forall l c, holds w k l c ->
    (~ held w i c -> dget l (m_constrs m') = dget l (m_constrs m)) /\
    (held w i c -> forall mi', model_at (fst (exec ids ev evo evs (SOp i o) w)) i = Some mi' -> (exists t, o = ODelete t) -> dget l (m_constrs m') = dget l (m_constrs mi')).
Proof.
  intros ids w i k m m' ev evo evs o HR NE EM EM'. assert (HW := runs_ok _ _ HR). destruct (exec ids ev evo evs (SOp i o) w) as [w' r] eqn:E. cbn [fst] in *.
  assert (F := exec_frame _ _ _ _ _ _ _ _ HW E). unfold model_at in EM, EM'. destruct (nth_error (w_models w) k) as [h|] eqn:EH; inversion EM; subst m.
  assert (NT : ~ In k (touched_models (SOp i o))) by (simpl; intros [X|[]]; auto). rewrite (f_models _ _ _ F _ _ EH NT) in EM'. inversion EM'; subst m'. clear EM EM'.
  assert (GET : forall l c, holds w k l c -> dget l (m_constrs (content w' h)) = Some (constr_at w' c) /\ dget l (m_constrs (content w h)) = Some (constr_at w c)).
  { intros l c (h0 & A & B). rewrite EH in A. inversion A; subst h0. rewrite !content_get, B. auto. }
  split; [unfold content; rewrite with_constrs_twice; reflexivity|]. split; [rewrite !content_keys; reflexivity|]. split.
  - intros HD. destruct (nth_error (w_models w) i) as [hi|] eqn:EI.
    + assert (PL : plain o = true \/ (exists c, o = OAddConstraint c) \/ (exists l, o = ORemoveConstraint l)).
      { destruct o; simpl; auto; [exfalso; eapply HD; reflexivity|right; left; eauto|right; right; eauto]. }
      cbn [exec] in E. destruct PL as [PL|[[c ->]|[l ->]]].
      * eapply content_others; eauto. intros l c HI [_ X]. congruence.
      * unfold content. f_equal. apply map_ext_in. intros [l d] HI. simpl. f_equal. destruct (link_label _ _ _ _ HW (nth_error_In _ _ EH) HI) as (x & EX & _). assert (LX := nth_error_lt _ _ _ EX).
        destruct c as [c|]; cbn [h_op] in E; [|unfold h_add_constraint, bind, get_model in E; rewrite EI in E; inversion E; reflexivity].
        unfold bind at 1, get_model in E. rewrite EI in E. unfold bind at 1 in E. destruct (fresh_spec w c HW) as (w1 & F1 & F2 & F3 & F4 & F5 & F6). rewrite F1 in E. rewrite <- F4 in EI.
        destruct (add_constraint_own w1 i _ (fun _ => False) F2 F5 hi w' r EI E) as (_ & B & _). destruct (on_same _ _ _ F3 d LX) as [_ X]; auto. rewrite <- X. apply B; auto. assert (Y := on_len _ _ _ F3). lia.
      * unfold content. f_equal. apply map_ext_in. intros [l0 d] HI. simpl. f_equal. destruct (link_label _ _ _ _ HW (nth_error_In _ _ EH) HI) as (x & EX & _). assert (LX := nth_error_lt _ _ _ EX).
        destruct (remove_constraint_own w i l (fun _ => False) HW hi w' r EI E) as (_ & B & _). apply B; auto.
    + eapply content_others; eauto. intros l c _ [(x & y & X & _) _]. congruence.
  - intros l c HH. destruct (GET l c HH) as [G1 G2]. rewrite G1, G2. split.
    + intros HN. f_equal. destruct HH as (h0 & A & B). rewrite EH in A. inversion A; subst h0. apply dget_in in B.
      destruct (link_label _ _ _ _ HW (nth_error_In _ _ EH) B) as (x & EX & _). rewrite (constr_at_some _ _ _ EX).
      assert (NO : ~ touched_obj w (SOp i o) c) by (simpl; intros [X _]; apply HN; apply held_any; auto). rewrite (constr_at_some _ _ _ (f_objs _ _ _ F _ _ EX NO)).
      apply value_grows; [eapply obj_sets; eauto|]. intros t HT. apply (f_sets _ _ _ F); auto.
    + intros (l2 & HI) mi' EMI [t ->]. assert (HH' := HH). apply (proj1 (holds_get _ _ _ _ HW)) in HI. apply (proj1 (holds_get _ _ _ _ HW)) in HH'.
      destruct HI as (hi & EI & HI). destruct HH' as (h0 & A & B). rewrite EH in A. inversion A; subst h0.
      destruct (link_label _ _ _ _ HW (nth_error_In _ _ EI) HI) as (x & EX & LX). destruct (link_label _ _ _ _ HW (nth_error_In _ _ EH) B) as (x' & EX' & LX').
      assert (HL2 : In (l, c) (h_constrs hi)) by (replace l with l2 by congruence; exact HI). cbn [exec h_op] in E. destruct (delete_own w i t HW hi w' r EI E) as (_ & _ & _ & hi' & D & _).
      unfold model_at in EMI. rewrite D in EMI. inversion EMI; subst mi'. rewrite content_get.
      assert (LK : h_constrs hi' = h_constrs hi).
      { apply (delete_links w i t w' r hi hi' HW EI); auto. }
      rewrite LK, (in_dget l c (h_constrs hi) (ok_keys _ HW _ (nth_error_In _ _ EI)) HL2). reflexivity.
Qed.

(** A program that works elsewhere leaves a model alone, if it was not shared at the start. *)
Theorem C95_isolated_partial : forall ids w k m p, runs ids w -> model_at w k = Some m -> private w k ->
  Forall (fun e => elsewhere w k (snd e)) p -> model_at (run_all ids p w) k = Some m.
Proof.
  intros ids w0 k m p HR EM HP HE. assert (HW0 := runs_ok _ _ HR). unfold model_at in EM. destruct (nth_error (w_models w0) k) as [h|] eqn:EH; inversion EM; subst m. clear EM.
  assert (HD : forall l c, In (l, c) (h_constrs h) -> held w0 k c) by (intros l c HI; apply held_any; auto; exists h, l; auto).
  assert (DH : forall c, held w0 k c -> exists l, In (l, c) (h_constrs h)).
  { intros c HC. apply (proj1 (held_any _ _ _ HW0)) in HC. destruct HC as (h0 & l & A & B). rewrite EH in A. inversion A; subst. eauto. }
  assert (GEN : forall p w, Forall (fun e => elsewhere w0 k (snd e)) p -> ok w -> nth_error (w_models w) k = Some h ->
    (forall c, held w0 k c -> nth_error (w_objs w) c = nth_error (w_objs w0) c) ->
    (forall c s, held w0 k c -> uses w0 c s -> s < length (w_sets w) /\ set_at w s = set_at w0 s) ->
    (forall i c, i <> k -> held w0 k c -> ~ holds_any w i c) -> model_at (run_all ids p w) k = Some (content w0 h)).
  { clear p HE. induction p as [|[[[ev evo] evs] s] p IH]; intros w HE HW EK HO HS HN; cbn [run_all].
    - unfold model_at. rewrite EK. simpl. f_equal. unfold content. f_equal. apply map_ext_in. intros [l c] HI. simpl. f_equal. assert (HC := HD l c HI).
      destruct (link_label _ _ _ _ HW0 (nth_error_In _ _ EH) HI) as (o & EO & _). assert (EO' := HO c HC). rewrite EO in EO'.
      rewrite (constr_at_some _ _ _ EO), (constr_at_some _ _ _ EO').
      assert (US : forall s, In s (sets_of o) -> set_at w s = set_at w0 s).
      { intros s HIS. apply (HS c); auto. exists o. split; auto. destruct o; simpl in HIS; intuition. }
      destruct o; simpl in *; rewrite !US by auto; reflexivity.
    - inversion HE as [|? ? HE1 HE2]; subst. cbn [snd] in HE1. destruct (exec ids ev evo evs s w) as [w' r] eqn:E. cbn [fst]. assert (F := exec_frame _ _ _ _ _ _ _ _ HW E).
      assert (TM : ~ In k (touched_models s)) by (destruct s; simpl in *; intuition).
      assert (TO : forall c, held w0 k c -> ~ touched_obj w s c).
      { intros c HC. destruct s; simpl in *; auto; try (intros ->; auto; fail). intros [X _]. apply (HN i c); auto. }
      assert (TS : forall c u, held w0 k c -> uses w0 c u -> ~ touched_set s u).
      { intros c u HC HU. destruct s; simpl in *; auto; intros ->; apply (HE1 c HC HU). }
      apply IH; auto.
      + apply F.
      + apply (f_models _ _ _ F); auto.
      + intros c HC. rewrite <- (HO c HC). destruct (DH c HC) as [l HI]. destruct (link_label _ _ _ _ HW0 (nth_error_In _ _ EH) HI) as (o & EO & _).
        assert (EO' : nth_error (w_objs w) c = Some o) by (rewrite HO; auto). rewrite EO'. apply (f_objs _ _ _ F); auto.
      + intros c u HC HU. destruct (HS c u HC HU) as [A B]. split; [assert (X := f_slen _ _ _ F); lia|]. rewrite <- B. apply (f_sets _ _ _ F); auto. eapply TS; eauto.
      + intros i c NI HC (h' & l & A & B). destruct (f_links _ _ _ F _ _ _ _ A B) as [X|[X|X]].
        * exact (HN i c NI HC X).
        * destruct (DH c HC) as [l2 HI]. destruct (link_label _ _ _ _ HW0 (nth_error_In _ _ EH) HI) as (o & EO & _). rewrite <- HO in EO by auto. apply nth_error_lt in EO. lia.
        * destruct s; try contradiction; destruct X as [-> X].
          -- simpl in HE1. exact (proj2 HE1 c X HC).
          -- simpl in HE1. exact (HN j c (proj2 HE1) HC X). }
  apply GEN; auto.
  - intros c s HC (o & EO & HU). split; auto. apply (obj_sets _ _ _ HW0 EO). destruct o; simpl; intuition.
  - intros i c NI HC X. apply (HP i c NI HC). apply held_any; auto.
Qed.

(** ** C96: a constraint object stays connected *)
Theorem C96_connected : forall ids w k l c m, runs ids w -> holds w k l c -> model_at w k = Some m ->
  dget l (m_constrs m) = Some (constr_at w c) /\ c_label (constr_at w c) = l.
Proof.
  intros ids w k l c m HR HH EM. assert (HW := runs_ok _ _ HR). assert (HH' := HH). apply (proj1 (holds_get _ _ _ _ HW)) in HH'. destruct HH' as (h & EH & HI).
  unfold model_at in EM. rewrite EH in EM. inversion EM; subst m. destruct (link_label _ _ _ _ HW (nth_error_In _ _ EH) HI) as (o & EO & EL). split.
  - rewrite content_get, (in_dget l c (h_constrs h) (ok_keys _ HW _ (nth_error_In _ _ EH)) HI). reflexivity.
  - rewrite (constr_at_some _ _ _ EO), value_label. exact EL.
Qed.
(** A method called on a constraint object changes it for every model that holds it, and nothing else. *)
Theorem C96_methods : forall ids w s c a f ev evo evs, runs ids w -> method s = Some (c, a, f) -> c < length (w_objs w) ->
  let w' := fst (exec ids ev evo evs s w) in
  constr_at w' c = fst (f (arg_value w a) (constr_at w c)) /\
  snd (exec ids ev evo evs s w) = snd (f (arg_value w a) (constr_at w c)) /\
  (forall d, d <> c -> d < length (w_objs w) -> constr_at w' d = constr_at w d) /\
  forall k m, model_at w k = Some m ->
    (forall l, holds w k l c -> model_at w' k = Some (with_constrs (dset l (constr_at w' c) (m_constrs m)) m)) /\
    (~ held w k c -> model_at w' k = Some m).
Proof.
  intros ids w s c a f ev evo evs HR HM HC. assert (HW := runs_ok _ _ HR). cbv zeta. destruct (exec ids ev evo evs s w) as [w' r] eqn:E. cbn [fst snd].
  assert (SP : exists h, method_spec h f /\ h c a w = (w', r)).
  { destruct s; inversion HM; subst; cbn [exec] in E; eauto using add_spec, remove_spec, eq_add_spec, eq_remove_spec. }
  destruct SP as (h & HS & EH). destruct (HS w c a w' r HW HC EH) as (A & CH & ER). split; [apply CH|]. split; [exact ER|]. split; [apply CH|].
  intros k m EM. unfold model_at in *. rewrite (ch_models _ _ _ _ CH). destruct (nth_error (w_models w) k) as [hk|] eqn:EK; inversion EM; subst m. split.
  - intros l HH. apply (proj1 (holds_get _ _ _ _ HW)) in HH. destruct HH as (h0 & A0 & HI). rewrite EK in A0. inversion A0; subst h0. simpl. f_equal.
    rewrite (ch_same _ _ _ _ CH). apply (content_held w w' hk c l); auto. eapply nth_error_In; eauto.
  - intros HN. simpl. f_equal. apply (content_unheld w w' hk c HW); [eapply nth_error_In; eauto|apply CH|]. intros l HI. apply HN. apply held_any; auto. exists hk, l; auto.
Qed.
(** add_constraint stores the object itself. *)
Theorem C96_add : forall ids w i c m ev evo evs, runs ids w -> model_at w i = Some m -> c < length (w_objs w) ->
  let w' := fst (exec ids ev evo evs (SAddConstraint i (Some c)) w) in
  holds w' i (c_label (constr_at w c)) c /\ snd (exec ids ev evo evs (SAddConstraint i (Some c)) w) = Ok tt /\
  model_at w' i = Some (fst (add_constraint (Some (constr_at w c)) m)) /\ (forall d, constr_at w' d = constr_at w d).
Proof.
  intros ids w i c m ev evo evs HR EM HC. assert (HW := runs_ok _ _ HR). cbv zeta. unfold model_at in EM. destruct (nth_error (w_models w) i) as [h|] eqn:EH; inversion EM; subst m.
  destruct (exec ids ev evo evs (SAddConstraint i (Some c)) w) as [w' r] eqn:E. cbn [fst snd exec] in *.
  destruct (add_constraint_own w i c (fun _ => False) HW HC h w' r EH E) as (A & B & C & h' & D & F). unfold model_at. rewrite D.
  destruct (nth_error (w_objs w) c) as [o|] eqn:EO; [|apply nth_error_None in EO; lia].
  unfold h_add_constraint, bind, get_model, get_obj in E. rewrite EH, EO in E. unfold set_model in E. inversion E; subst w' r. split; [|split; [reflexivity|split]].
  - simpl in D. rewrite put_nth_same in D by (eapply nth_error_lt; eauto). inversion D; subst h'. exists (mkH (h_core h) (dset (o_label o) c (h_constrs h))). split.
    + simpl. apply put_nth_same. eapply nth_error_lt; eauto.
    + rewrite (constr_at_some _ _ _ EO), value_label. apply dget_dset_same.
  - rewrite F. reflexivity.
  - reflexivity.
Qed.
(** The connection lasts until remove_constraint is called for it or another constraint of that label is added to the model. *)
Lemma merge_disjoint ev evo k m o m' o' u : merge ev evo k m o = (m', o', Ok u) -> forall l, In l (dkeys (m_constrs m)) -> ~ In l (dkeys (m_constrs o)).
Proof.
  assert (S : forall o m m' u, merge_same ev k o m = (m', Ok u) -> forall l, In l (dkeys (m_constrs m)) -> ~ In l (dkeys (m_constrs o))).
  { clear. intros o m m' u E l HI HO. unfold merge_same in E. unfold bind at 1, get at 1 in E.
    destruct (dims_ok m o); [|discriminate]. cbn [guard] in E. unfold bind at 1, ret at 1 in E.
    unfold bind at 1 in E. destruct (mfor (m_vars o) merge_var m) as [m1 [u1|e]] eqn:E1; [|discriminate].
    assert (H1 : m_constrs m1 = m_constrs m) by exact (fc_mfor (m_constrs m) _ _ (fc_merge_var (m_constrs m)) _ _ _ E1 eq_refl).
    unfold bind at 1, get at 1 in E. destruct (merge_cols m1 o (merge_attrs_list m1 o)) as [cols|]; [|discriminate].
    unfold bind at 1, modify at 1 in E. unfold bind at 1 in E.
    destruct (negb _) eqn:EN; cbn [guard] in E; [|discriminate]. apply negb_true_iff in EN.
    rewrite <- H1 in HI. assert (X : existsb (fun l => dmem l (m_constrs o)) (dkeys (m_constrs m1)) = true); [|congruence].
    apply existsb_exists. exists l. split; auto. apply dmem_in, HO. }
  unfold merge. intros E. destruct (mtype_eqb _ _).
  - destruct (merge_same ev k o m) as [m1 r1] eqn:E1. inversion E; subst. eapply S; eauto.
  - destruct (convert_mtype evo o) as [o1 [u0|e]] eqn:EC; [|discriminate]. assert (X := fc_convert_mtype _ _ _ _ _ EC eq_refl). unfold has_d in X.
    destruct (merge_same ev k o1 m) as [m1 r1] eqn:E1. inversion E; subst. rewrite <- X. eapply S; eauto.
Qed.
Lemma dupdate_keeps (b : dict string nat) : forall a l, ~ In l (dkeys b) -> dget l (dupdate a b) = dget l a.
Proof.
  induction b as [|[k v] b IH]; intros a l H; [reflexivity|]. change (dupdate a ((k, v) :: b)) with (dupdate (dset k v a) b). simpl in H. rewrite IH by auto.
  apply dget_dset_other. intros ->. auto.
Qed.
Lemma op_links_kept w i ev evs o h w' r h' l c : ok w -> nth_error (w_models w) i = Some h -> h_op ev evs i o w = (w', r) -> nth_error (w_models w') i = Some h' ->
  o <> ORemoveConstraint (Some l) -> (forall x, o = OAddConstraint (Some x) -> c_label x <> l) -> dget l (h_constrs h) = Some c -> dget l (h_constrs h') = Some c.
Proof.
  intros HW EH E EH' NR NA HG. assert (HL := nth_error_lt _ _ _ EH).
  assert (ON : forall f w w' r h', nth_error (w_models w) i = Some h -> on_model i f w = (w', r) -> nth_error (w_models w') i = Some h' -> h_constrs h' = h_constrs h).
  { intros f w1 w2 r1 g A B C. unfold on_model, bind, get_model, get in B. rewrite A in B. destruct (f (content w1 h)). unfold set_model, lift in B. inversion B; subst w2 r1.
    simpl in C. rewrite put_nth_same in C by (eapply nth_error_lt; eauto). inversion C; reflexivity. }
  destruct o; cbn [h_op] in E; try (erewrite ON; eauto; fail).
  - rewrite (delete_links w i t w' r h h'); auto.
  - destruct c0 as [c0|].
    + unfold bind at 1, get_model in E. rewrite EH in E. unfold bind at 1 in E. destruct (fresh_spec w c0 HW) as (w1 & F1 & F2 & F3 & F4 & F5 & F6). rewrite F1 in E.
      unfold h_add_constraint, bind, get_model, get_obj in E. rewrite F4, EH in E. destruct (nth_error (w_objs w1) (length (w_objs w))) as [x|] eqn:EX; [|apply nth_error_None in EX; lia].
      unfold set_model in E. inversion E; subst w' r. simpl in EH'. rewrite F4, put_nth_same in EH' by auto. inversion EH'; subst h'. simpl.
      rewrite dget_dset_other; auto. intros ->. apply (NA c0 eq_refl). rewrite (constr_at_some _ _ _ EX) in F6. apply (f_equal c_label) in F6. rewrite value_label in F6.
      rewrite F6. destruct c0; reflexivity.
    + unfold h_add_constraint, bind, get_model in E. rewrite EH in E. inversion E; subst. congruence.
  - unfold h_remove_constraint, bind, get_model in E. rewrite EH in E. destruct l0 as [l0|]; [|inversion E; subst; congruence]. destruct (dmem l0 (h_constrs h)); [|inversion E; subst; congruence].
    unfold set_model in E. inversion E; subst w' r. simpl in EH'. rewrite put_nth_same in EH' by auto. inversion EH'; subst h'. simpl. rewrite ddel_get_other; auto. congruence.
Qed.
Theorem C96_lasts : forall ids w k l c ev evo evs s, runs ids w -> holds w k l c ->
  s <> SOp k (ORemoveConstraint (Some l)) -> (forall x, s = SOp k (OAddConstraint (Some x)) -> c_label x <> l) ->
  (forall d, s = SAddConstraint k (Some d) -> c_label (constr_at w d) <> l) ->
  holds (fst (exec ids ev evo evs s w)) k l c.
Proof.
  intros ids w k l c ev evo evs s HR (h & EK & HG) N1 N2 N3. assert (HW := runs_ok _ _ HR). destruct (exec ids ev evo evs s w) as [w' r] eqn:E. cbn [fst].
  assert (F := exec_frame _ _ _ _ _ _ _ _ HW E). destruct (in_dec Nat.eq_dec k (touched_models s)) as [HT|HT].
  2: { exists h. split; auto. apply (f_models _ _ _ F _ _ EK HT). }
  destruct s; simpl in HT; try contradiction; cbn [exec] in E.
  - destruct HT as [->|[]]. unfold h_add_constraint, bind, get_model, get_obj in E. rewrite EK in E. destruct c0 as [d|]; [|inversion E; subst; exists h; auto].
    destruct (nth_error (w_objs w) d) as [o|] eqn:EO; [|inversion E; subst; exists h; auto]. unfold set_model in E. inversion E; subst w' r. eexists. split.
    + simpl. apply put_nth_same. eapply nth_error_lt; eauto.
    + simpl. rewrite dget_dset_other; auto. intros ->. apply (N3 d eq_refl). rewrite (constr_at_some _ _ _ EO). apply value_label.
  - destruct HT as [->|[]]. destruct (op_own w k ev evs o HW h w' r EK E) as (A & B & C & h' & D & G). exists h'. split; auto.
    apply (op_links_kept w k ev evs o h w' r h' l c HW EK E D); auto; [congruence|]. intros x ->. apply N2. reflexivity.
  - rename i into a. destruct (Nat.eq_dec a j) as [->|NE].
    + assert (k = j) by (destruct HT as [HT|[HT|[]]]; auto). subst j. destruct (merge_self_spec ids ev evo w k h w' r HW EK E) as (A & B & C & D & h' & G & G2 & K). exists h'. split; auto. rewrite G2.
      destruct r as [u|e]; simpl; auto. exfalso. refine (merge_disjoint _ _ _ _ _ _ _ _ K l _ _); rewrite content_keys; apply dget_some_in; eauto.
    + destruct (nth_error (w_models w) a) as [ha|] eqn:EA; [|unfold h_merge, bind, get_model in E; rewrite EA in E; inversion E; subst; exists h; auto].
      destruct (nth_error (w_models w) j) as [hj|] eqn:EJ; [|unfold h_merge, bind, get_model in E; rewrite EA, EJ in E; inversion E; subst; exists h; auto].
      destruct (merge_spec ids ev evo w a j ha hj w' r HW NE EA EJ E) as (A & B & C & D & h2 & g2 & G & G' & G2 & G3 & K).
      destruct HT as [->|[->|[]]].
      * exists h2. split; auto. rewrite EK in EA. inversion EA; subst ha. rewrite G2. destruct r as [u|e]; simpl; auto. rewrite dupdate_keeps; auto.
        rewrite <- (content_keys w hj). apply (merge_disjoint _ _ _ _ _ _ _ _ K). rewrite content_keys. apply dget_some_in. eauto.
      * exists g2. split; auto. rewrite EK in EJ. inversion EJ; subst hj. rewrite G3. exact HG.
Qed.

(** ** C97: a constraint keeps its own variables *)
Lemma value_sets w w' o : (forall t, In t (sets_of o) -> set_at w' t = set_at w t) -> value_of w' o = value_of w o.
Proof. intros H. destruct o; simpl in *; rewrite ?H; auto. Qed.
Lemma op_objs w i ev evs o w' r : ok w -> (forall t, o <> ODelete t) -> h_op ev evs i o w = (w', r) -> only w w' (fun _ => False).
Proof.
  intros HW HN E. destruct (nth_error (w_models w) i) as [h|] eqn:EH.
  2: { assert (X : w' = w); [|subst; apply only_refl]. destruct o; cbn [h_op] in E; try (unfold on_model, bind, get_model in E; rewrite EH in E; congruence);
           [unfold h_delete in E|destruct c; [|unfold h_add_constraint in E]|unfold h_remove_constraint in E]; unfold bind, get_model in E; rewrite EH in E; congruence. }
  assert (PL : plain o = true -> only w w' (fun _ => False)).
  { intros HP. destruct (op_own w i ev evs o HW h w' r EH E) as (A & B & _). eapply only_weak; [|exact B]. intros d [_ X]. congruence. }
  destruct o; try (apply PL; reflexivity); cbn [h_op] in E.
  - destruct (HN t eq_refl).
  - destruct c as [c|].
    + unfold bind at 1, get_model in E. rewrite EH in E. unfold bind at 1 in E. destruct (fresh_spec w c HW) as (w1 & F1 & F2 & F3 & F4 & F5 & F6). rewrite F1 in E.
      rewrite <- F4 in EH. destruct (add_constraint_own w1 i _ (fun _ => False) F2 F5 h w' r EH E) as (A & B & _). eapply only_trans; eauto.
    + unfold h_add_constraint, bind, get_model in E. rewrite EH in E. inversion E; subst. apply only_refl.
  - destruct (remove_constraint_own w i l (fun _ => False) HW h w' r EH E) as (A & B & _). exact B.
Qed.
(** Nothing but [may_change] changes a constraint. *)
Theorem C97_constraint : forall ids w d ev evo evs s, runs ids w -> d < length (w_objs w) -> ~ may_change w d s ->
  constr_at (fst (exec ids ev evo evs s w)) d = constr_at w d.
Proof.
  intros ids w d ev evo evs s HR HD HN. assert (HW := runs_ok _ _ HR). destruct (exec ids ev evo evs s w) as [w' r] eqn:E. cbn [fst]. assert (F := exec_frame _ _ _ _ _ _ _ _ HW E).
  destruct (nth_error (w_objs w) d) as [o|] eqn:EO; [|apply nth_error_None in EO; lia].
  assert (GO : ~ touched_obj w s d -> constr_at w' d = constr_at w d).
  { intros NT. assert (EO' := f_objs _ _ _ F d o EO NT). rewrite (constr_at_some _ _ _ EO), (constr_at_some _ _ _ EO'). apply value_sets.
    intros t HT. apply (f_sets _ _ _ F); [apply (ok_objs _ HW o t (nth_error_In _ _ EO) HT)|]. intros HX. destruct s; simpl in HX; try contradiction; subst; apply HN; simpl; exists o; split; auto; destruct o; simpl in HT; intuition. }
  destruct s; try (apply GO; simpl; tauto).
  - apply GO. simpl. intros ->. apply HN. reflexivity.
  - apply GO. simpl. intros ->. apply HN. reflexivity.
  - apply GO. simpl. intros ->. apply HN. reflexivity.
  - apply GO. simpl. intros ->. apply HN. reflexivity.
  - assert (OD : (forall t, o0 <> ODelete t) -> constr_at w' d = constr_at w d).
    { intros X. cbn [exec] in E. exact (proj2 (on_same _ _ _ (op_objs _ _ _ _ _ _ _ HW X E) d HD (fun x => x))). }
    destruct o0; try (apply OD; discriminate). apply GO. simpl. intros [X _]. apply HN. simpl. apply held_any; auto.
Qed.
(** Nothing but the program's own calls changes a set of the program. *)
Theorem C97_sets : forall ids w t ev evo evs s, runs ids w -> t < length (w_sets w) ->
  (forall v, s <> SSetAdd t v /\ s <> SSetDiscard t v) -> set_at (fst (exec ids ev evo evs s w)) t = set_at w t.
Proof.
  intros ids w t ev evo evs s HR HT HN. assert (HW := runs_ok _ _ HR). destruct (exec ids ev evo evs s w) as [w' r] eqn:E. cbn [fst]. assert (F := exec_frame _ _ _ _ _ _ _ _ HW E).
  apply (f_sets _ _ _ F t HT). intros HX. destruct s; simpl in HX; try contradiction; subst; destruct (HN v) as [A B]; [apply A|apply B]; reflexivity.
Qed.
(** A constructor makes the constraint Constraint.v describes, or raises and makes none. *)
Theorem C97_made : forall ids w s r ev evo evs, runs ids w -> made w s = Some r ->
  let w' := fst (exec ids ev evo evs s w) in
  w_models w' = w_models w /\
  match r with
  | Ok c => snd (exec ids ev evo evs s w) = Ok tt /\ length (w_objs w') = S (length (w_objs w)) /\ constr_at w' (length (w_objs w)) = c
  | Err e => snd (exec ids ev evo evs s w) = Err e /\ w_objs w' = w_objs w
  end.
Proof.
  intros ids w s r ev evo evs HR HM. assert (HW := runs_ok _ _ HR). cbv zeta. destruct (exec ids ev evo evs s w) as [w' x] eqn:E. cbn [fst snd].
  destruct s; inversion HM; subst r; cbn [exec] in E.
  - destruct (nhot_makes a n label strength w w' x HW E) as (A & B & C & D). split; auto.
  - destruct (zero_or_one_makes a label strength w w' x HW E) as (A & B & C & D). split; auto.
  - destruct (equality_makes a b label strength w w' x HW E) as (A & B & C & D). split; auto.
Qed.

Lemma check_fresh a w w' s : h_check a w = (w', Ok s) -> (forall t, a <> ByRef t) -> length (w_sets w) <= s.
Proof. intros E H. destruct a as [t|a]; [destruct (H t eq_refl)|]. simpl in E. destruct (check_variables_and_to_set a); inversion E; auto. Qed.
Lemma vars_fresh a w w' s : h_vars a w = (w', Ok s) -> not_a_set a -> length (w_sets w) <= s.
Proof. intros E H. destruct a as [a|]; simpl in E; [|inversion E; auto]. eapply check_fresh; eauto. intros t ->. destruct (H t eq_refl). Qed.
Lemma vars_shared t w w' s : h_vars (Some (ByRef t)) w = (w', Ok s) -> s = t.
Proof. simpl. destruct (nth_error (w_sets w) t) as [[|]|]; congruence. Qed.
Lemma common_inv l q w w' x : h_common l q w = (w', Ok x) -> w' = w.
Proof. unfold h_common. destruct l as [l|]; [|discriminate]. destruct (String.eqb l ""); [discriminate|]. destruct q; [|discriminate]. unfold ret. congruence. Qed.
Lemma uses_new w o w' s : w' = fst (new_obj o w) -> (uses w' (length (w_objs w)) s <-> match o with HNHot t _ _ _ | HZeroOrOne t _ _ => s = t | HEquality t u _ _ => s = t \/ s = u end).
Proof.
  intros ->. unfold uses. simpl. rewrite nth_error_app2, Nat.sub_diag by lia. simpl. split; [intros (x & E & H); inversion E; subst; auto|eauto].
Qed.
Lemma bind_ok {S A B} (x : M S A) (f : A -> M S B) s s' b : bind x f s = (s', Ok b) -> exists s1 a, x s = (s1, Ok a) /\ f a s1 = (s', Ok b).
Proof. unfold bind. destruct (x s) as [s1 [a|e]]; [eauto|discriminate]. Qed.
(** What a constructor that returns has done. *)
Lemma nhot_inv a n l q w w' : h_nhot a n l q w = (w', Ok tt) -> exists w1 s n' l' q', h_vars a w = (w1, Ok s) /\ w' = fst (new_obj (HNHot s n' l' q') w1).
Proof.
  intros E. unfold h_nhot in E. apply bind_ok in E. destruct E as (w0 & lq & E0 & E). apply common_inv in E0. subst w0. apply bind_ok in E. destruct E as (w1 & s & E1 & E).
  destruct n as [n|]; [|discriminate]. destruct (n <=? 0)%Z; [discriminate|]. exists w1, s, n, (fst lq), (snd lq). rewrite E. auto.
Qed.
Lemma zero_or_one_inv a l q w w' : h_zero_or_one a l q w = (w', Ok tt) -> exists w1 s l' q', h_vars a w = (w1, Ok s) /\ w' = fst (new_obj (HZeroOrOne s l' q') w1).
Proof.
  intros E. unfold h_zero_or_one in E. apply bind_ok in E. destruct E as (w0 & lq & E0 & E). apply common_inv in E0. subst w0. apply bind_ok in E. destruct E as (w1 & s & E1 & E).
  exists w1, s, (fst lq), (snd lq). rewrite E. auto.
Qed.
Lemma equality_inv a b l q w w' : h_equality a b l q w = (w', Ok tt) -> exists w1 w2 s t l' q', h_vars a w = (w1, Ok s) /\ h_vars (option_map (bound w) b) w1 = (w2, Ok t) /\ w' = fst (new_obj (HEquality s t l' q') w2).
Proof.
  intros E. unfold h_equality in E. apply bind_ok in E. destruct E as (w0 & lq & E0 & E). apply common_inv in E0. subst w0. apply bind_ok in E. destruct E as (w0 & x & E0 & E). inversion E0; subst w0 x.
  apply bind_ok in E. destruct E as (w1 & s & E1 & E). apply bind_ok in E. destruct E as (w2 & t & E2 & E).
  exists w1, w2, s, t, (fst lq), (snd lq). rewrite E. auto.
Qed.
(** A constraint made of anything but the program's sets keeps its variables in sets of its own ... *)
Theorem C97_own : forall ids w s ev evo evs, runs ids w -> made w s <> None -> ~ given_sets s -> snd (exec ids ev evo evs s w) = Ok tt ->
  forall t, t < length (w_sets w) -> ~ uses (fst (exec ids ev evo evs s w)) (length (w_objs w)) t.
Proof.
  intros ids w s ev evo evs HR HM HG HO t HT. assert (HW := runs_ok _ _ HR). destruct (exec ids ev evo evs s w) as [w' r] eqn:E. cbn [fst snd] in *. subst r.
  assert (DN : forall a : option varg, ~ ~ not_a_set a -> not_a_set a) by (intros [[u|u]|] H u'; try discriminate; exfalso; apply H; intros K; apply (K u); reflexivity).
  destruct s; simpl in HM; try congruence; cbn [exec] in E; simpl in HG.
  - apply nhot_inv in E. destruct E as (w1 & s & n' & l' & q' & E1 & EW). assert (F1 := vars_fresh _ _ _ _ E1 (DN _ HG)). destruct (vars_spec _ _ _ _ HW E1) as (A & B & C & D).
    rewrite <- C. rewrite (uses_new w1 _ w' t EW). lia.
  - apply zero_or_one_inv in E. destruct E as (w1 & s & l' & q' & E1 & EW). assert (F1 := vars_fresh _ _ _ _ E1 (DN _ HG)). destruct (vars_spec _ _ _ _ HW E1) as (A & B & C & D).
    rewrite <- C. rewrite (uses_new w1 _ w' t EW). lia.
  - apply equality_inv in E. destruct E as (w1 & w2 & s & u & l' & q' & E1 & E2 & EW). destruct (vars_spec _ _ _ _ HW E1) as (A & B & C & D). destruct (vars_spec _ _ _ _ A E2) as (A' & B' & C' & D').
    assert (NA : not_a_set a /\ not_a_set b). { split; apply DN; intros X; apply HG; intros [Y Z]; auto. } destruct NA as [NA NB].
    assert (F1 := vars_fresh _ _ _ _ E1 NA). assert (F2 : length (w_sets w1) <= u).
    { apply (vars_fresh _ _ _ _ E2). intros v X. destruct b as [[v'|v']|]; simpl in X; try discriminate. apply (NB v'). reflexivity. }
    assert (L := g_len _ _ B). rewrite <- C, <- C'. rewrite (uses_new w2 _ w' t EW). lia.
Qed.
(** ... a constraint made of a set of the program keeps its variables in that very set ... *)
Theorem C97_shares : forall ids w s ev evo evs t, runs ids w -> snd (exec ids ev evo evs s w) = Ok tt -> 
  match s with SNHot a _ _ _ | SZeroOrOne a _ _ => a = Some (ByRef t) | SEquality a b _ _ => a = Some (ByRef t) \/ b = Some (ByRef t) | _ => False end ->
  uses (fst (exec ids ev evo evs s w)) (length (w_objs w)) t.
Proof.
  intros ids w s ev evo evs t HR HO HS. assert (HW := runs_ok _ _ HR). destruct (exec ids ev evo evs s w) as [w' r] eqn:E. cbn [fst snd] in *. subst r.
  destruct s; try contradiction; cbn [exec] in E.
  - subst a. apply nhot_inv in E. destruct E as (w1 & s & n' & l' & q' & E1 & EW). destruct (vars_spec _ _ _ _ HW E1) as (A & B & C & D). apply vars_shared in E1. subst s. rewrite <- C. rewrite (uses_new w1 _ w' t EW). auto.
  - subst a. apply zero_or_one_inv in E. destruct E as (w1 & s & l' & q' & E1 & EW). destruct (vars_spec _ _ _ _ HW E1) as (A & B & C & D). apply vars_shared in E1. subst s. rewrite <- C. rewrite (uses_new w1 _ w' t EW). auto.
  - apply equality_inv in E. destruct E as (w1 & w2 & s & u & l' & q' & E1 & E2 & EW). destruct (vars_spec _ _ _ _ HW E1) as (A & B & C & D). destruct (vars_spec _ _ _ _ A E2) as (A' & B' & C' & D').
    rewrite <- C, <- C'. rewrite (uses_new w2 _ w' t EW). destruct HS as [-> | ->].
    + apply vars_shared in E1. auto.
    + simpl in E2. destruct (t <? length (w_sets w))%nat; [|discriminate]. right. symmetry. apply (vars_shared _ _ _ _ E2).
Qed.
(** ... and once add_variable or remove_variable has returned, it keeps them in a set of its own again.
    The methods of EqualityConstraint do so for the side they change. *)
Theorem C97_methods_own : forall ids w s c a f ev evo evs, runs ids w -> method s = Some (c, a, f) -> snd (exec ids ev evo evs s w) = Ok tt ->
  forall t, t < length (w_sets w) -> uses (fst (exec ids ev evo evs s w)) c t ->
  uses w c t /\ exists b, (s = SEqAdd b c a \/ s = SEqRemove b c a) /\
    forall vs1 vs2 l q, constr_at w c = Equality vs1 vs2 l q -> set_at w t = (if b then vs2 else vs1).
Proof.
  intros ids w s c a f ev evo evs HR HM HO t HT HU. assert (HW := runs_ok _ _ HR). destruct (exec ids ev evo evs s w) as [w' r] eqn:E. cbn [fst snd] in *. subst r.
  destruct HU as (o' & EO' & HU).
  destruct s; inversion HM; subst; clear HM; cbn [exec] in E.
  - exfalso. unfold h_add_variable in E. apply bind_ok in E. destruct E as (w0 & o & E0 & E). unfold get_obj in E0. destruct (nth_error (w_objs w) c) as [x|] eqn:EO; inversion E0; subst w0 x.
    destruct o; [| |discriminate]; apply bind_ok in E; destruct E as (w1 & u & E1 & E); destruct (check_spec _ _ _ _ HW E1) as (A & B & C & D); apply bind_ok in E; destruct E as (w2 & x & E2 & E); inversion E2; subst w2 x;
      apply bind_ok in E; destruct E as (w2 & v & E3 & E); unfold new_set in E3; inversion E3; subst w2 v; unfold set_obj in E; inversion E; subst w'; simpl in EO'; rewrite C, put_nth_same in EO' by (eapply nth_error_lt; eauto); inversion EO'; subst o'; subst t; assert (L := g_len _ _ B); lia.
  - exfalso. unfold h_remove_variable in E. apply bind_ok in E. destruct E as (w0 & o & E0 & E). unfold get_obj in E0. destruct (nth_error (w_objs w) c) as [x|] eqn:EO; inversion E0; subst w0 x.
    destruct o; [| |discriminate]; apply bind_ok in E; destruct E as (w1 & u & E1 & E); destruct (check_spec _ _ _ _ HW E1) as (A & B & C & D); apply bind_ok in E; destruct E as (w2 & x & E2 & E); inversion E2; subst w2 x;
      apply bind_ok in E; destruct E as (w2 & y & EG & E); match type of EG with guard ?b _ _ = _ => destruct b; simpl in EG; [|discriminate] end; inversion EG; subst w2 y;
      apply bind_ok in E; destruct E as (w2 & v & E3 & E); unfold new_set in E3; inversion E3; subst w2 v; unfold set_obj in E; inversion E; subst w'; simpl in EO'; rewrite C, put_nth_same in EO' by (eapply nth_error_lt; eauto); inversion EO'; subst o'; subst t; assert (L := g_len _ _ B); lia.
  - unfold h_eq_add in E. apply bind_ok in E. destruct E as (w0 & o & E0 & E). unfold get_obj in E0. destruct (nth_error (w_objs w) c) as [x|] eqn:EO; inversion E0; subst w0 x.
    destruct o; [discriminate|discriminate|]; apply bind_ok in E; destruct E as (w1 & u & E1 & E); destruct (check_spec _ _ _ _ HW E1) as (A & B & C & D); apply bind_ok in E; destruct E as (w2 & x & E2 & E); inversion E2; subst w2 x;
      apply bind_ok in E; destruct E as (w2 & v & E3 & E); unfold new_set in E3; inversion E3; subst w2 v; unfold set_obj in E; inversion E; subst w'; simpl in EO'; rewrite C, put_nth_same in EO' by (eapply nth_error_lt; eauto); inversion EO'; subst o'; assert (L := g_len _ _ B).
    assert (HU' : t = if side1 then s2 else s1) by (destruct side1; destruct HU as [-> | ->]; auto; lia). split; [exists (HEquality s1 s2 label strength); split; auto; destruct side1; auto|].
    exists side1. split; auto. intros vs1 vs2 l q EC. rewrite (constr_at_some _ _ _ EO) in EC. simpl in EC. inversion EC. subst t. destruct side1; auto.
  - unfold h_eq_remove in E. apply bind_ok in E. destruct E as (w0 & o & E0 & E). unfold get_obj in E0. destruct (nth_error (w_objs w) c) as [x|] eqn:EO; inversion E0; subst w0 x.
    destruct o; [discriminate|discriminate|]; apply bind_ok in E; destruct E as (w1 & u & E1 & E); destruct (check_spec _ _ _ _ HW E1) as (A & B & C & D); apply bind_ok in E; destruct E as (w2 & x & E2 & E); inversion E2; subst w2 x;
      apply bind_ok in E; destruct E as (w2 & y & EG & E); match type of EG with guard ?b _ _ = _ => destruct b; simpl in EG; [|discriminate] end; inversion EG; subst w2 y;
      apply bind_ok in E; destruct E as (w2 & v & E3 & E); unfold new_set in E3; inversion E3; subst w2 v; unfold set_obj in E; inversion E; subst w'; simpl in EO'; rewrite C, put_nth_same in EO' by (eapply nth_error_lt; eauto); inversion EO'; subst o'; assert (L := g_len _ _ B).
    assert (HU' : t = if side1 then s2 else s1) by (destruct side1; destruct HU as [-> | ->]; auto; lia). split; [exists (HEquality s1 s2 label strength); split; auto; destruct side1; auto|].
    exists side1. split; auto. intros vs1 vs2 l q EC. rewrite (constr_at_some _ _ _ EO) in EC. simpl in EC. inversion EC. subst t. destruct side1; auto.
Qed.

(** ** A program *)
Lemma run_all_runs ids p : forall w, runs ids w -> runs ids (run_all ids p w).
Proof. induction p as [|[[[ev evo] evs] s] p IH]; intros w H; simpl; auto. apply IH, runs_step, H. Qed.
Definition ids0 : nat -> string := fun i => "id" +++ str_of_nat i.
Definition step0 (s : stmt) := (env0, env0, evs0, s).
(** Two QUBO models sharing constraint object 0 after a merge; object 1 uses the
    program's set 0; an Ising model with a constraint of its own. *)
Definition prog0 : list (env * env * (nat -> env) * stmt) :=
  map step0
  [ SModel Qubo; SModel Qubo; SSet [bin "x" 0; bin "x" 2];
    SNHot (Some (ByVal (VA_list [Some (bin "x" 0); Some (bin "x" 1)]))) (Some 1%Z) (Some "c") (Some (qz 5));
    SNHot (Some (ByRef 0)) (Some 1%Z) (Some "d") (Some (qz 3));
    SAddConstraint 1 (Some 0);
    SOp 1 (OAdd (TVar (bin "x" 1)) (NStr "") (num 2) (num 1) AtNone TsNone);
    SAddConstraint 0 (Some 1);
    SMerge 0 1;
    SModel Ising;
    SOp 2 (OAdd (TVar (spn "s" 0)) (NStr "") (num 7) (num 1) AtNone TsNone);
    SOp 2 (OAddConstraint (Some (ZeroOrOne [spn "s" 0; spn "s" 1] "c" (qz 2)))) ].
Definition world0 : world := run_all ids0 prog0 empty_world.
Lemma world0_runs : runs ids0 world0. Proof. apply run_all_runs. constructor. Qed.
Lemma links0 : map h_constrs (w_models world0) = [[("d", 1); ("c", 0)]; [("c", 0)]; [("c", 2)]].
Proof. vm_compute. reflexivity. Qed.
Lemma holds0 k l c : holds world0 k l c <-> exists d, nth_error [[("d", 1); ("c", 0)]; [("c", 0)]; [("c", 2)]] k = Some d /\ dget l d = Some c.
Proof.
  rewrite <- links0. unfold holds. split.
  - intros (h & E & H). exists (h_constrs h). split; auto. apply map_nth_error, E.
  - intros (d & E & H). rewrite nth_error_map in E. destruct (nth_error (w_models world0) k) as [h|]; inversion E; subst. eauto.
Qed.
Definition model0 (k : nat) : lmodel := match model_at world0 k with Some m => m | None => new_model Qubo end.
Lemma model0_at k : k < 3 -> model_at world0 k = Some (model0 k).
Proof.
  intros H. unfold model0. destruct (model_at world0 k) eqn:E; auto. exfalso. unfold model_at in E. destruct (nth_error (w_models world0) k) eqn:EN; [discriminate|].
  apply nth_error_None in EN. rewrite <- (map_length h_constrs), links0 in EN. simpl in EN. lia.
Qed.
Lemma private0 : private world0 2.
Proof.
  intros i c NE (l & A) (l' & B). apply holds0 in A. apply holds0 in B. destruct A as (d & A1 & A2). destruct B as (d' & B1 & B2). simpl in A1. inversion A1; subst d. clear A1.
  assert (c = 2). { cbn [dget] in A2. destruct (eqb l "c") in A2; congruence. } subst c.
  destruct i as [|[|[|i]]]; simpl in B1.
  - inversion B1; subst d'. cbn [dget] in B2. destruct (eqb l' "d"); [discriminate|]. destruct (eqb l' "c"); discriminate.
  - inversion B1; subst d'. cbn [dget] in B2. destruct (eqb l' "c"); discriminate.
  - auto.
  - destruct i; discriminate.
Qed.

(** The claim that no statement on other models changes a model is false: after
    model 0 has merged model 1, model_0.delete_variable(x[0]) takes x[0] out of the
    constraint of model 1 and changes model 1's physical model. *)
Theorem C95_refuted : ~ (forall ids w i k m ev evo evs o, runs ids w -> i <> k -> model_at w k = Some m ->
  model_at (fst (exec ids ev evo evs (SOp i o) w)) k = Some m).
Proof.
  intros H. assert (X := H ids0 world0 0 1 (model0 1) env0 env0 evs0 (ODelete (TVar (bin "x" 0))) world0_runs ltac:(discriminate) (model0_at 1 ltac:(auto))).
  apply (f_equal (option_map (fun m => map (fun c => match snd c with NHot vs _ _ _ => length vs | _ => 0 end) (m_constrs m)))) in X. vm_compute in X. discriminate.
Qed.
(** The difference can be seen in the physical model. *)
Definition quads (m : lmodel) : nat := match snd (to_physical env0 evs0 feed0 m) with Ok p => length (p_quad p) | Err _ => 0 end.
Example C95_refuted_physical :
  option_map quads (model_at world0 1) = Some 1 /\
  option_map quads (model_at (fst (exec ids0 env0 env0 evs0 (SOp 0 (ODelete (TVar (bin "x" 0)))) world0)) 1) = Some 0 /\
  snd (exec ids0 env0 env0 evs0 (SOp 0 (ODelete (TVar (bin "x" 0)))) world0) = Ok tt.
Proof. vm_compute. auto. Qed.
Example C95_calls_hyps : runs ids0 world0 /\ model_at world0 0 = Some (model0 0) /\ length (m_constrs (model0 0)) = 2 /\
  set_like (ODelete (TVar (bin "x" 0))) /\ set_like (OAddConstraint (Some (NHot [bin "x" 0; bin "x" 1] 1 "e" (qz 2)))).
Proof. split; [apply world0_runs|]. split; [apply model0_at; lia|]. split; [vm_compute; reflexivity|]. split; [exact I|]. simpl. repeat constructor; simpl; intuition discriminate. Qed.
Example C95_merge_hyps : runs ids0 world0 /\ 0 <> 2 /\ model_at world0 0 = Some (model0 0) /\ model_at world0 2 = Some (model0 2) /\
  m_mtype (model0 0) <> m_mtype (model0 2) /\ snd (exec ids0 env0 env0 evs0 (SMerge 0 2) world0) = Err ValueError /\
  snd (exec ids0 env0 env0 evs0 (SMerge 0 2) (run_all ids0 [step0 (SOp 2 (ORemoveConstraint (Some "c")))] world0)) = Ok tt.
Proof. split; [apply world0_runs|]. split; [discriminate|]. split; [apply model0_at; lia|]. split; [apply model0_at; lia|]. split; [vm_compute; discriminate|]. split; vm_compute; reflexivity. Qed.
Example C95_others_hyps : runs ids0 world0 /\ 0 <> 1 /\ model_at world0 1 = Some (model0 1) /\ holds world0 1 "c" 0 /\ held world0 0 0.
Proof.
  split; [apply world0_runs|]. split; [discriminate|]. split; [apply model0_at; lia|]. split; [apply holds0; eexists; split; [reflexivity|reflexivity]|].
  exists "c". apply holds0. eexists. split; reflexivity.
Qed.
(** Work on models 0 and 1, their constraints and the program's set does not concern model 2. *)
Definition prog1 : list (env * env * (nat -> env) * stmt) :=
  map step0
  [ SOp 0 (ODelete (TVar (bin "x" 0))); SSetAdd 0 (bin "x" 7); SAddVariable 0 (ByRef 0); SMerge 1 0;
    SZeroOrOne (Some (ByRef 0)) (Some "f") (Some (qz 1)); SAddConstraint 0 (Some 3); SOp 1 (OPhysical feed0) ].
Example C95_isolated_hyps : runs ids0 world0 /\ model_at world0 2 = Some (model0 2) /\ private world0 2 /\ Forall (fun e => elsewhere world0 2 (snd e)) prog1 /\
  length (m_constrs (model0 2)) = 1 /\ map (fun m => option_map quads (model_at (run_all ids0 prog1 world0) m)) [0; 1; 2] = [Some 6; Some 6; Some 1].
Proof.
  split; [apply world0_runs|]. split; [apply model0_at; lia|]. split; [apply private0|].
  assert (NH : forall c, held world0 2 c -> c = 2).
  { intros c (l & A). apply holds0 in A. destruct A as (d & A1 & A2). simpl in A1. inversion A1; subst d. cbn [dget] in A2. destruct (eqb l "c") in A2; congruence. }
  split; [|split; vm_compute; reflexivity].
  repeat constructor; simpl; try discriminate; try (intros X; apply NH in X; discriminate).
  - intros c X. apply NH in X. subst c. intros (o & E & Y). assert (Z : nth_error (w_objs world0) 2 = Some (HZeroOrOne 2 "c" (qz 2))) by (vm_compute; reflexivity).
    rewrite Z in E. inversion E; subst o. discriminate.
  - intros x E X. apply NH in X. congruence.
Qed.
(** add_variable on the handle of object 0, held by models 0 and 1. *)
Example C96_methods_hyps : runs ids0 world0 /\ 0 < length (w_objs world0) /\ holds world0 0 "c" 0 /\ holds world0 1 "c" 0 /\ ~ held world0 2 0 /\
  method (SAddVariable 0 (ByRef 0)) = Some (0, ByRef 0, c_add_variable) /\
  length (m_constrs (model0 1)) = 1 /\
  option_map (fun m => map (fun c => match snd c with NHot vs _ _ _ => length vs | _ => 0 end) (m_constrs m)) (model_at (fst (exec ids0 env0 env0 evs0 (SAddVariable 0 (ByRef 0)) world0)) 1) = Some [3].
Proof.
  split; [apply world0_runs|]. split; [vm_compute; lia|]. split; [apply holds0; eexists; split; reflexivity|]. split; [apply holds0; eexists; split; reflexivity|]. split.
  - intros (l & A). apply holds0 in A. destruct A as (d & A1 & A2). simpl in A1. inversion A1; subst d. cbn [dget] in A2. destruct (eqb l "c") in A2; congruence.
  - split; [reflexivity|]. split; vm_compute; reflexivity.
Qed.
(** Statements of each kind that do not end the connection of model 0 with object 0. *)
Example C96_lasts_hyps : holds world0 0 "c" 0 /\ Forall (fun s => s <> SOp 0 (ORemoveConstraint (Some "c")) /\ (forall x, s = SOp 0 (OAddConstraint (Some x)) -> c_label x <> "c") /\
  (forall d, s = SAddConstraint 0 (Some d) -> c_label (constr_at world0 d) <> "c"))
  [SOp 0 (ODelete (TVar (bin "x" 0))); SOp 1 (ORemoveConstraint (Some "c")); SMerge 0 1; SAddConstraint 0 (Some 1); SRemoveVariable 0 (ByVal (VA_one (bin "x" 1)))].
Proof.
  split; [apply holds0; eexists; split; reflexivity|]. repeat constructor; try discriminate. intros d E. inversion E; subst d. vm_compute. discriminate.
Qed.

(** The claim that a constraint is not changed by a change to the set it was made
    of is false: NHotConstraint(variables=s) keeps s itself. *)
Theorem C97_refuted : ~ (forall ids w d t v ev evo evs, runs ids w -> d < length (w_objs w) ->
  constr_at (fst (exec ids ev evo evs (SSetAdd t v) w)) d = constr_at w d).
Proof.
  intros H. assert (X := H ids0 world0 1 0 (bin "x" 9) env0 env0 evs0 world0_runs ltac:(vm_compute; lia)).
  apply (f_equal (fun c => match c with NHot vs _ _ _ => length vs | _ => 0 end)) in X. vm_compute in X. discriminate.
Qed.
(** The difference can be seen in the physical model of a model that holds it. *)
Example C97_refuted_physical : option_map quads (model_at world0 0) = Some 2 /\
  option_map quads (model_at (fst (exec ids0 env0 env0 evs0 (SSetAdd 0 (bin "x" 9)) world0)) 0) = Some 4.
Proof. vm_compute. auto. Qed.
(** Object 0 was made of a list, object 1 of the program's set 0. *)
Example C97_constraint_hyps : runs ids0 world0 /\ 0 < length (w_objs world0) /\ ~ may_change world0 0 (SSetAdd 0 (bin "x" 9)) /\ may_change world0 1 (SSetAdd 0 (bin "x" 9)) /\
  ~ may_change world0 1 (SOp 1 (ODelete (TVar (bin "x" 0)))) /\ may_change world0 0 (SOp 1 (ODelete (TVar (bin "x" 0)))).
Proof.
  assert (E0 : nth_error (w_objs world0) 0 = Some (HNHot 1 1 "c" (qz 5))) by (vm_compute; reflexivity).
  assert (E1 : nth_error (w_objs world0) 1 = Some (HNHot 0 1 "d" (qz 3))) by (vm_compute; reflexivity).
  split; [apply world0_runs|]. split; [vm_compute; lia|]. split; [|split; [|split]].
  - intros (o & E & X). rewrite E0 in E. inversion E; subst o. discriminate.
  - exists (HNHot 0 1 "d" (qz 3)). auto.
  - intros (l & A). apply holds0 in A. destruct A as (d & A1 & A2). simpl in A1. inversion A1; subst d. cbn [dget] in A2. destruct (eqb l "c") in A2; congruence.
  - exists "c". apply holds0. eexists. split; reflexivity.
Qed.
Example C97_made_hyps : made world0 (SNHot (Some (ByRef 0)) (Some 2%Z) (Some "e") (Some (qz 1))) = Some (Ok (NHot [bin "x" 0; bin "x" 2] 2 "e" (qz 1))) /\
  made world0 (SNHot (Some (ByRef 0)) (Some 0%Z) (Some "e") (Some (qz 1))) = Some (Err ValueError) /\
  ~ given_sets (SEquality None (Some (ByVal (VA_one (bin "x" 0)))) (Some "e") (Some (qz 1))) /\
  snd (exec ids0 env0 env0 evs0 (SEquality None (Some (ByVal (VA_one (bin "x" 0)))) (Some "e") (Some (qz 1))) world0) = Ok tt /\
  snd (exec ids0 env0 env0 evs0 (SEquality (Some (ByRef 0)) None (Some "e") (Some (qz 1))) world0) = Ok tt.
Proof. split; [vm_compute; reflexivity|]. split; [vm_compute; reflexivity|]. split; [|split; vm_compute; reflexivity]. simpl. intros H. apply H. split; intros t E; discriminate. Qed.
(** After add_variable object 1 no longer uses set 0; add_variable_to_1 leaves the other side of an equality in the program's set. *)
Example C97_methods_own_hyps : 
  snd (exec ids0 env0 env0 evs0 (SAddVariable 1 (ByVal (VA_one (bin "x" 5)))) world0) = Ok tt /\
  map (fun s => nth_error (w_objs (run_all ids0 (map step0 [SEquality (Some (ByRef 0)) (Some (ByRef 0)) (Some "e") (Some (qz 1)); SEqAdd true 3 (ByRef 0)]) world0)) s) [1; 3] =
    [Some (HNHot 0 1 "d" (qz 3)); Some (HEquality 3 0 "e" (qz 1))].
Proof. split; vm_compute; reflexivity. Qed.
Print Assumptions C95_calls.
Print Assumptions C95_merge.
Print Assumptions C95_merge_itself.
Print Assumptions C95_faithful.
Print Assumptions C95_others.
Print Assumptions C95_isolated_partial.
Print Assumptions C96_connected.
Print Assumptions C96_methods.
Print Assumptions C96_add.
Print Assumptions C96_lasts.
Print Assumptions C97_constraint.
Print Assumptions C97_sets.
Print Assumptions C97_made.
Print Assumptions C97_own.
Print Assumptions C97_shares.
Print Assumptions C97_methods_own.
Print Assumptions C95_refuted.
Print Assumptions C97_refuted.
