(** * PropsNppAttenuation: C87, number partitioning on a stream with Attenuation. *)
From Coq Require Import Lqa Sorted Permutation.
From Verif Require Import PyBase PyLemmas Numbers Constraint LogicalModel Spec LogicalProofs EnergyProofs ConvertProofs ConstraintProofs MergeProofs
  PhysicalProofs ToPhysicalProofs PropsPhysical PropsInteractions PropsState PropsVariables Samples
  Solver SolverProofs Services Stream StreamSpec PropsStream PropsAttenuation NppStream NppStreamSpec PropsNppStream PropsNppSolve.
Local Open Scope string_scope.
Local Open Scope list_scope.

(** ** The attribute attn_ts *)
Definition of_pair (m : lmodel) (p : num_el * num_el) (r : row) : Prop :=
  r_name r = pair_name p /\ r_key r = pkey (el_idx (fst p)) (el_idx (snd p)) /\
  PropsState.reads m (r_name r) "attn_ts" (ANum (el_ts (snd p))).
Definition attributed (stream : list num_el) (m : lmodel) : Prop :=
  forall r, In r (m_rows m) -> exists x y, In x stream /\ In y stream /\ later_el y x /\ of_pair m (x, y) r.

Lemma mfor_inv {S A} (I : S -> Prop) (f : A -> M S unit) l :
  (forall a s s', In a l -> I s -> f a s = (s', Ok tt) -> I s') ->
  forall s s', I s -> mfor l f s = (s', Ok tt) -> I s'.
Proof.
  induction l as [|a l IH]; intros H s s' Hs E; cbn [mfor] in E.
  - injection E as <-. auto.
  - unfold bind in E. destruct (f a s) as [s1 [[]|e]] eqn:E1; [|discriminate].
    apply (IH (fun a s s' Ha => H a s s' (or_intror Ha)) s1); auto. apply (H a s); auto. now left.
Qed.

Definition good (stream : list num_el) (m : lmodel) : Prop := aligned m /\ names_unique m /\ attributed stream m.
Lemma add_attributed stream text clock x i j n m m' :
  has_spins x n -> el_idx i < n -> el_idx j < n -> In i stream -> In j stream ->
  ((el_ts j < el_ts i)%Qc -> el_idx j < el_idx i) ->
  good stream m -> npp_add text clock x i j m = (m', Ok tt) -> good stream m'.
Proof.
  intros HX Hi Hj Si Sj HO (AL & NU & AT) E. unfold npp_add in E. destruct (Qclt_bool (el_ts j) (el_ts i)) eqn:EQ.
  2:{ injection E as <-. split; [exact AL|split; [exact NU|exact AT]]. }
  apply Qclt_bool_iff in EQ. unfold bind in E. rewrite (HX _ Hi), (HX _ Hj) in E. cbn [lift ret] in E.
  set (d := [("n", AStr (text j)); ("attn_ts", ANum (el_ts j))]) in *.
  assert (AW : attrs_wf (AtDict d)).
  { intros d' E'. injection E' as <-. cbn. repeat constructor; cbn; intuition discriminate. }
  destruct (C35_add _ _ _ _ _ _ _ _ _ AL AW E) as (it & dn & nm & D & SN & R1 & R2).
  destruct (C03_effect _ _ _ _ _ _ _ _ _ AL AW E) as (c & s & it' & dn' & nm' & _ & _ & D' & SN' & NI & ER & _ & AL' & _).
  destruct (denotes_pair_inv _ _ _ _ D) as [_ ->]. destruct (denotes_pair_inv _ _ _ _ D') as [K' ->].
  assert (nm = pname (el_idx i) (el_idx j)) as -> by (destruct SN as [[_ ->]|[C ?]]; auto; congruence).
  assert (nm' = pname (el_idx i) (el_idx j)) as -> by (destruct SN' as [[_ ->]|[C ?]]; auto; congruence).
  split; auto. split; [unfold names_unique, names in *; rewrite ER, map_app; apply NoDup_snoc; auto|].
  intros r Hr. rewrite ER in Hr. apply in_app_iff in Hr as [Hr|[<-|[]]].
  - destruct (AT r Hr) as (a & b & Sa & Sb & L & N & K & R). exists a, b. repeat split; auto; apply L.
  - exists i, j. split; auto. split; auto. split; [split; auto|]. split; [reflexivity|]. split; [exact K'|].
    cbn [r_name snd]. apply R1; [apply pname_nonempty|]. right. now left.
Qed.

Lemma delete_attributed stream v m m' : good stream m -> delete_variable (TVar v) m = (m', Ok tt) -> good stream m'.
Proof.
  intros (AL & NU & AT) E. destruct (C15_delete v m m' NU E) as (F0 & _ & _ & F1 & F2 & F3 & F4 & F5 & F6 & F7 & F8 & _).
  assert (EN : names m' = names m).
  { unfold names. rewrite F0, map_map. apply map_ext. intros r. apply dropped_name. }
  assert (AL' : aligned m').
  { destruct AL as (A & B & C & D). split; [rewrite F8, F0, map_length; auto|]. rewrite F6, F7, F8. auto. }
  split; [auto|]. split; [unfold names_unique; now rewrite EN|].
  intros r Hr. rewrite F0 in Hr. apply in_map_iff in Hr as (r0 & <- & Hr). destruct (AT r0 Hr) as (a & b & Sa & Sb & L & N & K & R).
  destruct (dropped_name (v_label v) r0) as (D1 & D2 & _). exists a, b. split; auto. split; auto. split; auto. unfold of_pair. rewrite D1, D2.
  split; auto. split; auto. apply reads_iff; auto. apply reads_iff in R; auto. destruct R as (R1 & R2 & R3 & R4).
  split; auto. split; [now rewrite EN|]. split; [now rewrite F7|]. unfold attr_of, attr_val in *. rewrite EN, F6. exact R4.
Qed.

Lemma mapping_attributed stream sc text clock m m' n out kept inc :
  in_order stream -> (forall e, In e (out ++ kept ++ inc) -> In e stream) ->
  inv_s sc m (out ++ kept) n -> kept ++ inc <> [] -> (forall e, In e inc -> n <= el_idx e) ->
  attributed stream m -> npp_mapping text clock (kept ++ inc) inc out m = (m', Ok tt) -> attributed stream m'.
Proof.
  intros HO HS ((S1 & S2 & S3 & S4 & S5 & S6) & HV & HB & HP) HN HI AT E.
  destruct (variables_step m n inc) as (m1 & x & E1 & HX & HV1 & vs & Em1); auto.
  { intros ->. rewrite app_nil_r in HN. destruct kept as [|k kept]; [congruence|]. assert (el_idx k < n) by (apply HB, in_app_iff; right; now left). lia. }
  destruct (next_size_le n inc HI) as [Ln Hinc]. set (n' := next_size n inc) in *.
  unfold npp_mapping in E. unfold bind at 1 in E. rewrite E1 in E. unfold bind at 1 in E.
  destruct (mfor inc _ m1) as [m2 [[]|e]] eqn:E2; [|discriminate].
  assert (Hels : forall e, In e (kept ++ inc) -> el_idx e < n').
  { intros e He. apply in_app_iff in He as [He|He]; auto. assert (el_idx e < n) by (apply HB, in_app_iff; now right). lia. }
  assert (HS' : forall e, In e (kept ++ inc) -> In e stream) by (intros e He; apply HS, in_app_iff; now right).
  assert (G1 : good stream m1).
  { subst m1. split; [exact S4|]. split; [apply S5|]. intros r Hr. destruct (AT r Hr) as (a & b & Sa & Sb & L & N & K & R).
    exists a, b. split; auto. split; auto. split; auto. split; auto. split; auto.
    apply reads_iff; [exact S4|]. apply reads_iff in R; auto. }
  assert (G2 : good stream m2).
  { refine (mfor_inv (good stream) _ inc _ m1 m2 G1 E2). intros i s s' Hi Gs Es.
    refine (mfor_inv (good stream) _ (kept ++ inc) _ s s' Gs Es). intros j t t' Hj Gt Et.
    eapply (add_attributed stream text clock x i j n'); eauto.
    - apply HS', in_app_iff; now right.
    - intros L. apply HO; auto. apply HS', in_app_iff; now right. }
  assert (G3 : good stream m'); [|apply G3].
  refine (mfor_inv (good stream) _ out _ m2 m' G2 E). intros o s s' Ho Gs Es.
  unfold bind in Es. rewrite (HX (el_idx o)) in Es.
  - cbn [lift ret] in Es. eapply delete_attributed; eauto.
  - assert (el_idx o < n) by (apply HB, in_app_iff; now left). lia.
Qed.

Lemma physical_attributed stream ev evs m m' p :
  aligned m -> names_unique m -> m_constrs m = [] -> attributed stream m -> to_physical ev evs [] m = (m', Ok p) -> attributed stream m'.
Proof.
  intros AL NU EC AT E.
  assert (HC : cmodels evs 0 (m_mtype m) (dvals (m_constrs m)) = Ok []) by (rewrite EC; reflexivity).
  assert (HX : forall r cm, In r (m_rows m) -> r_removed r = true -> In cm [] -> ~ In (r_name r) (names cm)) by (intros ? ? _ _ []).
  destruct (C11_frame _ _ _ _ _ _ _ AL NU HC HX E) as (F1 & F2 & F3 & _ & _ & F6 & F7 & _ & F9 & F10 & F11 & F12).
  intros r Hr. rewrite F9 in Hr. pose proof Hr as Hn. apply in_map_iff in Hr as (r0 & <- & Hr). apply filter_In in Hr as [Hr HA].
  apply negb_true_iff in HA. destruct (AT r0 Hr) as (a & b & Sa & Sb & L & N & K & R). exists a, b. split; auto. split; auto. split; auto.
  split; [exact N|]. split; [exact K|]. apply reads_iff; auto. apply reads_iff in R; auto. destruct R as (R1 & R2 & R3 & R4).
  split; [exact R1|]. split.
  - unfold names. rewrite F9. now apply in_map.
  - split; [now rewrite F7|]. change (r_name (set_dirty false r0)) with (r_name r0). rewrite F10 by auto. exact R4.
Qed.

(** ** Attenuation *)
Definition attn_key : string := "attributes.attn_ts".
Lemma K2_inj a b c d : K2 a b = K2 c d -> a = c /\ b = d.
Proof. intros E. injection E as -> ->. auto. Qed.
Lemma pkey_inj i j a b : pkey i j = pkey a b -> (i = a /\ j = b) \/ (i = b /\ j = a).
Proof.
  unfold pkey. destruct (String.ltb (lab i) (lab j)), (String.ltb (lab a) (lab b)); intros E; apply K2_inj in E as [E1 E2]; apply lab_inj in E1, E2; auto.
Qed.
Lemma in_order_inj stream a b : in_order stream -> In a stream -> In b stream -> el_idx a = el_idx b -> a = b.
Proof.
  intros [ND _]. induction stream as [|x l IH]; [intros []|]. cbn [map] in ND. inversion ND as [|? ? N1 N2]; subst.
  intros [<-|Ha] [<-|Hb] E; auto; exfalso; apply N1; [rewrite E | rewrite <- E]; now apply in_map.
Qed.
Lemma asc_pairs l p : asc l -> In p (pairs l) -> later_el (snd p) (fst p).
Proof.
  intros H. induction H as [|x l H IH F]; [intros []|]. cbn [pairs]. rewrite in_app_iff, in_map_iff. intros [(y & <- & Hy)|Hp]; auto.
  rewrite Forall_forall in F. cbn. auto.
Qed.
Lemma live_reference stream sc m els r p : in_order stream -> (forall e, In e els -> In e stream) -> asc els -> aligned m ->
  attributed stream m -> In r (m_rows m) -> In p (pairs els) -> rdata r = pdata_s sc p ->
  reference m attn_key r = ANum (el_ts (snd p)).
Proof.
  intros HO HS HA AL AT Hr Hp E. unfold rdata, pdata_s in E. injection E as EK _ _.
  destruct (AT r Hr) as (a & b & Sa & Sb & [_ L] & N & K & R). pose proof (asc_pairs _ _ HA Hp) as [_ L'].
  destruct p as [u v]. apply pairs_in in Hp as [Hu Hv]. cbn [fst snd] in *.
  apply reads_iff in R as (_ & _ & _ & R); auto. unfold reference. change (String.eqb attn_key "timestamp") with false. cbn iota.
  change attn_key with (attr_key "attn_ts"). rewrite R. do 2 f_equal.
  rewrite K in EK. apply pkey_inj in EK as [[X1 X2]|[X1 X2]]; [|lia].
  apply (in_order_inj stream); auto.
Qed.

Lemma attenuated_inv sc sc' m m' els n h :
  inv_s sc m els n -> m_mtype m' = m_mtype m -> m_offset m' = m_offset m -> m_constrs m' = m_constrs m -> m_vars m' = m_vars m ->
  aligned m' -> names_unique m' -> m_rows m' = map h (live m) ->
  (forall r, r_name (h r) = r_name r /\ r_key (h r) = r_key r /\ r_inter (h r) = r_inter r /\ r_coef (h r) = r_coef r /\ r_removed (h r) = r_removed r) ->
  (forall r p, In r (live m) -> In p (pairs els) -> rdata r = pdata_s sc p -> r_scale (h r) = CNum (sc' p)) ->
  inv_s sc' m' els n.
Proof.
  intros ((S1 & S2 & S3 & S4 & [S5 S5'] & S6) & HV & HB & HP) E1 E2 E3 E4 AL NU ER HH HSC.
  assert (HL : forall r, In r (live m) -> In r (m_rows m) /\ r_removed r = false).
  { intros r Hr. apply filter_In in Hr as [Hr Hk]. apply negb_true_iff in Hk. auto. }
  split; [|split; [unfold vars_ok in *; rewrite E4; auto | split; auto]].
  - split; [congruence|]. split; [congruence|]. split; [congruence|]. split; auto. split; [split; auto|].
    + rewrite ER. apply Forall_forall. intros r Hr. apply in_map_iff in Hr as (r0 & <- & Hr). apply HL in Hr as [Hr _].
      rewrite Forall_forall in S5'. specialize (S5' r0 Hr). unfold key_ok in *. destruct (HH r0) as (_ & -> & -> & _). exact S5'.
    + rewrite ER. apply Forall_forall. intros r Hr. apply in_map_iff in Hr as (r0 & <- & Hr). apply HL in Hr as [Hr _].
      unfold named_pairs in S6. rewrite Forall_forall in S6. specialize (S6 r0 Hr). destruct (HH r0) as (-> & -> & _). exact S6.
  - assert (EL : live m' = m_rows m').
    { unfold live. apply filter_all. intros r Hr. rewrite ER in Hr. apply in_map_iff in Hr as (r0 & <- & Hr). apply HL in Hr as [_ Hk].
      destruct (HH r0) as (_ & _ & _ & _ & ->). rewrite Hk. reflexivity. }
    rewrite EL, ER, map_map. apply Permutation_map_inv in HP as (l3 & EQ & P3).
    eapply perm_trans; [|apply Permutation_map; symmetry; exact P3].
    assert (EQ' : map (fun r => rdata (h r)) (live m) = map (pdata_s sc') l3); [|rewrite EQ'; reflexivity].
    assert (H3 : forall p, In p l3 -> In p (pairs els)) by (intros p Hp; eapply Permutation_in; [symmetry; exact P3 | exact Hp]).
    clear - EQ H3 HH HSC. revert l3 EQ H3 HSC. induction (live m) as [|r l IH]; intros [|p l3] EQ H3 HSC; try discriminate; auto.
    cbn [map] in *. injection EQ as EK EC ES EQ. f_equal.
    + destruct (HH r) as (_ & A & _ & B & _). unfold rdata, pdata_s. rewrite A, B, EK, EC.
      rewrite (HSC r p); [reflexivity| now left | apply H3; now left|]. unfold rdata, pdata_s. congruence.
    + apply IH; auto; intros; [apply H3; now right|]. apply HSC; auto. now right.
Qed.

(** The scale of a pair. *)
Definition fade_of (ms : Qc) (els : list num_el) (p : num_el * num_el) : Qc := fade ms els (el_ts (snd p)).
Lemma asc_hd_last x l y z : asc (x :: l ++ [y; z]) -> (el_ts x < el_ts y)%Qc.
Proof. intros H. inversion H as [|? ? _ F]; subst. rewrite Forall_forall in F. apply F. apply in_app_iff. right. now left. Qed.
Lemma fade_three ms x l y z t : asc (x :: l ++ [y; z]) ->
  fade ms (x :: l ++ [y; z]) t = (ms + (1 - ms) * ((t - el_ts x) / (el_ts y - el_ts x)))%Qc.
Proof.
  intros H. apply asc_hd_last in H. unfold fade. cbn [map hd]. rewrite map_app. cbn [map].
  replace (el_ts x :: map el_ts l ++ [el_ts y; el_ts z]) with ((el_ts x :: map el_ts l ++ [el_ts y]) ++ [el_ts z])
    by (cbn; now rewrite <- app_assoc).
  rewrite removelast_last. change (el_ts x :: map el_ts l ++ [el_ts y]) with ((el_ts x :: map el_ts l) ++ [el_ts y]).
  rewrite last_last. now rewrite (proj2 (Qclt_bool_iff _ _) H).
Qed.
Lemma pairs_old x l y z p : asc (x :: l ++ [y; z]) -> In p (pairs (x :: l ++ [y; z])) ->
  (el_ts x <= el_ts (snd p))%Qc /\ (el_ts (snd p) <= el_ts y)%Qc.
Proof.
  intros H Hp. pose proof (asc_pairs _ _ H Hp) as [L _]. destruct p as [u v]. apply pairs_in in Hp as [Hu Hv]. cbn [fst snd] in *. split.
  - destruct Hv as [<-|Hv]; [apply Qcle_refl|]. inversion H as [|? ? _ F]; subst. rewrite Forall_forall in F. apply Qclt_le_weak. now apply F.
  - replace (x :: l ++ [y; z]) with ((x :: l ++ [y]) ++ [z]) in * by (cbn; now rewrite <- app_assoc).
    apply asc_app in H as (H1 & _ & H2). apply in_app_iff in Hv as [Hv|[<-|[]]].
    + change (x :: l ++ [y]) with ((x :: l) ++ [y]) in *. apply asc_app in H1 as (_ & _ & H3). apply in_app_iff in Hv as [Hv|[<-|[]]]; [|apply Qcle_refl].
      apply Qclt_le_weak. apply H3; auto. now left.
    + exfalso. apply in_app_iff in Hu as [Hu|[<-|[]]]; [|qord]. destruct (H2 u z Hu (or_introl eq_refl)). qord.
Qed.
Lemma pairs_last {A} (l : list A) y z : In (z, y) (pairs (l ++ [y; z])).
Proof. induction l as [|x l IH]; cbn [app pairs map]; [now left|]. apply in_app_iff. now right. Qed.
Lemma pairs_first {A} (x : A) l y z : In (z, x) (pairs (x :: l ++ [y; z])).
Proof. cbn [pairs]. apply in_app_iff. left. apply in_map_iff. exists z. split; auto. apply in_app_iff. right. right. now left. Qed.

Lemma split_two {A} (l : list A) : 2 <= length l -> exists y z, (l = [y; z]) \/ exists x r, l = x :: r ++ [y; z].
Proof.
  induction l as [|x l IH] using rev_ind; [cbn; lia|]. rewrite app_length. cbn [length]. clear IH.
  destruct l as [|y l _] using rev_ind; [cbn; lia|]. intros _. exists y, x. rewrite <- app_assoc. cbn [app].
  destruct l as [|w l]; [now left|]. right. exists w, l. reflexivity.
Qed.

(** The two newest numbers count in full. *)
Definition newest_full (sc : num_el * num_el -> Qc) (els : list num_el) : Prop :=
  forall l y z, els = l ++ [y; z] -> sc (z, y) = 1%Qc.

Lemma attenuate_step ev evs stream sc ms m els n : in_order stream -> (forall e, In e els -> In e stream) -> asc els ->
  2 <= length els -> inv_s sc m els n -> attributed stream m -> newest_full sc els \/ 3 <= length els ->
  exists m', attenuate ev evs (Some attn_key) (Some ms) m = (m', Ok tt) /\
    inv_s (fade_of ms els) m' els n /\ attributed stream m' /\ newest_full (fade_of ms els) els.
Proof.
  intros HO HS HA HL HI AT HF. pose proof HI as ((S1 & S2 & S3 & S4 & [S5 S5'] & S6) & HV & HB & HP).
  assert (HC : cmodels evs 0 (m_mtype m) (dvals (m_constrs m)) = Ok []) by (rewrite S3; reflexivity).
  assert (HX : forall r cm, In r (m_rows m) -> r_removed r = true -> In cm [] -> ~ In (r_name r) (names cm)) by (intros ? ? _ _ []).
  assert (Hlive : forall r, In r (live m) -> In r (m_rows m) /\ r_removed r = false).
  { intros r Hr. apply filter_In in Hr as [Hr Hk]. apply negb_true_iff in Hk. auto. }
  assert (Href : forall r p, In r (live m) -> In p (pairs els) -> rdata r = pdata_s sc p -> reference m attn_key r = ANum (el_ts (snd p))).
  { intros r p Hr Hp Ed. eapply (live_reference stream sc m els); eauto. now apply Hlive. }
  assert (Hrow : forall r, In r (live m) -> exists p, In p (pairs els) /\ rdata r = pdata_s sc p).
  { intros r Hr. assert (H : In (rdata r) (map rdata (live m))) by now apply in_map. apply (Permutation_in _ HP), in_map_iff in H as (p & Ep & Hp). eauto. }
  assert (Hpair : forall p, In p (pairs els) -> exists r, In r (live m) /\ rdata r = pdata_s sc p).
  { intros p Hp. assert (H : In (pdata_s sc p) (map (pdata_s sc) (pairs els))) by now apply in_map.
    apply (Permutation_in _ (Permutation_sym HP)), in_map_iff in H as (r & Er & Hr). eauto. }
  destruct (split_two els HL) as (y & z & Hels).
  assert (Hzy : In (z, y) (pairs els)).
  { destruct Hels as [->|(x & r & ->)]; [now left|]. change (x :: r ++ [y; z]) with ((x :: r) ++ [y; z]). apply pairs_last. }
  destruct (Hpair _ Hzy) as (rz & Hrz & Erz).
  destruct (C54_succeeds ev evs m [] S4 S5 HC HX attn_key ms) as [m' E].
  { apply (inv_resolved _ _ _ _ HI). }
  { intros C. rewrite C in Hrz. destruct Hrz. }
  { right. destruct (Hlive _ Hrz) as [H1 _]. destruct (AT rz H1) as (a & b & _ & _ & _ & _ & _ & R). apply reads_iff in R; auto. apply R. }
  { intros r Hr. destruct (Hrow r Hr) as (p & Hp & Ep). exists (el_ts (snd p)). eapply Href; eauto. }
  exists m'. split; auto.
  destruct (C54_frame ev evs m [] S4 S5 HC HX _ _ _ E) as (F1 & F2 & F3 & F4 & F5 & F6 & F7 & _).
  destruct (C54_attributes ev evs m [] S4 S5 HC HX _ _ _ E) as (G1 & G2 & G3).
  assert (HNF : newest_full (fade_of ms els) els /\ exists h, m_rows m' = map h (live m) /\
    (forall r, r_name (h r) = r_name r /\ r_key (h r) = r_key r /\ r_inter (h r) = r_inter r /\ r_coef (h r) = r_coef r /\ r_removed (h r) = r_removed r) /\
    (forall r p, In r (live m) -> In p (pairs els) -> rdata r = pdata_s sc p -> r_scale (h r) = CNum (fade_of ms els p))).
  { destruct Hels as [->|(x & l & ->)].
    - assert (EF : forall t, fade ms [y; z] t = 1%Qc).
      { intros t. unfold fade. cbn [map hd removelast last]. rewrite (proj2 (Qclt_bool_false _ _)) by apply Qcle_refl. reflexivity. }
      split; [intros l y' z' _; unfold fade_of; apply EF|].
      exists (set_dirty false). split; [|split].
      + apply (C54_equal ev evs m [] S4 S5 HC HX _ _ _ E). intros r1 r2 H1 H2.
        destruct (Hrow r1 H1) as (p1 & P1 & E1), (Hrow r2 H2) as (p2 & P2 & E2).
        rewrite (Href _ _ H1 P1 E1), (Href _ _ H2 P2 E2). destruct P1 as [<-|[]]. destruct P2 as [<-|[]]. reflexivity.
      + intros r. cbn. auto.
      + intros r p Hr Hp Ep. unfold fade_of. rewrite EF. cbn. destruct Hp as [<-|[]].
        destruct HF as [HF|HF]; [|cbn in HF; lia]. specialize (HF [] y z eq_refl). unfold rdata, pdata_s in Ep. congruence.
    - assert (LT : (el_ts x < el_ts y)%Qc) by now apply (asc_hd_last x l y z).
      assert (NE : (el_ts y - el_ts x)%Qc <> 0%Qc).
      { intros C. assert (H : el_ts y = el_ts x) by (rewrite <- (Qcplus_0_l (el_ts x)), <- C; ring). rewrite H in LT. qord. }
      split.
      { intros l' y' z' El. change (x :: l ++ [y; z]) with ((x :: l) ++ [y; z]) in El.
        replace ((x :: l) ++ [y; z]) with (((x :: l) ++ [y]) ++ [z]) in El by now rewrite <- app_assoc.
        replace (l' ++ [y'; z']) with ((l' ++ [y']) ++ [z']) in El by now rewrite <- app_assoc.
        apply app_inj_tail in El as [El <-]. apply app_inj_tail in El as [_ <-].
        unfold fade_of. cbn [snd]. rewrite fade_three by auto. field. exact NE. }
      eexists. split; [|split].
      + apply (C54_line ev evs m [] S4 S5 HC HX _ _ _ (el_ts x) (el_ts y) E); auto.
        * destruct (Hpair (z, x)) as (r & Hr & Er); [apply pairs_first|]. exists r. split; auto. apply (Href r (z, x)); auto. apply pairs_first.
        * exists rz. split; auto. apply (Href rz (z, y)); auto.
        * intros r t Hr Et. destruct (Hrow r Hr) as (p & Hp & Ep). rewrite (Href r p) in Et by auto. injection Et as <-.
          now apply (pairs_old x l y z p).
      + intros r. cbn. auto.
      + intros r p Hr Hp Ep. cbn beta. cbn [set_scale r_scale]. rewrite (Href r p) by auto. cbn [ref_num].
        unfold fade_of. rewrite fade_three by auto. reflexivity. }
  destruct HNF as (HNF & h & ER & HH & HSC). split; [|split; auto].
  - eapply attenuated_inv; eauto.
  - intros r Hr. pose proof Hr as Hr'. rewrite ER in Hr. apply in_map_iff in Hr as (r0 & <- & Hr). destruct (HH r0) as (N0 & K0 & _).
    destruct (Hlive _ Hr) as [Hr0 _]. destruct (AT r0 Hr0) as (a & b & Sa & Sb & L & N & K & R). exists a, b. split; auto. split; auto. split; auto.
    unfold of_pair. rewrite N0, K0. split; auto. split; auto. apply reads_iff; auto. apply reads_iff in R; auto. destruct R as (R1 & R2 & R3 & R4).
    split; auto. split; [unfold names; rewrite <- N0; now apply in_map|]. split; [now rewrite F7|]. rewrite G3 by auto. exact R4.
Qed.

(** ** One window *)
Definition next_scale (sc : num_el * num_el -> Qc) (inc : list num_el) (p : num_el * num_el) : Qc :=
  if existsb (fun e => Nat.eqb (el_idx e) (el_idx (fst p))) inc then 1%Qc else sc p.
Lemma next_scale_new sc inc p : In (fst p) inc -> next_scale sc inc p = 1%Qc.
Proof.
  intros H. unfold next_scale. replace (existsb _ inc) with true; auto. symmetry. apply existsb_exists. exists (fst p). split; auto. apply Nat.eqb_refl.
Qed.
Lemma next_scale_old sc inc p : (forall e, In e inc -> el_idx e <> el_idx (fst p)) -> next_scale sc inc p = sc p.
Proof.
  intros H. unfold next_scale. destruct (existsb _ inc) eqn:E; auto. apply existsb_exists in E as (e & He & E). apply Nat.eqb_eq in E. destruct (H e He E).
Qed.
Lemma next_scale_newest sc out kept inc : asc (out ++ kept ++ inc) -> newest_full sc (out ++ kept) ->
  newest_full (next_scale sc inc) (kept ++ inc).
Proof.
  intros HA HF l y z E. destruct inc as [|i inc _] using rev_ind.
  - rewrite app_nil_r in E. rewrite next_scale_old by (intros ? []). apply (HF (out ++ l)). rewrite E. apply app_assoc.
  - apply next_scale_new. cbn [fst]. replace (l ++ [y; z]) with ((l ++ [y]) ++ [z]) in E by now rewrite <- app_assoc.
    rewrite app_assoc in E. apply app_inj_tail in E as [_ ->]. apply in_app_iff. right. now left.
Qed.

Definition faded_options (o : aoptions Qc) (ms : Qc) : Prop := ao_key o = Some attn_key /\ ao_min_scale o = Some ms.

Lemma window_step_attn stream sc ms o w u (b : bags Qc (list srow)) n out kept inc :
  in_order stream -> (forall e, In e (out ++ kept ++ inc) -> In e stream) -> faded_options o ms ->
  current w b -> prev_els b = out ++ kept -> inv_s sc (stored_model Ising b) (out ++ kept) n ->
  attributed stream (stored_model Ising b) -> newest_full sc (out ++ kept) -> 2 <= length (kept ++ inc) ->
  window_elements Attenuation o (out ++ kept) (wn_els w) = Ok (kept ++ inc) ->
  resolve_outgoing (out ++ kept) (kept ++ inc) = Ok out -> resolve_incoming (out ++ kept) (kept ++ inc) = inc ->
  asc (out ++ kept ++ inc) -> (forall e, In e inc -> n <= el_idx e) ->
  exists b' x, process Attenuation o (npp_callbacks u) Ising w b = (b', Ok x) /\ answers_faded ms u (kept ++ inc) x /\
    prev_els b' = kept ++ inc /\ b_ts b' = [wn_ts w] /\ inv_s (fade_of ms (kept ++ inc)) (stored_model Ising b') (kept ++ inc) (next_size n inc) /\
    attributed stream (stored_model Ising b') /\ newest_full (fade_of ms (kept ++ inc)) (kept ++ inc).
Proof.
  intros HO HS [Hk Hm] Hc Hp HI AT HF HL Hw Ho Hin HA Hn. unfold process.
  assert (HA' : asc (kept ++ inc)) by (apply asc_app in HA; tauto).
  assert (HN : kept ++ inc <> []) by (destruct (kept ++ inc); [cbn in HL; lia | discriminate]).
  assert (HCH : chronological (kept ++ inc)) by now apply asc_chrono. apply current_test in Hc. rewrite Hc.
  assert (HS' : forall e, In e (kept ++ inc) -> In e stream) by (intros e He; apply HS, in_app_iff; now right).
  change (last_or [] (b_els b)) with (prev_els b). rewrite Hp, Hw, Ho, Hin.
  change (last_or (new_model Ising) (b_model b)) with (stored_model Ising b).
  destruct (mapping_step_s sc (next_scale sc inc) (su_text u) (su_clock u) (stored_model Ising b) n out kept inc) as (m1 & E1 & I1); auto.
  { intros p H. apply next_scale_old. intros e He C. apply asc_app in HA' as (_ & _ & H2). destruct p as [a c]. apply pairs_in in H as [H _].
    destruct (H2 a e H He). cbn in C. lia. }
  { intros p H. now apply next_scale_new. }
  pose proof (mapping_attributed stream sc _ _ _ _ n out kept inc HO HS HI HN Hn AT E1) as AT1.
  destruct (attenuate_step (wn_env w) (wn_envs w) stream (next_scale sc inc) ms m1 (kept ++ inc) (next_size n inc)) as (m2 & E2 & I2 & AT2 & NF2); auto.
  { left. now apply (next_scale_newest sc out). }
  assert (HND : NoDup (map el_idx (kept ++ inc))).
  { clear - HA'. induction HA' as [|x l HA IH F]; cbn [map]; constructor; auto.
    intros C. apply in_map_iff in C as (y & E & Hy). rewrite Forall_forall in F. destruct (F y Hy). lia. }
  destruct (solving_step_s _ (su_env u) (su_envs u) m2 _ _ I2 HND) as (m3 & p & E3 & I3 & T3 & NL & EN).
  assert (AT3 : attributed stream m3).
  { pose proof I2 as ((_ & _ & S3 & S4 & [S5 _] & _) & _). eapply physical_attributed; eauto. }
  cbn [npp_callbacks cb_map cb_solve cb_unmap]. rewrite E1, Hk, Hm, E2. unfold npp_solving. rewrite E3.
  assert (HR : answers_faded ms u (kept ++ inc) [match su_solver u p with
           | Err e => SolveFailed e
           | Ok ss => match npp_unmapping ss (kept ++ inc) with Ok r => Solved r | Err e => UnmapFailed e end
           end]).
  { exists p, (kept ++ inc). split; auto. }
  destruct (su_solver u p) as [ss|e] eqn:ES.
  - do 2 eexists. split; [reflexivity|]. split; [exact HR|split; [reflexivity|split; [reflexivity|auto]]].
  - do 2 eexists. split; [reflexivity|]. split; [exact HR|split; [reflexivity|split; [reflexivity|auto]]].
Qed.

Lemma answers_faded_perm ms u a b x : Permutation a b -> answers_faded ms u a x -> answers_faded ms u b x.
Proof.
  intros P (p & els & H1 & H2 & H3 & H4 & H5 & H6). exists p, els. split; auto. split; [eapply perm_trans; eauto|].
  split; auto. split; auto. split; auto. eapply only_pairs_perm; eauto.
Qed.

(** What the stream has left behind before a window. *)
Definition state_ok (stream : list num_el) (b : bags Qc (list srow)) (lo hi : Qc) : Prop :=
  exists sc n, chronological (prev_els b) /\ Permutation (prev_els b) (range stream lo hi) /\
    inv_s sc (stored_model Ising b) (prev_els b) n /\ attributed stream (stored_model Ising b) /\ newest_full sc (prev_els b) /\
    forall e, In e stream -> (hi <= el_ts e)%Qc -> n <= el_idx e.

Lemma faded_cut stream w (b : bags Qc (list srow)) n lo hi lo' hi' : in_order stream ->
  chronological (prev_els b) -> Permutation (prev_els b) (range stream lo hi) ->
  (forall e, In e stream -> (hi <= el_ts e)%Qc -> n <= el_idx e) ->
  (lo <= lo')%Qc -> (hi <= hi')%Qc -> wn_els w <> [] -> Permutation (wn_els w) (range stream lo' hi') ->
  exists out kept inc, prev_els b = out ++ kept /\ sorted (wn_els w) = kept ++ inc /\
    resolve_outgoing (out ++ kept) (kept ++ inc) = Ok out /\ resolve_incoming (out ++ kept) (kept ++ inc) = inc /\
    asc (out ++ kept ++ inc) /\ (forall e, In e inc -> n <= el_idx e) /\ (forall e, In e (out ++ kept ++ inc) -> In e stream) /\
    (forall e, In e stream -> (hi' <= el_ts e)%Qc -> next_size n inc <= el_idx e).
Proof.
  intros HO HC HP Hn L1 L2 HN' HW.
  destruct (windowed_cut stream (prev_els b) (wn_els w) lo hi lo' hi') as (out & kept & inc & E1 & E2 & Eo & Ei & Mo & Mi); auto; [apply HO|].
  assert (SP : Permutation (wn_els w) (sorted (wn_els w))) by apply sorted_perm.
  assert (Hinc : forall e, In e inc -> In e stream /\ (hi <= el_ts e)%Qc /\ (el_ts e < hi')%Qc).
  { intros e He. apply Mi in He as [He1 He2]. apply (in_range_perm _ _ _ _ _ HW) in He1 as (S & A & B).
    split; auto. split; auto. destruct (Qclt_le_dec (el_ts e) hi) as [C|C]; auto. exfalso. apply He2, (in_range_perm _ _ _ _ _ HP). split; auto. split; auto. qord. }
  assert (HA : asc (out ++ kept ++ inc)).
  { assert (A1 : asc (prev_els b)).
    { apply (chrono_asc stream); auto.
      - intros e He. now apply (in_range_perm _ _ _ _ _ HP) in He.
      - apply (idx_perm (range stream lo hi)); [now symmetry|]. apply NoDup_range. apply HO. }
    assert (A2 : asc (sorted (wn_els w))).
    { apply (chrono_asc stream); auto.
      - intros e He. apply (Permutation_in _ (Permutation_sym SP)) in He. now apply (in_range_perm _ _ _ _ _ HW) in He.
      - apply (idx_perm (range stream lo' hi')); [symmetry; eapply perm_trans; [symmetry; exact SP | exact HW]|]. apply NoDup_range. apply HO.
      - apply sorted_chronological. }
    rewrite E1 in A1. rewrite E2 in A2. apply asc_app in A1 as (B1 & B2 & B3). apply asc_app. split; auto. split; auto.
    intros x y Hx Hy. apply in_app_iff in Hy as [Hy|Hy]; auto.
    assert (Hx' : In x (prev_els b)) by (rewrite E1; apply in_app_iff; now left).
    apply (in_range_perm _ _ _ _ _ HP) in Hx' as (X1 & X2 & X3). destruct (Hinc y Hy) as (Y1 & Y2 & Y3).
    assert (L : (el_ts x < el_ts y)%Qc) by qord. split; auto. now apply HO. }
  assert (Hn' : forall e, In e inc -> n <= el_idx e) by (intros e He; apply Hinc in He; apply Hn; tauto).
  exists out, kept, inc. rewrite <- E1. do 2 (split; [auto|]). rewrite <- E2 at 1 2. do 2 (split; [auto|]). split; [exact HA|]. split; [exact Hn'|]. split.
  - intros e He. apply in_app_iff in He as [He|He]; [|apply in_app_iff in He as [He|He]].
    + assert (H : In e (prev_els b)) by (rewrite E1; apply in_app_iff; now left). now apply (in_range_perm _ _ _ _ _ HP) in H.
    + assert (H : In e (prev_els b)) by (rewrite E1; apply in_app_iff; now right). now apply (in_range_perm _ _ _ _ _ HP) in H.
    + now apply Hinc.
  - intros e He Lh. apply next_size_bound.
    + apply Hn; auto. qord.
    + intros y Hy. destruct (Hinc y Hy) as (Y1 & Y2 & Y3). apply HO; auto. qord.
Qed.

Lemma faded_window ms o stream w u (b : bags Qc (list srow)) lo hi lo' hi' : faded_options o ms -> in_order stream ->
  state_ok stream b lo hi -> current w b -> (lo <= lo')%Qc -> (hi <= hi')%Qc ->
  2 <= length (wn_els w) -> Permutation (wn_els w) (range stream lo' hi') ->
  exists b' x, process Attenuation o (npp_callbacks u) Ising w b = (b', Ok x) /\ answers_faded ms u (wn_els w) x /\
    b_ts b' = [wn_ts w] /\ state_ok stream b' lo' hi'.
Proof.
  intros Ho HO (sc & n & HC & HP & HI & AT & NF & Hn) Hc L1 L2 HN HW.
  assert (HN' : wn_els w <> []) by (destruct (wn_els w); [cbn in HN; lia | discriminate]).
  assert (SP : Permutation (wn_els w) (sorted (wn_els w))) by apply sorted_perm.
  destruct (faded_cut stream w b n lo hi lo' hi') as (out & kept & inc & E1 & E2 & Eo & Ei & HA & Hn' & HS & Hn''); auto.
  destruct (window_step_attn stream sc ms o w u b n out kept inc) as (b1 & x & P1 & A1 & P2 & T1 & I1 & AT1 & NF1); auto.
  { rewrite <- E1. exact HI. }
  { rewrite <- E1. exact NF. }
  { rewrite <- E2. rewrite <- (Permutation_length SP). exact HN. }
  { rewrite <- E2, <- E1. apply windowed_elements. unfold windowed. tauto. }
  exists b1, x. split; auto. split; [eapply answers_faded_perm; [|exact A1]; rewrite <- E2; now symmetry|]. split; auto.
  exists (fade_of ms (kept ++ inc)), (next_size n inc). rewrite P2. rewrite <- E2 at 1 2. split; [apply sorted_chronological|].
  split; [eapply perm_trans; [symmetry; exact SP | exact HW]|]. auto.
Qed.

(** A window with one number has no pair to attenuate. *)
Lemma one_number_fails ms o stream w u (b : bags Qc (list srow)) lo hi lo' hi' : faded_options o ms -> in_order stream ->
  state_ok stream b lo hi -> current w b -> (lo <= lo')%Qc -> (hi <= hi')%Qc ->
  length (wn_els w) = 1 -> Permutation (wn_els w) (range stream lo' hi') ->
  exists b' e, process Attenuation o (npp_callbacks u) Ising w b = (b', Err e).
Proof.
  intros [Hk Hm] HO (sc & n & HC & HP & HI & AT & NF & Hn) Hc L1 L2 HN HW.
  assert (HN' : wn_els w <> []) by (destruct (wn_els w); [cbn in HN; lia | discriminate]).
  destruct (faded_cut stream w b n lo hi lo' hi') as (out & kept & inc & E1 & E2 & Eo & Ei & HA & Hn' & HS & Hn''); auto.
  assert (HL : length (kept ++ inc) = 1) by (rewrite <- E2, <- (Permutation_length (sorted_perm (wn_els w))); exact HN).
  assert (HN2 : kept ++ inc <> []) by (destruct (kept ++ inc); [cbn in HL; lia | discriminate]).
  unfold process. apply current_test in Hc. rewrite Hc.
  change (last_or [] (b_els b)) with (prev_els b). rewrite E1.
  assert (EW : window_elements Attenuation o (out ++ kept) (wn_els w) = Ok (kept ++ inc))
    by (rewrite <- E2, <- E1; apply windowed_elements; unfold windowed; tauto).
  rewrite EW, Eo, Ei. change (last_or (new_model Ising) (b_model b)) with (stored_model Ising b).
  rewrite E1 in HI.
  destruct (mapping_step_s sc (next_scale sc inc) (su_text u) (su_clock u) (stored_model Ising b) n out kept inc) as (m1 & E3 & I1); auto.
  { intros p H. apply next_scale_old. intros e He C. apply asc_app in HA as (_ & HA & _). apply asc_app in HA as (_ & _ & H2). destruct p as [a c]. apply pairs_in in H as [H _].
    destruct (H2 a e H He). cbn in C. lia. }
  { intros p H. now apply next_scale_new. }
  cbn [npp_callbacks cb_map cb_solve cb_unmap]. rewrite E3, Hk, Hm.
  assert (HE : exists m2 e, attenuate (wn_env w) (wn_envs w) (Some attn_key) (Some ms) m1 = (m2, Err e)).
  { pose proof I1 as ((S1 & S2 & S3 & S4 & [S5 S5'] & S6) & HV & HB & HP1).
    assert (HC1 : cmodels (wn_envs w) 0 (m_mtype m1) (dvals (m_constrs m1)) = Ok []) by (rewrite S3; reflexivity).
    assert (HX : forall r cm, In r (m_rows m1) -> r_removed r = true -> In cm [] -> ~ In (r_name r) (names cm)) by (intros ? ? _ _ []).
    assert (LV : live m1 = []).
    { destruct (kept ++ inc) as [|e [|e' l]]; cbn in HL; try lia. cbn [pairs map app] in HP1.
      apply Permutation_sym, Permutation_nil in HP1. now destruct (live m1). }
    destruct (attenuate _ _ _ _ m1) as [m2 [[]|e]] eqn:E; [|eauto]. exfalso. revert E. unfold attenuate, bind, get, lift.
    destruct (to_physical (wn_env w) (wn_envs w) [] m1) as [m3 [p|e]] eqn:E; [|discriminate].
    pose proof (C11_frame _ _ _ _ _ _ _ S4 S5 HC1 HX E) as (_&_&_&_&_&_&_&_&FR&_&FA&FU). fold (live m1) in FR. rewrite LV in FR. cbn [map] in FR.
    destruct (ref_column m3 attn_key) as [ref|e] eqn:ER; [|discriminate].
    pose proof (ref_column_ok_key _ _ _ FA ER) as HK. apply (ref_column_iff m3 attn_key ref FA FU HK) in ER. rewrite FR in ER.
    destruct ref; [|discriminate]. discriminate. }
  destruct HE as (m2 & e & ->). do 2 eexists. reflexivity.
Qed.

Lemma history_faded ms o stream rs : faded_options o ms -> in_order stream ->
  forall ws (b : bags Qc (list srow)) lo hi,
  state_ok stream b lo hi -> in_time (last (b_ts b) (- (1))%Qc) (map fst ws) -> forward lo hi rs ->
  Forall2 (fun r wu => 2 <= length (wn_els (fst wu)) /\ Permutation (wn_els (fst wu)) (range stream (fst r) (snd r))) rs ws ->
  exists b' outs,
    npp_stream Attenuation o ws b = (b', Ok outs) /\
    Forall2 (fun wu out => answers_faded ms (snd wu) (wn_els (fst wu)) out) ws outs /\
    last (b_ts b') (- (1))%Qc = last (map (fun wu => wn_ts (fst wu)) ws) (last (b_ts b) (- (1))%Qc) /\
    state_ok stream b' (fst (last rs (lo, hi))) (snd (last rs (lo, hi))).
Proof.
  intros Ho HO. induction rs as [|[lo' hi'] rs IH]; intros ws b lo hi HS Hit Hf HF; inversion HF as [|? [w u] ? ws' [HN HW] HF']; subst.
  - exists b, []. split; [reflexivity|]. split; [constructor|]. split; [reflexivity|exact HS].
  - cbn [fst snd map in_time forward] in *. destruct Hf as (L1 & L2 & Hf). destruct Hit as [Lt Hit].
    destruct (faded_window ms o stream w u b lo hi lo' hi') as (b1 & x & P1 & A1 & T1 & S1); auto.
    { intros t' <-. exact Lt. }
    destruct (IH ws' b1 lo' hi') as (b' & outs & R1 & R2 & R3 & R4); auto.
    { rewrite T1. exact Hit. }
    exists b', (x :: outs). split; [|split; [|split]].
    + cbn [npp_stream]. unfold bind at 1. rewrite P1. unfold bind at 1. rewrite R1. reflexivity.
    + constructor; auto.
    + rewrite R3, T1. cbn [last]. destruct ws' as [|y ws']; [reflexivity|]. cbn [map].
      clear. revert y. induction ws' as [|z ws' IH]; intros y; cbn [map last]; auto. apply IH.
    + assert (EL : last ((lo', hi') :: rs) (lo, hi) = last rs (lo', hi')).
      { clear. revert lo hi lo' hi'. induction rs as [|[p q] rs IH]; intros; auto. change (last ((lo', hi') :: (p, q) :: rs) (lo, hi)) with (last ((p, q) :: rs) (lo, hi)).
        now rewrite !IH. }
      rewrite EL. exact R4.
Qed.
Lemma state_start stream lo : state_ok stream no_bags lo lo.
Proof.
  exists plain, 0. split; [constructor|]. split; [|split; [apply inv_new|split; [intros r []|split]]].
  - change (prev_els (@no_bags Qc (list srow))) with (@nil num_el).
    assert (E : range stream lo lo = []); [|rewrite E; constructor]. unfold range. clear. induction stream as [|e l IH]; auto. cbn [filter].
    destruct (in_range lo lo e) eqn:E; auto. apply in_range_iff in E as [A B]. exfalso. qord.
  - intros l y z E. destruct l; discriminate.
  - lia.
Qed.

(** C87: with the Attenuation algorithm and the options of the sample, the solver
    receives in every window the model of the numbers of that window in which each
    pair fades with the age of its earlier number. Every window is to have two
    numbers: with one there is no pair, and the stream stops (C87_one_number). *)
Theorem C87_window ms o stream lo rs ws :
  faded_options o ms -> in_order stream ->
  in_time (- (1))%Qc (map fst ws) -> forward lo lo rs ->
  Forall2 (fun r wu => 2 <= length (wn_els (fst wu)) /\ Permutation (wn_els (fst wu)) (range stream (fst r) (snd r))) rs ws ->
  exists b outs,
    npp_stream Attenuation o ws no_bags = (b, Ok outs) /\
    Forall2 (fun wu out => answers_faded ms (snd wu) (wn_els (fst wu)) out) ws outs.
Proof.
  intros Ho HO Hit Hf HF. destruct (history_faded ms o stream rs Ho HO ws no_bags lo lo) as (b & outs & H1 & H2 & _); auto.
  - apply state_start.
  - exists b, outs. auto.
Qed.

Lemma stream_app a o ws1 : forall ws2 b b1 outs, npp_stream a o ws1 b = (b1, Ok outs) ->
  npp_stream a o (ws1 ++ ws2) b = match npp_stream a o ws2 b1 with (b2, Ok outs2) => (b2, Ok (outs ++ outs2)) | (b2, Err e) => (b2, Err e) end.
Proof.
  induction ws1 as [|[w u] ws1 IH]; intros ws2 b b1 outs; cbn [npp_stream app].
  - intros E. injection E as <- <-. destruct (npp_stream a o ws2 b) as [? [?|?]]; reflexivity.
  - unfold bind. destruct (process _ _ _ _ _ _) as [b2 [x|e]] eqn:E1; [|discriminate].
    destruct (npp_stream a o ws1 b2) as [b3 [y|e]] eqn:E2; [|discriminate]. cbn [ret]. intros E. injection E as <- <-.
    rewrite (IH ws2 _ _ _ E2). destruct (npp_stream a o ws2 b3) as [? [?|?]]; reflexivity.
Qed.

(** After any such windows, one with a single number stops the stream. *)
Theorem C87_one_number ms o stream lo rs ws r w u :
  faded_options o ms -> in_order stream ->
  in_time (- (1))%Qc (map fst (ws ++ [(w, u)])) -> forward lo lo (rs ++ [r]) ->
  Forall2 (fun r wu => 2 <= length (wn_els (fst wu)) /\ Permutation (wn_els (fst wu)) (range stream (fst r) (snd r))) rs ws ->
  length (wn_els w) = 1 -> Permutation (wn_els w) (range stream (fst r) (snd r)) ->
  exists b e, npp_stream Attenuation o (ws ++ [(w, u)]) no_bags = (b, Err e).
Proof.
  intros Ho HO Hit Hf HF HL HW.
  assert (T1 : forall (l : list (win Qc)) t, in_time t (l ++ [w]) -> in_time t l /\ (last (map wn_ts l) t <= wn_ts w)%Qc).
  { clear. induction l as [|y l IH]; intros t; cbn [app in_time map]; [cbn; tauto|]. intros [A B]. apply IH in B as [B C]. split; auto.
    destruct l as [|z l]; [exact C|]. cbn [map] in *. change (last (wn_ts y :: wn_ts z :: map wn_ts l) t) with (last (wn_ts z :: map wn_ts l) t).
    assert (E : forall d d' x (k : list Qc), last (x :: k) d = last (x :: k) d') by (intros d d' x k; revert x; induction k as [|q k IHk]; intros x; auto; apply IHk).
    now rewrite (E t (wn_ts y)). }
  rewrite map_app in Hit. cbn [map fst] in Hit. apply T1 in Hit as [Hit Hlast].
  assert (T2 : forall rs lo hi, forward lo hi (rs ++ [r]) -> forward lo hi rs /\ (fst (last rs (lo, hi)) <= fst r)%Qc /\ (snd (last rs (lo, hi)) <= snd r)%Qc).
  { clear. induction rs as [|[p q] rs IH]; intros lo hi; cbn [app forward].
    - destruct r. cbn. tauto.
    - intros (A & B & C). apply IH in C as (C & D). split; auto.
      assert (EL : last ((p, q) :: rs) (lo, hi) = last rs (p, q)).
      { clear. revert lo hi p q. induction rs as [|[p' q'] rs IH]; intros; auto. change (last ((p, q) :: (p', q') :: rs) (lo, hi)) with (last ((p', q') :: rs) (lo, hi)).
        now rewrite !IH. }
      now rewrite EL. }
  apply T2 in Hf as (Hf & L1 & L2).
  destruct (history_faded ms o stream rs Ho HO ws no_bags lo lo) as (b & outs & H1 & H2 & H3 & H4); auto.
  { apply state_start. }
  rewrite (stream_app _ _ _ [(w, u)] _ _ _ H1). cbn [npp_stream]. unfold bind.
  destruct (one_number_fails ms o stream w u b _ _ (fst r) (snd r) Ho HO H4) as (b' & e & E); auto.
  { intros t' <-. cbn [no_bags b_ts last] in H3. rewrite H3. rewrite <- map_map. exact Hlast. }
  rewrite E. eauto.
Qed.

(** The weights: from min_scale for the pairs of the oldest number to 1 for the two
    newest, growing with the time of the earlier number. *)
Theorem C87_weights ms x l y z : (0 <= ms)%Qc -> (ms <= 1)%Qc ->
  let els := x :: l ++ [y; z] in
  in_order els -> chronological els ->
  (forall p, In p (pairs els) -> (ms <= fade ms els (el_ts (snd p)))%Qc /\ (fade ms els (el_ts (snd p)) <= 1)%Qc) /\
  fade ms els (el_ts x) = ms /\ fade ms els (el_ts y) = 1%Qc /\
  (forall t1 t2, (t1 <= t2)%Qc -> (fade ms els t1 <= fade ms els t2)%Qc).
Proof.
  intros M0 M1 els HO HC.
  assert (HA : asc els) by (apply (chrono_asc els); auto; apply HO).
  assert (LT : (el_ts x < el_ts y)%Qc) by now apply (asc_hd_last x l y z).
  assert (NE : (el_ts y - el_ts x)%Qc <> 0%Qc).
  { intros C. assert (H : el_ts y = el_ts x) by (rewrite <- (Qcplus_0_l (el_ts x)), <- C; ring). rewrite H in LT. qord. }
  assert (EF : forall t, fade ms els t = new_scale (el_ts x) (el_ts y) ms t).
  { intros t. unfold els. rewrite fade_three by auto. unfold new_scale. field. exact NE. }
  split; [|split; [|split]].
  - intros p Hp. rewrite EF. destruct (pairs_old x l y z p HA Hp) as [B1 B2]. split.
    + rewrite <- (line_lo (el_ts x) (el_ts y) ms) at 1. now apply line_mono.
    + rewrite <- (line_hi (el_ts x) (el_ts y) ms LT). now apply line_mono.
  - rewrite EF. apply line_lo.
  - rewrite EF. now apply line_hi.
  - intros t1 t2 L. rewrite !EF. now apply line_mono.
Qed.

(** ** Cases *)
(** The options of npp_attenuation.py (34-40). *)
Definition sample_options : aoptions Qc := mkAo None (Some attn_key) (Some (Q2Qc (1 # 10))).
Example C87_hyps : faded_options sample_options (Q2Qc (1 # 10)) /\ in_order nums_ /\ in_time (- (1))%Qc (map fst npp_ws) /\
  forward 0%Qc 0%Qc [(0%Qc, qz 10); (qz 5, qz 15)] /\
  Forall2 (fun r wu => 2 <= length (wn_els (fst wu)) /\ Permutation (wn_els (fst wu)) (range nums_ (fst r) (snd r))) [(0%Qc, qz 10); (qz 5, qz 15)] npp_ws /\
  map (fun t => this (fade (Q2Qc (1 # 10)) nums_ (qz t))) [1; 4; 6]%Z = [1 # 10; 16 # 25; 1]%Q.
Proof.
  destruct C62_C79_hyps as (H1 & H2 & H3 & H4 & _). split; [split; reflexivity|]. do 3 (split; [auto|]). split; [|vm_compute; reflexivity].
  inversion H4 as [|? ? ? ? [_ A1] H5]; subst. inversion H5 as [|? ? ? ? [_ A2] H6]; subst. inversion H6; subst.
  constructor; [split; [cbn; lia|exact A1]|]. constructor; [split; [cbn; lia|exact A2]|]. constructor.
Qed.
Example C87_one_number_hyps :
  snd (npp_stream Attenuation sample_options (npp_ws ++ [(mkWin (qz 20) [num_ 11 3 8] true env0 (fun _ => env0), exact_sur)]) no_bags) = Err ValueError /\
  snd (npp_stream Attenuation sample_options [(mkWin (qz 20) [num_ 11 3 8] true env0 (fun _ => env0), exact_sur)] no_bags) = Err KeyError.
Proof. split; vm_compute; reflexivity. Qed.

(** So an exact solver need not find the best partition: of 10, 4 and 5 the answer
    is 4 and 10 against 5, and not 10 against 4 and 5. *)
Theorem C87_not_best :
  let els := [num_ 1 0 10; num_ 2 1 4; num_ 3 2 5] in
  exists b ans, npp_stream Attenuation sample_options [(mkWin (qz 10) els true env0 (fun _ => env0), exact_sur)] no_bags = (b, Ok [[Solved ans]]) /\
    ~ best_partition els ans.
Proof.
  intros els.
  destruct (npp_stream Attenuation sample_options [(mkWin (qz 10) els true env0 (fun _ => env0), exact_sur)] no_bags) as [b r] eqn:E.
  assert (ER : r = Ok [[Solved (mkAns [qz 10; qz 4; qz 5] [qz 5] [qz 10; qz 4] (qz 9))]]).
  { change r with (snd (b, r)). rewrite <- E. vm_compute. reflexivity. }
  exists b, (mkAns [qz 10; qz 4; qz 5] [qz 5] [qz 10; qz 4] (qz 9)). rewrite ER. split; auto.
  intros [_ H]. specialize (H [qz 10] [qz 4; qz 5] (Permutation_refl _)). vm_compute in H. now apply H.
Qed.
Print Assumptions C87_window.
Print Assumptions C87_one_number.
Print Assumptions C87_weights.
Print Assumptions C87_not_best.
