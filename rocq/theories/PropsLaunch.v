(** * PropsLaunch: C143-C145, what the streaming samples read from and write to, and what the subscriber acknowledges. *)
From Coq Require Import Sorting.Sorted.
From Verif Require Import PyBase Numbers Services Stream Constraint LogicalModel PropsServices Launch.
Local Open Scope string_scope.
Local Open Scope list_scope.

(** ** Specification *)

(** The sources the options name: a file; with a project, a topic and a subscription of it. *)
Definition names_file (o : options) (path : string) : Prop := o_input o = Some path.
Definition names_topic (o : options) (path : string) : Prop :=
  exists p t, o_project o = Some p /\ o_topic o = Some t /\ path = "projects/" +++ p +++ "/topics/" +++ t.
Definition names_subscription (o : options) (path : string) : Prop :=
  exists p b, o_project o = Some p /\ o_subscription o = Some b /\ path = "projects/" +++ p +++ "/subscriptions/" +++ b.
Definition names (o : options) (i : input) : Prop :=
  match i with
  | FromText path _ => names_file o path
  | FromPubsub (Topic path) _ => names_topic o path
  | FromPubsub (Subscription path) _ => names_subscription o path
  end.
Definition from_pubsub (i : input) : Prop := match i with FromPubsub _ _ => True | FromText _ _ => False end.
Definition format_of (i : input) : format := match i with FromText _ f => f | FromPubsub _ f => f end.
(** Two sources are the same place. *)
Definition same_place (i k : input) : Prop :=
  match i, k with FromText a _, FromText b _ => a = b | FromPubsub a _, FromPubsub b _ => a = b | _, _ => False end.
(** npp_window and tsp_window, the two samples with an output topic. *)
Definition with_topic (s : sample) : Prop := s = NppWindow \/ s = TspWindow.

(** ** C143: the source *)
Lemma source_cases p t b : pubsub_source p t b = Err UnboundLocalError /\ t = None /\ b = None \/ pubsub_source p t b = Err ValueError \/
  (exists x, t = Some x /\ pubsub_source p t b = Ok (Topic ("projects/" +++ p +++ "/topics/" +++ x))) \/
  (exists x, t = None /\ b = Some x /\ pubsub_source p t b = Ok (Subscription ("projects/" +++ p +++ "/subscriptions/" +++ x))).
Proof.
  unfold pubsub_source. destruct t as [t|]; [|destruct b as [b|]]; [| |auto].
  - destruct (path_ok _ _); [right; right; left; eauto|auto].
  - destruct (path_ok _ _); [right; right; right; eauto|auto].
Qed.
Lemma pubsub_cases f o : (pubsub_input f o = None /\ (o_project o = None \/ (o_topic o = None /\ o_subscription o = None))) \/
  (exists p, o_project o = Some p /\ (o_topic o <> None \/ o_subscription o <> None) /\
   (pubsub_input f o = Some (Err ValueError) \/
   exists s, pubsub_input f o = Some (Ok (FromPubsub s f, false)) /\ names o (FromPubsub s f) /\
     match s with Topic _ => o_topic o <> None | Subscription _ => o_topic o = None end)).
Proof.
  unfold pubsub_input. destruct (o_project o) as [p|] eqn:EP; [|auto].
  destruct (o_topic o) as [t|] eqn:ET.
  - right. exists p. split; auto. split; [left; discriminate|]. destruct (source_cases p (Some t) None) as [(_ & C & _)|[E|[(x & EX & E)|(x & C & _)]]]; try discriminate.
    + rewrite E. left. reflexivity.
    + injection EX as <-. rewrite E. right. exists (Topic ("projects/" +++ p +++ "/topics/" +++ t)). cbn [rbind]. split; auto. split; [exists p, t; auto|discriminate].
  - destruct (o_subscription o) as [b|] eqn:EB; [|auto]. right. exists p. split; auto. split; [right; discriminate|].
    destruct (source_cases p None (Some b)) as [(_ & _ & C)|[E|[(x & C & _)|(x & _ & EX & E)]]]; try discriminate.
    + rewrite E. left. reflexivity.
    + injection EX as <-. rewrite E. right. exists (Subscription ("projects/" +++ p +++ "/subscriptions/" +++ b)). cbn [rbind]. split; auto. split; [exists p, b; auto|auto].
Qed.
Definition fmt (s : sample) : format := match s with TspWindow => AsJson | _ => AsNumber end.
Lemma branch_window s o : with_topic s -> input_branch s o = first_branch (pubsub_input (fmt s) o) (text_input (fmt s) o).
Proof. intros [-> | ->]; reflexivity. Qed.
Lemma branch_other s o : ~ with_topic s -> input_branch s o = first_branch (text_input (fmt s) o) (pubsub_input (fmt s) o).
Proof. unfold with_topic. destruct s; intros H; try reflexivity; destruct H; auto. Qed.
Lemma topic_dec s : with_topic s \/ ~ with_topic s.
Proof. unfold with_topic. destruct s; auto; right; intros [C|C]; discriminate. Qed.
Lemma launch_ok s o j : launch s o = Ok j -> exists i r k, input_branch s o = Some (Ok (i, r)) /\ choose_sink s o = Ok k /\
  j = mkJob (sample_algorithm s) (sample_mtype s) (sample_runner s o) (streaming o) i r k (sample_size s) (sample_period s).
Proof.
  unfold launch. destruct (input_branch s o) as [[[i r]|e]|]; [| |destruct (choose_sink s o); discriminate].
  - destruct (choose_sink s o) as [k|e]; [|discriminate]. cbn [rbind]. intros E. injection E as <-. eauto 10.
  - discriminate.
Qed.
(** A pipeline reads from a source that the options name, numbers from a file are stamped with their index and numbers from
    Pub/Sub are not, and every sample reads the messages in its own format. *)
Theorem C143_source : forall s o j, launch s o = Ok j ->
  names o (j_input j) /\ (j_reassign j = true <-> ~ from_pubsub (j_input j)) /\ (format_of (j_input j) = AsJson <-> s = TspWindow).
Proof.
  intros s o j E. destruct (launch_ok _ _ _ E) as (i & r & k & EB & _ & ->). cbn [j_input j_reassign].
  assert (HF : forall f, (f = fmt s) -> (f = AsJson <-> s = TspWindow)) by (intros f ->; destruct s; split; intros; try discriminate; auto).
  assert (HT : forall i r, text_input (fmt s) o = Some (Ok (i, r)) -> names o i /\ (r = true <-> ~ from_pubsub i) /\ format_of i = fmt s).
  { unfold text_input. destruct (o_input o) as [x|] eqn:EI; [|discriminate]. intros i0 r0 E0. injection E0 as <- <-. split; [exact EI|]. split; [split; auto; intros _ []|reflexivity]. }
  assert (HP : forall i r, pubsub_input (fmt s) o = Some (Ok (i, r)) -> names o i /\ (r = true <-> ~ from_pubsub i) /\ format_of i = fmt s).
  { intros i0 r0 E0. destruct (pubsub_cases (fmt s) o) as [[C _]|(p & _ & _ & [C|(x & C & N & _)])]; rewrite C in E0; try discriminate. injection E0 as <- <-.
    split; auto. split; [split; [discriminate|intros C0; destruct (C0 I)]|reflexivity]. }
  assert (HH : names o i /\ (r = true <-> ~ from_pubsub i) /\ format_of i = fmt s).
  { destruct (topic_dec s) as [W|W]; [rewrite branch_window in EB by auto|rewrite branch_other in EB by auto]; unfold first_branch in EB.
    - destruct (pubsub_input (fmt s) o) eqn:EP; [apply HP; congruence|apply HT; auto].
    - destruct (text_input (fmt s) o) eqn:EP; [apply HT; congruence|apply HP; auto]. }
  destruct HH as (A & B & C). split; auto.
Qed.
(** If the options name no source, no pipeline is made: UnboundLocalError, or ValueError from an output topic that Pub/Sub does
    not accept. *)
Theorem C143_no_source : forall s o, (forall i, ~ names o i) -> launch s o = Err UnboundLocalError \/ launch s o = Err ValueError /\ with_topic s.
Proof.
  intros s o H. assert (EI : o_input o = None) by (destruct (o_input o) as [x|] eqn:EI; auto; destruct (H (FromText x AsNumber)); exact EI).
  assert (EP : forall f, pubsub_input f o = None).
  { intros f. destruct (pubsub_cases f o) as [[C _]|(p & EP & [D|D] & _)]; auto; exfalso.
    - destruct (o_topic o) as [t|] eqn:ET; [|destruct D; auto]. apply (H (FromPubsub (Topic ("projects/" +++ p +++ "/topics/" +++ t)) f)). exists p, t. auto.
    - destruct (o_subscription o) as [t|] eqn:ET; [|destruct D; auto]. apply (H (FromPubsub (Subscription ("projects/" +++ p +++ "/subscriptions/" +++ t)) f)). exists p, t. auto. }
  assert (EB : input_branch s o = None) by (destruct s; cbn [input_branch]; unfold text_input; rewrite EI, EP; reflexivity).
  unfold launch. rewrite EB. unfold choose_sink. destruct (o_output o); [left; reflexivity|].
  assert (HS : forall p t, with_topic s -> (rbind (rbind (pubsub_sink p t) (fun path => Ok (ToPubsub path))) (fun _ => Err UnboundLocalError) : res job) = Err UnboundLocalError \/
    (rbind (rbind (pubsub_sink p t) (fun path => Ok (ToPubsub path))) (fun _ => Err UnboundLocalError) : res job) = Err ValueError /\ with_topic s).
  { intros p t W. unfold pubsub_sink. destruct (path_ok _ _); cbn [rbind]; auto. }
  destruct s; try (left; reflexivity); (destruct (o_project o); [|left; reflexivity]); (destruct (o_output_topic o); [|left; reflexivity]); apply HS; unfold with_topic; auto.
Qed.
(** With names that Pub/Sub accepts, every sample starts exactly if the options name a source. *)
Definition proper_options (o : options) : Prop :=
  (forall p, o_project o = Some p -> p <> "" /\ no_slash p) /\
  (forall t, o_topic o = Some t \/ o_subscription o = Some t \/ o_output_topic o = Some t -> proper_name t).
Lemma path_topics p t : p <> "" -> no_slash p -> proper_name t -> path_ok "topics" ("projects/" +++ p +++ "/topics/" +++ t) = true.
Proof. intros A B C. apply path_ok_iff. exists p, t. repeat split; auto. Qed.
Lemma path_subscriptions p t : p <> "" -> no_slash p -> proper_name t -> path_ok "subscriptions" ("projects/" +++ p +++ "/subscriptions/" +++ t) = true.
Proof. intros A B C. apply path_ok_iff. exists p, t. repeat split; auto. Qed.
Lemma sink_proper s o : proper_options o -> exists k, choose_sink s o = Ok k.
Proof.
  intros [HP HT]. unfold choose_sink. destruct (o_output o); [eauto|].
  assert (HH : forall p t, o_project o = Some p -> o_output_topic o = Some t -> pubsub_sink p t = Ok ("projects/" +++ p +++ "/topics/" +++ t)).
  { intros p t EP ET. unfold pubsub_sink. destruct (HP p EP) as [P1 P2]. rewrite (path_topics p t P1 P2 (HT t (or_intror (or_intror ET)))). reflexivity. }
  destruct s; eauto; (destruct (o_project o) as [p|]; [|eauto]); (destruct (o_output_topic o) as [t|]; [|eauto]); rewrite (HH p t) by auto; cbn [rbind]; eauto.
Qed.
Lemma branch_names s o i : names o i -> input_branch s o <> None.
Proof.
  intros HI.
  assert (PU : forall f, pubsub_input f o = None -> o_project o = None \/ (o_topic o = None /\ o_subscription o = None)).
  { intros f. unfold pubsub_input. destruct (o_project o) as [p|] eqn:EP; [|auto]. destruct (o_topic o) as [t|]; [discriminate|]. destruct (o_subscription o) as [b|]; [discriminate|auto]. }
  assert (TX : forall f, text_input f o = None -> o_input o = None) by (intros f; unfold text_input; destruct (o_input o); [discriminate|auto]).
  assert (NO : forall f, ~ (pubsub_input f o = None /\ text_input f o = None)).
  { intros f [C1 C2]. specialize (PU f C1). specialize (TX f C2).
    destruct i as [path g|[path|path] g]; cbn in HI; [unfold names_file in HI; congruence|destruct HI as (p & t & E1 & E2 & _)|destruct HI as (p & t & E1 & E2 & _)]; destruct PU as [D|[D1 D2]]; congruence. }
  destruct (topic_dec s) as [W|W]; [rewrite branch_window by auto|rewrite branch_other by auto]; unfold first_branch; intros C; apply (NO (fmt s));
    destruct (pubsub_input (fmt s) o), (text_input (fmt s) o); auto; discriminate C.
Qed.
Lemma branch_errors s o e : input_branch s o = Some (Err e) -> e = ValueError /\ ~ proper_options o.
Proof.
  assert (TX : forall f, text_input f o <> Some (Err e)) by (intros f; unfold text_input; destruct (o_input o); discriminate).
  assert (PU : forall f, pubsub_input f o = Some (Err e) -> e = ValueError /\ ~ proper_options o).
  { intros f. unfold pubsub_input, pubsub_source. destruct (o_project o) as [p|] eqn:EP; [|discriminate]. destruct (o_topic o) as [t|] eqn:ET; [|destruct (o_subscription o) as [b|] eqn:EB; [|discriminate]].
    - destruct (path_ok _ _) eqn:PO; cbn [rbind]; [discriminate|]. intros E. injection E as <-. split; auto. intros [HP HT]. destruct (HP p EP). rewrite path_topics in PO by auto. discriminate.
    - destruct (path_ok _ _) eqn:PO; cbn [rbind]; [discriminate|]. intros E. injection E as <-. split; auto. intros [HP HT]. destruct (HP p EP). rewrite path_subscriptions in PO by auto. discriminate. }
  destruct (topic_dec s) as [W|W]; [rewrite branch_window by auto|rewrite branch_other by auto]; unfold first_branch.
  - destruct (pubsub_input (fmt s) o) eqn:E; intros E'; [apply (PU (fmt s)); congruence|destruct (TX _ E')].
  - destruct (text_input (fmt s) o) eqn:E; intros E'; [destruct (TX (fmt s)); congruence|apply (PU (fmt s)); auto].
Qed.
(** A sample that does not start was given no source (UnboundLocalError), or a name that Pub/Sub does not accept (ValueError). *)
Theorem C143_fails : forall s o e, launch s o = Err e ->
  e = UnboundLocalError /\ (forall i, ~ names o i) \/ e = ValueError /\ ~ proper_options o.
Proof.
  intros s o e. unfold launch. destruct (input_branch s o) as [[[x r]|e']|] eqn:EB.
  - destruct (choose_sink s o) as [k|e'] eqn:ES; cbn [rbind]; [discriminate|]. intros E. injection E as <-. right. split.
    + revert ES. unfold choose_sink, pubsub_sink. destruct (o_output o); [discriminate|]. destruct s; try discriminate; (destruct (o_project o); [|discriminate]); (destruct (o_output_topic o); [|discriminate]); destruct (path_ok _ _); cbn [rbind]; intros E; congruence.
    + intros P. destruct (sink_proper s o P). congruence.
  - intros E. injection E as <-. right. apply (branch_errors _ _ _ EB).
  - destruct (choose_sink s o) as [k|e'] eqn:ES; cbn [rbind]; intros E; injection E as <-.
    + left. split; auto. intros i HI. apply (branch_names s o i HI EB).
    + right. split.
      * revert ES. unfold choose_sink, pubsub_sink. destruct (o_output o); [discriminate|]. destruct s; try discriminate; (destruct (o_project o); [|discriminate]); (destruct (o_output_topic o); [|discriminate]); destruct (path_ok _ _); cbn [rbind]; intros E; congruence.
      * intros P. destruct (sink_proper s o P). congruence.
Qed.
Theorem C143_starts : forall s o, proper_options o -> ((exists j, launch s o = Ok j) <-> exists i, names o i).
Proof.
  intros s o P. split; [intros [j E]; exists (j_input j); apply (C143_source _ _ _ E)|]. intros [i HI].
  destruct (launch s o) as [j|e] eqn:E; [eauto|]. destruct (C143_fails s o e E) as [[_ C]|[_ C]]; [destruct (C i HI)|destruct (C P)].
Qed.
(** The options do not name both a file and a Pub/Sub source. *)
Definition one_kind (o : options) : Prop := o_input o = None \/ o_project o = None \/ (o_topic o = None /\ o_subscription o = None).
Lemma pubsub_format f g o s : pubsub_input f o = Some (Ok (FromPubsub s f, false)) -> pubsub_input g o = Some (Ok (FromPubsub s g, false)).
Proof.
  unfold pubsub_input. destruct (o_project o); [|discriminate]. destruct (o_topic o); [|destruct (o_subscription o); [|discriminate]]; destruct (pubsub_source _ _ _); cbn [rbind]; intros E; inversion E; auto.
Qed.
Lemma pubsub_value f o i r : pubsub_input f o = Some (Ok (i, r)) -> exists s, i = FromPubsub s f /\ r = false.
Proof. intros E. destruct (pubsub_cases f o) as [[C _]|(p & _ & _ & [C|(x & C & N & _)])]; rewrite C in E; try discriminate. injection E as <- <-. eauto. Qed.
(** Exactly: two samples given the same options read from the same place, unless the options name both kinds of source and one of
    the two samples is npp_window or tsp_window and the other is not. *)
Theorem C143_exact : forall s s' o j j', launch s o = Ok j -> launch s' o = Ok j' ->
  (same_place (j_input j) (j_input j') <-> one_kind o \/ (with_topic s <-> with_topic s')).
Proof.
  intros s s' o j j' E E'. destruct (launch_ok _ _ _ E) as (i & r & k & EB & _ & ->). destruct (launch_ok _ _ _ E') as (i' & r' & k' & EB' & _ & ->). cbn [j_input]. clear E E' k k'.
  assert (HA : forall u v a b ra rb, with_topic u -> ~ with_topic v -> input_branch u o = Some (Ok (a, ra)) -> input_branch v o = Some (Ok (b, rb)) -> (same_place a b <-> one_kind o) /\ (same_place b a <-> one_kind o)).
  { intros u v a b ra rb WU WV E1 E2. rewrite branch_window in E1 by auto. rewrite branch_other in E2 by auto. unfold text_input, one_kind in *.
    destruct (o_input o) as [x|] eqn:EI; cbn [first_branch] in E2.
    - injection E2 as <- <-. destruct (pubsub_cases (fmt u) o) as [[C D]|(p & EP & D & C)]; rewrite ?C in E1; cbn [first_branch] in E1.
      + injection E1 as <- <-. cbn [same_place]. tauto.
      + assert (HI : exists y f, a = FromPubsub y f) by (destruct C as [C|(y & C & _)]; rewrite C in E1; cbn in E1; [discriminate|injection E1 as <- <-; eauto]). destruct HI as (y & f & ->).
        cbn [same_place]. rewrite EP. split; split; intros H; try contradiction; destruct H as [H|[H|[H1 H2]]]; try discriminate; destruct D; congruence.
    - assert (EP : pubsub_input (fmt u) o = Some (Ok (a, ra))) by (destruct (pubsub_input (fmt u) o); [exact E1|discriminate]). destruct (pubsub_value _ _ _ _ EP) as (y & -> & ->).
      apply (pubsub_format _ (fmt v)) in EP. rewrite EP in E2. injection E2 as <- <-. cbn [same_place]. tauto. }
  assert (HS : forall a b ra rb u v, input_branch u o = Some (Ok (a, ra)) -> input_branch v o = Some (Ok (b, rb)) -> (with_topic u <-> with_topic v) -> same_place a b).
  { intros a b ra rb u v E1 E2 W. destruct (topic_dec u) as [WU|WU].
    - rewrite branch_window in E1 by auto. rewrite branch_window in E2 by tauto. unfold text_input in *. destruct (pubsub_input (fmt u) o) as [x|] eqn:EP; cbn [first_branch] in E1.
      + injection E1 as ->. destruct (pubsub_value _ _ _ _ EP) as (y & -> & ->). apply (pubsub_format _ (fmt v)) in EP. rewrite EP in E2. injection E2 as <- <-. reflexivity.
      + destruct (pubsub_input (fmt v) o) as [x|] eqn:EP'; cbn [first_branch] in E2.
        * injection E2 as ->. destruct (pubsub_value _ _ _ _ EP') as (y & -> & ->). apply (pubsub_format _ (fmt u)) in EP'. congruence.
        * destruct (o_input o); [|discriminate]. injection E1 as <- <-. injection E2 as <- <-. reflexivity.
    - rewrite branch_other in E1 by auto. rewrite branch_other in E2 by tauto. unfold text_input in *. destruct (o_input o); cbn [first_branch] in E1, E2.
      + injection E1 as <- <-. injection E2 as <- <-. reflexivity.
      + destruct (pubsub_value _ _ _ _ E1) as (y & -> & ->). apply (pubsub_format _ (fmt v)) in E1. rewrite E1 in E2. injection E2 as <- <-. reflexivity. }
  destruct (topic_dec s) as [W|W], (topic_dec s') as [W'|W'].
  - assert (H := HS _ _ _ _ _ _ EB EB'). tauto.
  - destruct (HA _ _ _ _ _ _ W W' EB EB'). tauto.
  - destruct (HA _ _ _ _ _ _ W' W EB' EB). tauto.
  - assert (H := HS _ _ _ _ _ _ EB EB'). tauto.
Qed.
Definition both : options := mkOptions (Some "my-project") (Some "numbers.txt") (Some "numbers") None None None false None.
Theorem C143_refuted : exists o j j', launch NppWindow o = Ok j /\ launch NppDelta o = Ok j' /\
  names o (j_input j) /\ names o (j_input j') /\ ~ same_place (j_input j) (j_input j').
Proof.
  eexists both, _, _. split; [reflexivity|]. split; [reflexivity|]. split; [exists "my-project", "numbers"; repeat split|]. split; [reflexivity|]. intros [].
Qed.

(** ** C144: streaming mode, output and runner *)
(** npp_window and tsp_window are in streaming mode exactly if they read from Pub/Sub. *)
Theorem C144_streaming_partial : forall s o j, with_topic s -> launch s o = Ok j -> (j_streaming j = true <-> from_pubsub (j_input j)).
Proof.
  intros s o j W E. destruct (launch_ok _ _ _ E) as (i & r & k & EB & _ & ->). cbn [j_input j_streaming]. rewrite branch_window in EB by auto. unfold streaming.
  destruct (pubsub_cases (fmt s) o) as [[C D]|(p & EP & D & C)].
  - rewrite C in EB. cbn [first_branch] in EB. unfold text_input in EB. destruct (o_input o); [|discriminate]. injection EB as <- <-. cbn [from_pubsub].
    destruct D as [-> | [-> ->]]; cbn [given orb andb]; [|rewrite andb_false_r]; split; intros; [discriminate|contradiction|discriminate|contradiction].
  - destruct C as [C|(y & C & _)]; rewrite C in EB; cbn in EB; [discriminate|]. injection EB as <- <-. cbn [from_pubsub]. rewrite EP. cbn [given andb]. split; auto. intros _.
    destruct (o_topic o); [reflexivity|]. destruct (o_subscription o); [reflexivity|]. destruct D as [D|D]; destruct D; reflexivity.
Qed.
(** In every sample: streaming mode exactly if a Pub/Sub source is named, whether or not it is read from. *)
Theorem C144_exact : forall s o j, launch s o = Ok j -> (j_streaming j = true <-> exists path f, names o (FromPubsub (Topic path) f) \/ names o (FromPubsub (Subscription path) f)).
Proof.
  intros s o j E. destruct (launch_ok _ _ _ E) as (i & r & k & EB & _ & ->). cbn [j_streaming]. unfold streaming. cbn [names]. unfold names_topic, names_subscription. split.
  - intros H. apply andb_true_iff in H. destruct H as [H1 H2]. destruct (o_project o) as [p|]; [|discriminate]. destruct (o_topic o) as [t|].
    + exists ("projects/" +++ p +++ "/topics/" +++ t), AsNumber. left. eauto.
    + destruct (o_subscription o) as [b|]; [|discriminate]. exists ("projects/" +++ p +++ "/subscriptions/" +++ b), AsNumber. right. eauto.
  - intros (path & f & [(p & t & -> & -> & _)|(p & t & -> & -> & _)]); cbn [given orb andb]; auto. rewrite orb_true_r. reflexivity.
Qed.
Theorem C144_refuted : exists s o j, launch s o = Ok j /\ j_streaming j = true /\ ~ from_pubsub (j_input j).
Proof. exists NppDelta, both. eexists. split; [reflexivity|]. split; [reflexivity|]. intros []. Qed.
(** Where the results go: to the file if one is given; else npp_window and tsp_window publish to the topic if there is one (and a
    project); else they are printed. *)
Theorem C144_sink : forall s o j, launch s o = Ok j ->
  match o_output o, o_project o, o_output_topic o with
  | Some path, _, _ => j_sink j = ToText path
  | None, Some p, Some t => (with_topic s -> j_sink j = ToPubsub ("projects/" +++ p +++ "/topics/" +++ t)) /\ (~ with_topic s -> j_sink j = ToStdout)
  | None, _, _ => j_sink j = ToStdout
  end.
Proof.
  intros s o j E. destruct (launch_ok _ _ _ E) as (i & r & k & _ & ES & ->). cbn [j_sink]. unfold choose_sink in ES.
  destruct (o_output o) as [path|]; [congruence|]. destruct (o_project o) as [p|]; [destruct (o_output_topic o) as [t|]|].
  - split.
    + intros W. assert (HH : (let x := pubsub_sink p t in rbind x (fun path => Ok (ToPubsub path))) = Ok k) by (destruct W as [-> | ->]; exact ES). cbv zeta in HH.
      unfold pubsub_sink in HH. destruct (path_ok _ _); cbn [rbind] in HH; [congruence|discriminate].
    + intros W. unfold with_topic in W. destruct s; try congruence; destruct W; auto.
  - destruct s; congruence.
  - destruct s; congruence.
Qed.
(** The pipeline runs on Dataflow exactly if the sample is npp_window or tsp_window, Dataflow is asked for and a bucket (not the
    empty text) is given; everything else runs locally. *)
Theorem C144_runner : forall s o j b, launch s o = Ok j ->
  ((exists p, j_runner j = DataflowRunner p b) <-> with_topic s /\ o_dataflow o = true /\ o_bucket o = Some b /\ b <> "").
Proof.
  intros s o j b E. destruct (launch_ok _ _ _ E) as (i & r & k & _ & _ & ->). cbn [j_runner]. unfold sample_runner.
  assert (HC : (exists p, choose_runner o = DataflowRunner p b) <-> o_dataflow o = true /\ o_bucket o = Some b /\ b <> "").
  { unfold choose_runner. destruct (o_dataflow o); [|split; [intros (p & C); discriminate|intros (C & _); discriminate]].
    destruct (o_bucket o) as [c|]; [|split; [intros (p & C); discriminate|intros (_ & C & _); discriminate]]. unfold truthy. destruct (String.eqb_spec c ""); cbn [negb]; split.
    - intros (p & C). discriminate.
    - intros (_ & C & N). congruence.
    - intros (p & C). injection C as _ ->. auto.
    - intros (_ & C & N). injection C as ->. eauto. }
  unfold with_topic. destruct s; rewrite ?HC; try tauto; split; [intros (p & C); discriminate|intros ([C|C] & _); discriminate|intros (p & C); discriminate|intros ([C|C] & _); discriminate|intros (p & C); discriminate|intros ([C|C] & _); discriminate|intros (p & C); discriminate|intros ([C|C] & _); discriminate].
Qed.
(** The algorithm, the type of the first model and the window of each sample. *)
Theorem C144_settings : forall s o j, launch s o = Ok j ->
  (j_algorithm j, j_mtype j, j_size j, j_period j) =
  match s with
  | NppWindow => (Window, Ising, 30, Some 5) | TspWindow => (Window, Qubo, 5, Some 1) | NppDelta => (Delta, Ising, 10, None)
  | NppIncremental => (Incremental, Ising, 10, None) | NppPartial => (Partial, Ising, 10, Some 10) | NppAttenuation => (Attenuation, Ising, 20, Some 5)
  end%Z.
Proof. intros s o j E. destruct (launch_ok _ _ _ E) as (i & r & k & _ & _ & ->). destruct s; reflexivity. Qed.

(** ** C145: the subscriber *)
Section Subscriber.
  Variables (D : Type) (decode : D -> res string) (now : nat -> string) (path : string).
  Lemma subscribe_app l : forall n c, subscribe D decode now path n l c =
    mkConsole (c_lines c ++ c_lines (subscribe D decode now path n l (mkConsole [] []))) (c_acked c ++ c_acked (subscribe D decode now path n l (mkConsole [] []))).
  Proof.
    induction l as [|d l IH]; intros n [ls ks]; cbn [subscribe c_lines c_acked]; [rewrite !app_nil_r; reflexivity|]. rewrite IH, (IH _ (callback D decode now path n d (mkConsole [] []))).
    unfold callback. destruct (decode d); cbn [c_lines c_acked app]; rewrite <- ?app_assoc; reflexivity.
  Qed.
  Lemma subscribe_acked l : forall n k, In k (c_acked (subscribe D decode now path n l (mkConsole [] []))) <-> exists i d t, k = n + i /\ nth_error l i = Some d /\ decode d = Ok t.
  Proof.
    induction l as [|d l IH]; intros n k; cbn [subscribe]; [cbn; split; [intros []|intros ([|i] & x & t & _ & C & _); discriminate]|].
    rewrite subscribe_app. cbn [c_acked]. rewrite in_app_iff, IH. unfold callback. split.
    - intros [H|(i & x & t & -> & H1 & H2)].
      + destruct (decode d) as [t|] eqn:ED; cbn in H; [|contradiction]. destruct H as [<-|[]]. exists 0, d, t. auto.
      + exists (S i), x, t. rewrite Nat.add_succ_r. auto.
    - intros ([|i] & x & t & -> & H1 & H2); cbn [nth_error] in H1.
      + injection H1 as ->. rewrite H2. left. left. rewrite Nat.add_0_r. auto.
      + right. exists i, x, t. rewrite Nat.add_succ_r. auto.
  Qed.
End Subscriber.
(** After any number of messages: the messages acknowledged are exactly those that could be decoded, in the order of arrival and
    each once, and each of them is one printed line, which ends with the text of the message; a message that cannot be decoded does
    not stop the subscriber. *)
Theorem C145_acknowledged : forall D (decode : D -> res string) now path l,
  let c := subscribe D decode now path 0 l (mkConsole [] []) in
  (forall k, In k (c_acked c) <-> exists d t, nth_error l k = Some d /\ decode d = Ok t) /\
  StronglySorted lt (c_acked c) /\
  Forall2 (fun k line => exists d t, nth_error l k = Some d /\ decode d = Ok t /\
    line = "[" +++ now k +++ "] Received message from '" +++ path +++ "': " +++ t) (c_acked c) (c_lines c).
Proof.
  intros D decode now path l. cbv zeta. split; [|split].
  - intros k. rewrite subscribe_acked. split; [intros (i & d & t & -> & H); exists d, t; exact H|intros (d & t & H); exists k, d, t; auto].
  - generalize 0. induction l as [|d l IH]; intros n; cbn [subscribe]; [constructor|]. rewrite subscribe_app. cbn [c_acked]. unfold callback.
    destruct (decode d); cbn [c_acked app]; [|apply IH]. constructor; [apply IH|]. apply Forall_forall. intros k HI. apply subscribe_acked in HI. destruct HI as (i & _ & _ & -> & _). apply Nat.lt_succ_r, Nat.le_add_r.
  - assert (HH : forall n, Forall2 (fun k line => exists i d t, k = n + i /\ nth_error l i = Some d /\ decode d = Ok t /\
      line = "[" +++ now k +++ "] Received message from '" +++ path +++ "': " +++ t) (c_acked (subscribe D decode now path n l (mkConsole [] []))) (c_lines (subscribe D decode now path n l (mkConsole [] [])))).
    { induction l as [|d l IH]; intros n; cbn [subscribe]; [constructor|]. rewrite subscribe_app. cbn [c_acked c_lines]. apply Forall2_app.
      - unfold callback. destruct (decode d) as [t|] eqn:ED; cbn [c_acked c_lines app]; [|constructor]. constructor; [|constructor]. exists 0, d, t. rewrite Nat.add_0_r. auto.
      - specialize (IH (S n)). induction IH as [|k line ks ls (i & x & t & -> & H) _ IHF]; constructor; auto. exists (S i), x, t. rewrite Nat.add_succ_r. auto. }
    specialize (HH 0). induction HH as [|k line ks ls (i & d & t & -> & H) _ IH]; constructor; auto. exists d, t. exact H.
Qed.

(** ** Examples *)
Definition file_only : options := mkOptions None (Some "numbers.txt") None None (Some "out") None true (Some "").
Definition topic_only : options := mkOptions (Some "my-project") None (Some "numbers") (Some "sub") None (Some "answers") true (Some "bucket").
Definition nothing : options := mkOptions None None (Some "numbers") None None None false None.
Example C143_hyps : (exists j, launch NppPartial file_only = Ok j /\ j_input j = FromText "numbers.txt" AsNumber /\ j_reassign j = true /\ j_runner j = DirectRunner) /\
  (exists j, launch TspWindow topic_only = Ok j /\ j_input j = FromPubsub (Topic "projects/my-project/topics/numbers") AsJson /\ j_streaming j = true /\
     j_sink j = ToPubsub "projects/my-project/topics/answers" /\ j_runner j = DataflowRunner (Some "my-project") "bucket") /\
  (forall i, ~ names nothing i) /\ launch NppWindow nothing = Err UnboundLocalError /\
  proper_options topic_only /\ one_kind file_only /\ ~ one_kind both /\ with_topic TspWindow /\ ~ with_topic NppDelta.
Proof.
  split; [eexists; split; [reflexivity|split; [reflexivity|split; reflexivity]]|]. split; [eexists; split; [reflexivity|split; [reflexivity|split; [reflexivity|split; reflexivity]]]|].
  split; [intros [p f|[p|p] f]; cbn; intros H; [discriminate|destruct H as (a & b & C & _); discriminate|destruct H as (a & b & C & _); discriminate]|].
  split; [reflexivity|]. split; [split; [intros p E; injection E as <-; split; [discriminate|cbn; repeat split; discriminate]|intros t [E|[E|E]]; injection E as <-; eexists _, _; (split; [reflexivity|discriminate])]|].
  split; [right; left; reflexivity|]. split; [intros [C|[C|[C _]]]; discriminate|]. split; [right; reflexivity|intros [C|C]; discriminate].
Qed.
Example C145_hyps : subscribe (option string) (fun d => match d with Some t => Ok t | None => Err ValueError end) (fun _ => "now") "projects/p/subscriptions/s" 0
    [Some "1"; None; Some "2"] (mkConsole [] []) =
  mkConsole ["[now] Received message from 'projects/p/subscriptions/s': 1"; "[now] Received message from 'projects/p/subscriptions/s': 2"] [0; 2].
Proof. reflexivity. Qed.
Print Assumptions C143_source.
Print Assumptions C143_no_source.
Print Assumptions C143_fails.
Print Assumptions C143_starts.
Print Assumptions C143_exact.
Print Assumptions C143_refuted.
Print Assumptions C144_streaming_partial.
Print Assumptions C144_exact.
Print Assumptions C144_refuted.
Print Assumptions C144_sink.
Print Assumptions C144_runner.
Print Assumptions C144_settings.
Print Assumptions C145_acknowledged.
