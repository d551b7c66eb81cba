(** * PropsLayout: C146 reading back the output of the number partitioning samples, C147 of the TSP sample, C148 repr. *)
From Verif Require Import PyBase PyLemmas Numbers Constraint LogicalModel Physical Solver Services ServicesSpec PropsServices Stream NppStream Tsp Text PropsText Layout.
From Coq Require Import Permutation.
Local Open Scope string_scope.
Local Open Scope list_scope.

(** ** Specification *)
(** The text does not begin with a digit. *)
Definition no_digit_first (s : string) : Prop := forall c r, s = String c r -> forall v, ~ digit_value c v.
(** The numbers written in a text, in order: the longest sequences of digits. *)
Inductive figures : string -> list Z -> Prop :=
| fg_end : figures "" []
| fg_skip c s l : (forall v, ~ digit_value c v) -> figures s l -> figures (String c s) l
| fg_number t v s l : number t v -> no_digit_first s -> figures s l -> figures (t +++ s) (v :: l).
Definition total (l : list Z) : Z := fold_right Z.add 0%Z l.
Definition begins (p s : string) : Prop := exists r, s = p +++ r.
(** What the text of an answer says: the numbers received and the two sets. *)
Definition says (text : string) (received plus minus : list Z) : Prop :=
  exists l2 l3 l5 l6 l7, split_lines text = [""; "INPUT -->"; l2; l3; "SOLUTION ==>"; l5; l6; l7] /\
    figures l2 received /\
    begins "  (length: " l3 /\ figures l3 [Z.of_nat (length received)] /\
    begins "  Set(+) : sum=" l5 /\ figures l5 (total plus :: plus) /\
    begins "  Set(-) : sum=" l6 /\ figures l6 (total minus :: minus) /\
    begins "  diff   : " l7 /\ figures l7 [Z.abs (total plus - total minus)].

(** ** The numbers in a text *)
Lemma number_digits t v : number t v -> forall c, In c (list_ascii_of_string t) -> exists d, digit_value c d.
Proof.
  intros N. induction N as [c d H|c d s v H N IH]; intros x HX; cbn in HX; [destruct HX as [<-|[]]; eauto|]. destruct HX as [<-|HX]; eauto.
Qed.
Lemma digits_split t : forall s t' s', (forall c, In c (list_ascii_of_string t) -> exists d, digit_value c d) -> (forall c, In c (list_ascii_of_string t') -> exists d, digit_value c d) ->
  no_digit_first s -> no_digit_first s' -> t +++ s = t' +++ s' -> t = t' /\ s = s'.
Proof.
  induction t as [|c t IH]; intros s t' s' H H' N N' E.
  - destruct t' as [|c' t']; [auto|]. exfalso. destruct (H' c' (or_introl eq_refl)) as [d D]. cbn in E. apply (N c' (t' +++ s') E d D).
  - destruct t' as [|c' t'].
    + exfalso. destruct (H c (or_introl eq_refl)) as [d D]. cbn in E. apply (N' c (t +++ s) (eq_sym E) d D).
    + cbn in E. injection E as <- E. destruct (IH s t' s') as [-> ->]; auto; intros; [apply H|apply H']; right; auto.
Qed.
Lemma number_nonempty t v : number t v -> exists c r d, t = String c r /\ digit_value c d.
Proof. intros N. destruct N as [c d H|c d s v H N]; eauto 6. Qed.
Lemma figures_skip_inv c s l : (forall v, ~ digit_value c v) -> figures (String c s) l -> figures s l.
Proof.
  intros H F. inversion F as [|c' s' l' H' F' E1|t v s' l' N D F' E1]; subst; auto. exfalso.
  destruct (number_nonempty _ _ N) as (c' & r & d & -> & HD). cbn in E1. injection E1 as -> _. apply (H _ HD).
Qed.
Theorem figures_unique : forall s l, figures s l -> forall l', figures s l' -> l = l'.
Proof.
  intros s l F. induction F as [|c s l H F IH|t v s l N D F IH]; intros l' F'.
  - inversion F' as [| |t v s' l2 N D F2 E]; auto. exfalso. destruct (number_nonempty _ _ N) as (c & r & d & -> & _). discriminate E.
  - apply IH. eapply figures_skip_inv; eauto.
  - destruct (number_nonempty _ _ N) as (c & r & d & ET & HD). remember (t +++ s) as x eqn:EX. destruct F' as [|c' s' l2 H' F2|t' v' s' l2 N' D' F2].
    + rewrite ET in EX. discriminate EX.
    + exfalso. rewrite ET in EX. cbn in EX. injection EX as -> _. apply (H' _ HD).
    + destruct (digits_split t' s' t s) as [-> ->]; auto; try (eapply number_digits; eauto). f_equal; [eapply number_fun; eauto|apply IH; auto].
Qed.
(** A literal without digits. *)
Fixpoint digitlessb (s : string) : bool := match s with "" => true | String c r => negb (existsb (Ascii.eqb c) digits) && digitlessb r end.
Lemma not_digit c : existsb (Ascii.eqb c) digits = false -> forall v, ~ digit_value c v.
Proof.
  intros H v D. assert (existsb (Ascii.eqb c) digits = true) by (apply existsb_exists; exists c; split; [eapply nth_error_In; exact D|apply Ascii.eqb_refl]). congruence.
Qed.
Lemma figures_lit p s l : digitlessb p = true -> figures s l -> figures (p +++ s) l.
Proof.
  induction p as [|c p IH]; cbn [digitlessb]; intros H F; [exact F|]. apply andb_true_iff in H. destruct H as [H1 H2]. change (String c p +++ s) with (String c (p +++ s)).
  apply fg_skip; auto. apply not_digit. destruct (existsb _ _); [discriminate|reflexivity].
Qed.
Lemma number_nat n : number (str_of_nat n) (Z.of_nat n).
Proof.
  unfold str_of_nat. pose proof (DecimalNat.Unsigned.of_to n) as E. rewrite <- E at 2. apply number_uint. intros EN. rewrite EN in E. cbn in E. subst n. discriminate EN.
Qed.
Lemma figures_nat n s l : no_digit_first s -> figures s l -> figures (str_of_nat n +++ s) (Z.of_nat n :: l).
Proof. intros D F. apply fg_number; auto. apply number_nat. Qed.
Lemma first_lit c s : existsb (Ascii.eqb c) digits = false -> no_digit_first (String c s).
Proof. intros H d r E. injection E as <- <-. apply not_digit. exact H. Qed.
Lemma concat_cons2 sep a b l : String.concat sep (a :: b :: l) = a +++ sep +++ String.concat sep (b :: l).
Proof. reflexivity. Qed.
Lemma figures_list ns s l : no_digit_first s -> figures s l -> figures (show_list (map str_of_nat ns) +++ s) (map Z.of_nat ns ++ l).
Proof.
  intros D F. unfold show_list. rewrite append_assoc. apply figures_lit; [reflexivity|].
  induction ns as [|n ns IH].
  - cbn [map String.concat app]. rewrite append_assoc. apply (figures_lit "]"); auto.
  - destruct ns as [|n' ns].
    + cbn [map String.concat app]. rewrite append_assoc. apply figures_nat; [apply first_lit; reflexivity|]. apply (figures_lit "]"); auto.
    + cbn [map app]. cbn [map app] in IH. rewrite concat_cons2, !append_assoc. apply figures_nat; [apply first_lit; reflexivity|]. apply (figures_lit ", "); [reflexivity|].
      rewrite append_assoc in IH. exact IH.
Qed.

(** ** C146: number partitioning *)
Definition natq (n : nat) : Qc := qz (Z.of_nat n).
Lemma qnum_qz z : Qnum (this (qz z)) = z.
Proof.
  unfold qz, Q2Qc, inject_Z. cbn [this]. unfold Qred. pose proof (Z.ggcd_gcd z 1) as G. pose proof (Z.ggcd_correct_divisors z 1) as D. destruct (Z.ggcd z 1) as [g [aa bb]]. cbn [fst snd] in *.
  rewrite Z.gcd_1_r in G. subst g. destruct D as [D _]. cbn [Qnum]. lia.
Qed.
Lemma show_natq n : show_num (natq n) = str_of_nat n.
Proof. unfold show_num, natq. rewrite qnum_qz. unfold str_of_int. destruct (Z.ltb_spec (Z.of_nat n) 0); [lia|]. rewrite Nat2Z.id. reflexivity. Qed.
Lemma qsum_natq l : qsum (map natq l) = qz (total (map Z.of_nat l)).
Proof. induction l as [|n l IH]; [reflexivity|]. cbn [map qsum total fold_right]. rewrite IH. unfold natq, total. rewrite <- qz_add. reflexivity. Qed.
Lemma total_nonneg l : (0 <= total (map Z.of_nat l))%Z.
Proof. induction l as [|n l IH]; cbn; [lia|]. unfold total in IH. lia. Qed.
Lemma show_qz z : (0 <= z)%Z -> show_num (qz z) = str_of_nat (Z.to_nat z).
Proof. intros H. rewrite <- (Z2Nat.id z H) at 1. apply show_natq. Qed.
Lemma qabs_qz z : qabs (qz z) = qz (Z.abs z).
Proof.
  unfold qabs. destruct (Qclt_bool (qz z) 0) eqn:E.
  - apply SolverProofs.Qclt_bool_iff in E. change 0%Qc with (qz 0) in E. rewrite qz_lt in E. rewrite <- qz_opp. f_equal. lia.
  - apply SolverProofs.Qclt_bool_false in E. change 0%Qc with (qz 0) in E. rewrite qz_le in E. f_equal. lia.
Qed.
Lemma one_nat n : one_line (str_of_nat n).
Proof.
  assert (H : forall s, has_char newline s = false -> one_line s).
  { induction s as [|c s IH]; cbn [has_char]; intros E; [exact I|]. apply orb_false_iff in E. destruct E as [E1 E2]. split; auto. intros ->. discriminate E1. }
  apply H. apply str_of_nat_no_char. intros d HD. repeat (destruct HD as [<-|HD]; [discriminate|]). destruct HD.
Qed.
Lemma one_list l : one_line (show_list (map str_of_nat l)).
Proof.
  unfold show_list. apply one_app; [lit|]. apply one_app; [|lit]. induction l as [|n l IH]; [exact I|]. destruct l as [|n' l]; [apply one_nat|]. cbn [map]. cbn [map] in IH. rewrite concat_cons2.
  apply one_app; [apply one_nat|]. apply one_app; [lit|exact IH].
Qed.
(** An answer about natural numbers, as npp_unmapping makes it. *)
Definition whole (a : npp_answer) : Prop :=
  (forall q, In q (an_input a) \/ In q (an_plus a) \/ In q (an_minus a) -> exists n, q = qz (Z.of_nat n)) /\
  an_diff a = qabs (qsum (an_plus a) - qsum (an_minus a))%Qc.
Lemma whole_nats (l : list Qc) : (forall q, In q l -> exists n, q = qz (Z.of_nat n)) -> exists ns, l = map natq ns.
Proof.
  induction l as [|q l IH]; intros H; [exists []; reflexivity|]. destruct (H q (or_introl eq_refl)) as [n ->]. destruct IH as [ns ->]; [intros; apply H; right; auto|]. exists (n :: ns). reflexivity.
Qed.
Lemma text_lines a i p n : an_input a = map natq i -> an_plus a = map natq p -> an_minus a = map natq n -> an_diff a = qabs (qsum (an_plus a) - qsum (an_minus a))%Qc ->
  split_lines (npp_text a) = [""; "INPUT -->"; "  " +++ show_list (map str_of_nat i); "  (length: " +++ str_of_nat (length i) +++ ")"; "SOLUTION ==>";
     "  Set(+) : sum=" +++ str_of_nat (Z.to_nat (total (map Z.of_nat p))) +++ ", elements=" +++ show_list (map str_of_nat p);
     "  Set(-) : sum=" +++ str_of_nat (Z.to_nat (total (map Z.of_nat n))) +++ ", elements=" +++ show_list (map str_of_nat n);
     "  diff   : " +++ str_of_nat (Z.to_nat (Z.abs (total (map Z.of_nat p) - total (map Z.of_nat n))))].
Proof.
  intros EI EP EN ED. assert (SH : forall l, map show_num (map natq l) = map str_of_nat l) by (intros l; rewrite map_map; apply map_ext; apply show_natq).
  unfold npp_text. rewrite ED, EI, EP, EN, !SH, !qsum_natq, map_length. rewrite <- qz_sub, qabs_qz. rewrite !show_qz by (apply total_nonneg || lia).
  rewrite split_join by discriminate. apply flat_one. intros x HX. cbn [In] in HX.
  repeat (destruct HX as [<-|HX]; [first [lit | repeat (apply one_app; [first [lit | apply one_nat | apply one_list]|]); first [lit | apply one_nat | apply one_list]]|]). destruct HX.
Qed.
(** The text of an answer says what the answer is. *)
Theorem C146_says : forall a, whole a -> exists received plus minus, says (npp_text a) received plus minus /\
  map qz received = an_input a /\ map qz plus = an_plus a /\ map qz minus = an_minus a.
Proof.
  intros a [HN HD]. destruct (whole_nats (an_input a)) as [i EI]; [auto|]. destruct (whole_nats (an_plus a)) as [p EP]; [auto|]. destruct (whole_nats (an_minus a)) as [n EN]; [auto|].
  exists (map Z.of_nat i), (map Z.of_nat p), (map Z.of_nat n). split; [|rewrite EI, EP, EN, !map_map; auto].
  eexists _, _, _, _, _. split; [apply (text_lines a i p n); auto|].
  assert (FE : forall x l, figures x l -> figures (x +++ "") l) by (intros x l; rewrite append_nil_r_s; auto).
  assert (FL : forall l, figures (show_list (map str_of_nat l)) (map Z.of_nat l)).
  { intros l. rewrite <- (append_nil_r_s (show_list _)). rewrite <- (app_nil_r (map Z.of_nat l)). apply figures_list; [intros c r E; discriminate E|constructor]. }
  assert (FS : forall m l s, (0 <= m)%Z -> no_digit_first s -> figures s l -> figures (str_of_nat (Z.to_nat m) +++ s) (m :: l)).
  { intros m l s Hm D F. rewrite <- (Z2Nat.id m Hm) at 2. apply figures_nat; auto. }
  split; [apply (figures_lit "  "); [reflexivity|apply FL]|].
  split; [eexists; reflexivity|]. split.
  { apply (figures_lit "  (length: "); [reflexivity|]. rewrite map_length. apply figures_nat; [apply first_lit; reflexivity|]. apply (figures_lit ")" "" []); [reflexivity|constructor]. }
  split; [eexists; reflexivity|]. split.
  { apply (figures_lit "  Set(+) : sum="); [reflexivity|]. apply FS; [apply total_nonneg|apply first_lit; reflexivity|]. apply (figures_lit ", elements="); [reflexivity|apply FL]. }
  split; [eexists; reflexivity|]. split.
  { apply (figures_lit "  Set(-) : sum="); [reflexivity|]. apply FS; [apply total_nonneg|apply first_lit; reflexivity|]. apply (figures_lit ", elements="); [reflexivity|apply FL]. }
  split; [eexists; reflexivity|].
  apply (figures_lit "  diff   : "); [reflexivity|]. rewrite <- (append_nil_r_s (str_of_nat _)). apply FS; [lia|intros c r E; discriminate E|constructor].
Qed.
(** A text says only one thing. *)
Theorem C146_unambiguous : forall t r p m r' p' m', says t r p m -> says t r' p' m' -> r = r' /\ p = p' /\ m = m'.
Proof.
  intros t r p m r' p' m' (l2 & l3 & l5 & l6 & l7 & E & A & _ & _ & _ & B & _ & C & _) (k2 & k3 & k5 & k6 & k7 & E' & A' & _ & _ & _ & B' & _ & C' & _).
  rewrite E in E'. injection E' as <- <- <- <- <-. split; [eapply figures_unique; eauto|].
  pose proof (figures_unique _ _ B _ B') as EB. pose proof (figures_unique _ _ C _ C') as EC. injection EB as _ ->. injection EC as _ ->. auto.
Qed.
(** What the sample says about a window: all the numbers of the window, each in the set of its spin, none lost. *)
Definition spin_up (s : dict string Z) (e : num_el) : bool := match dget ("x[" +++ str_of_nat (el_idx e) +++ "]") s with Some z => Z.eqb z 1 | None => false end.
Definition decided (s : dict string Z) (e : num_el) : Prop := exists z, dget ("x[" +++ str_of_nat (el_idx e) +++ "]") s = Some z /\ (z = 1 \/ z = -1)%Z.
Theorem C146_window : forall rows s els a, first_sample rows = Ok s -> npp_unmapping rows els = Ok a ->
  (forall e, In e els -> exists n, el_val e = qz (Z.of_nat n)) -> (forall e, In e els -> decided s e) ->
  exists received plus minus, says (npp_text a) received plus minus /\ map qz received = map el_val els /\
    map qz plus = map el_val (filter (spin_up s) els) /\ map qz minus = map el_val (filter (fun e => negb (spin_up s e)) els) /\ Permutation (plus ++ minus) received.
Proof.
  intros rows s els a ES E HN HS. unfold npp_unmapping in E. rewrite ES in E. cbn [rbind] in E.
  assert (SP : forall l, (forall e, In e l -> decided s e) -> npp_split s l = Ok (map el_val (filter (spin_up s) l), map el_val (filter (fun e => negb (spin_up s e)) l))).
  { induction l as [|e l IH]; intros H; [reflexivity|]. cbn [npp_split filter]. destruct (H e (or_introl eq_refl)) as (z & EZ & HZ). rewrite EZ, IH by (intros; apply H; right; auto). cbn [rbind fst snd].
    unfold spin_up. rewrite EZ. destruct HZ as [-> | ->]; reflexivity. }
  rewrite (SP els HS) in E. cbn [rbind fst snd] in E. injection E as <-.
  match goal with |- exists _ _ _, says (npp_text ?x) _ _ _ /\ _ => destruct (C146_says x) as (r & p & m & H1 & H2 & H3 & H4) end.
  - split; [|reflexivity]. cbn [an_input an_plus an_minus]. intros q HQ. assert (exists e, In e els /\ el_val e = q) as (e & HE & <-); [|auto].
    destruct HQ as [HQ|[HQ|HQ]]; apply in_map_iff in HQ; destruct HQ as (e & <- & HE); [|apply filter_In in HE; destruct HE as [HE _]..]; eauto.
  - cbn [an_input an_plus an_minus] in *. exists r, p, m. repeat (split; auto).
    assert (PL : Permutation (map qz (p ++ m)) (map qz r)).
    { rewrite map_app, H2, H3, H4, <- map_app. apply Permutation_map. clear. induction els as [|e els IH]; [constructor|]. cbn [filter]. destruct (spin_up s e); cbn [negb app]; [constructor; auto|]. symmetry. apply Permutation_cons_app. symmetry. auto. }
    assert (INJ : forall l l' : list Z, map qz l = map qz l' -> l = l').
    { induction l as [|x l IH]; intros [|y l'] EE; try discriminate; auto. cbn [map] in EE. f_equal; [apply qz_inj; exact (f_equal (fun z => hd 0%Qc z) EE)|apply IH; exact (f_equal (@tl Qc) EE)]. }
    apply Permutation_map_inv in PL. destruct PL as (l3 & EL & PL). apply INJ in EL. subst l3. symmetry. exact PL.
Qed.

(** The text file of the sample: from its text one can tell the timestamps and the answers of all windows. *)
Definition windows_file (ws : list (string * npp_answer)) : string := file_text (decorated sample_output (map (fun w => (fst w, npp_text (snd w))) ws)).
Lemma window_lines stamp t : one_line stamp -> split_lines (decorate sample_output stamp t) =
  match split_lines t with h :: r => "<<<" :: ("[" +++ stamp +++ "] " +++ h) :: r ++ [">>>"; ""] | [] => [] end.
Proof.
  intros O. unfold decorate, sample_output. cbn [do_stamp do_prefix do_suffix]. rewrite !append_assoc.
  change ("<<<" +++ String newline "" +++ "[" +++ stamp +++ "] " +++ t +++ String newline "" +++ ">>>" +++ String newline "") with ("<<<" +++ String newline ("[" +++ stamp +++ "] " +++ t +++ String newline (">>>" +++ String newline ""))).
  rewrite split_newline. change (split_lines "<<<") with ["<<<"]. cbn [app].
  replace ("[" +++ stamp +++ "] " +++ t +++ String newline (">>>" +++ String newline "")) with (("[" +++ stamp +++ "] " +++ t) +++ String newline (">>>" +++ String newline "")) by (rewrite !append_assoc; reflexivity).
  rewrite split_newline. change (split_lines (">>>" +++ String newline "")) with [">>>"; ""].
  replace ("[" +++ stamp +++ "] " +++ t) with (("[" +++ stamp +++ "] ") +++ t) by (rewrite !append_assoc; reflexivity).
  rewrite split_app. rewrite (split_one ("[" +++ stamp +++ "] ")) by (apply one_app; [lit|]; apply one_app; [exact O|lit]). cbn [removelast last app].
  destruct (split_lines t) as [|h r] eqn:ET; [destruct (split_nonempty t ET)|]. cbn [app]. rewrite !append_assoc. reflexivity.
Qed.
Lemma file_lines ls : split_lines (file_text ls) = flat_map split_lines ls ++ [""].
Proof.
  unfold file_text. induction ls as [|x ls IH]; [reflexivity|]. cbn [map flat_map].
  assert (E : String.concat "" ((x +++ String newline "") :: map (fun s => s +++ String newline "") ls) = x +++ String newline (String.concat "" (map (fun s => s +++ String newline "") ls))).
  { destruct ls as [|y ls]; cbn [map]; [reflexivity|]. rewrite concat_cons2, !append_assoc. reflexivity. }
  rewrite E, split_newline, IH, app_assoc. reflexivity.
Qed.
Lemma chunks {A B} (f : A -> list B) (n : nat) (P : A -> Prop) : (forall x, P x -> length (f x) = S n) -> (forall x y, P x -> P y -> f x = f y -> x = y) ->
  forall l l', Forall P l -> Forall P l' -> flat_map f l = flat_map f l' -> l = l'.
Proof.
  intros HL HI. induction l as [|x l IH]; intros l' HP HP' E; destruct l' as [|y l']; auto.
  - exfalso. inversion HP'; subst. cbn in E. specialize (HL y H1). destruct (f y); discriminate.
  - exfalso. inversion HP; subst. cbn in E. specialize (HL x H1). destruct (f x); discriminate.
  - inversion HP; inversion HP'; subst. cbn [flat_map] in E.
    assert (EE : f x = f y /\ flat_map f l = flat_map f l').
    { assert (LL : length (f x) = length (f y)) by (rewrite !HL; auto). revert E LL. generalize (flat_map f l) (flat_map f l'). generalize (f y). induction (f x) as [|b u IHu]; intros [|c v] p q E LL; try discriminate; auto.
      cbn in E. injection E as -> E. destruct (IHu v p q E) as [-> ->]; auto. }
    destruct EE as [E1 E2]. f_equal; auto.
Qed.
Lemma natq_inj l l' : map natq l = map natq l' <-> l = l'.
Proof.
  split; [|intros ->; reflexivity]. revert l'. induction l as [|x l IH]; intros [|y l'] EE; try discriminate; auto. cbn [map] in EE. f_equal; [|apply IH; exact (f_equal (@tl Qc) EE)].
  pose proof (f_equal (fun z => hd 0%Qc z) EE) as E. cbn [hd] in E. unfold natq in E. apply qz_inj in E. lia.
Qed.
Theorem C146_file : forall ws ws', Forall (fun w => one_line (fst w) /\ whole (snd w)) ws -> Forall (fun w => one_line (fst w) /\ whole (snd w)) ws' ->
  windows_file ws = windows_file ws' -> ws = ws'.
Proof.
  intros ws ws' H H' E. unfold windows_file in E. apply (f_equal split_lines) in E. rewrite !file_lines in E. apply app_inv_tail in E.
  unfold decorated in E. rewrite !map_map, !flat_map_concat_map, !map_map, <- !flat_map_concat_map in E. revert E.
  assert (WL : forall w, one_line (fst w) /\ whole (snd w) -> exists t, split_lines (npp_text (snd w)) = "" :: t /\ length t = 7%nat).
  { intros w [_ [HN HD]]. destruct (whole_nats (an_input (snd w))) as [i EI]; [auto|]. destruct (whole_nats (an_plus (snd w))) as [p EP]; [auto|]. destruct (whole_nats (an_minus (snd w))) as [n EN]; [auto|].
    rewrite (text_lines _ i p n); eauto. }
  apply (chunks _ 10 (fun w => one_line (fst w) /\ whole (snd w))); auto.
  - intros w W. destruct (WL w W) as (t & ET & LT). cbn [fst snd]. rewrite window_lines by apply W. rewrite ET. cbn [length]. rewrite app_length, LT. reflexivity.
  - intros w w' W W' E. destruct (WL w W) as (t & ET & LT), (WL w' W') as (t' & ET' & LT'). cbn [fst snd] in E. rewrite !window_lines in E by (apply W || apply W'). rewrite ET, ET' in E. injection E as E1 E2.
    apply app_inv_tail in E2. subst t'. rewrite <- ET in ET'. apply append_inj_r in E1.
    destruct w as [st a], w' as [st' a']. cbn [fst snd] in *. subst st'. f_equal.
    destruct (C146_says a (proj2 W)) as (r & p & m & S1 & A1 & A2 & A3), (C146_says a' (proj2 W')) as (r' & p' & m' & S2 & B1 & B2 & B3).
    assert (says (npp_text a) r' p' m') as S3 by (unfold says in S2 |- *; rewrite <- ET'; exact S2).
    destruct (C146_unambiguous _ _ _ _ _ _ _ S1 S3) as (<- & <- & <-). destruct W as [_ [_ D1]], W' as [_ [_ D2]]. destruct a, a'. cbn in *. congruence.
Qed.
(** A failure never looks like an answer. *)
Lemma first_char c k : c <> newline -> exists h t, split_lines (String c k) = String c h :: t.
Proof. intros N. cbn [split_lines]. destruct (Ascii.eqb_spec c newline); [contradiction|]. destruct (split_lines k) as [|h t]; eauto. Qed.
Theorem C146_failures : forall why utc stamp o, one_line stamp ->
  ((exists r, split_lines (decorate sample_output stamp (output_text npp_text why utc o)) = "<<<" :: ("[" +++ stamp +++ "] ") :: r) <-> exists a, o = Solved a).
Proof.
  intros why utc stamp o O. rewrite window_lines by exact O. split.
  - intros [r E]. assert (X : (exists a, o = Solved a) \/ exists c k, output_text npp_text why utc o = String c k /\ c <> newline).
    { destruct o; [eauto|right; eexists _, _; (split; [reflexivity|discriminate])..]. }
    destruct X as [X|(c & k & EC & NC)]; auto. exfalso. rewrite EC in E. destruct (first_char c k NC) as (h & t & EH). rewrite EH in E.
    injection E as E _. apply (f_equal String.length) in E. rewrite !length_append_s in E. cbn in E. lia.
  - intros [a ->]. cbn [output_text]. unfold npp_text, join_lines. rewrite concat_cons2.
    match goal with |- context [split_lines ("" +++ String newline "" +++ ?x)] => change (split_lines ("" +++ String newline "" +++ x)) with ("" :: split_lines x) end.
    change ("] " +++ "") with "] ". eauto.
Qed.

(** ** C147: the TSP sample *)
(** The name does not contain the character of the arrow's head. *)
Definition arrowless (s : string) : Prop := ~ In ">"%char (list_ascii_of_string s).
Lemma arrow_first a : forall b x y, arrowless a -> arrowless b -> a +++ " -> " +++ x = b +++ " -> " +++ y -> a = b /\ x = y.
Proof.
  assert (D : forall u v, (u +++ v = "" -> u = "" /\ v = "")%string) by (intros [|c u] v; auto; discriminate).
  assert (P : forall a p x y, arrowless (a +++ p) -> p <> "" -> " -> " +++ x <> p +++ " -> " +++ y).
  { intros a0 p x y H NP E. destruct p as [|c1 p]; [contradiction|]. cbn in E. injection E as <- E.
    destruct p as [|c2 p]; [cbn in E; discriminate|]. cbn in E. injection E as <- E. destruct p as [|c3 p]; [cbn in E; discriminate|]. cbn in E. injection E as <- E.
    apply H. clear. induction a0 as [|c a0 IH]; cbn; auto. }
  induction a as [|c a IH]; intros b x y HA HB E.
  - destruct b as [|d b]; [split; auto; cbn in E; congruence|]. exfalso. apply (P "" (String d b) x y); auto. discriminate.
  - destruct b as [|d b]; [exfalso; apply (P "" (String c a) y x); auto; discriminate|]. cbn in E. injection E as <- E.
    destruct (IH b x y) as [-> ->]; auto; intros HI; [apply HA|apply HB]; right; exact HI.
Qed.
Lemma arrow_none a b x : arrowless a -> a <> b +++ " -> " +++ x.
Proof.
  intros H E. subst a. apply H. induction b as [|c b IH]; [cbn; auto|]. cbn. right. apply IH. intros HI. apply H. cbn. auto.
Qed.
Lemma arrows_inj l : forall l', l <> [] -> l' <> [] -> Forall arrowless l -> Forall arrowless l' -> String.concat " -> " l = String.concat " -> " l' -> l = l'.
Proof.
  induction l as [|a l IH]; intros [|b l'] NE NE' H H' E; try contradiction. inversion H; inversion H'; subst. destruct l as [|a2 l], l' as [|b2 l'].
  - cbn in E. subst. reflexivity.
  - exfalso. rewrite concat_cons2 in E. apply (arrow_none a b _ H2 E).
  - exfalso. rewrite concat_cons2 in E. symmetry in E. apply (arrow_none b a _ H6 E).
  - rewrite !concat_cons2 in E. apply arrow_first in E; auto. destruct E as [-> E]. f_equal. apply IH; auto; discriminate.
Qed.
(** [travels order s]: [s] names the stops in order, with arrows between them. *)
Inductive travels : list string -> string -> Prop :=
| tr_none : travels [] ""
| tr_last a : travels [a] a
| tr_next a b l s : travels (b :: l) s -> travels (a :: b :: l) (a +++ " -> " +++ s).
Theorem C147_line : forall show els order, (forall l, one_line (show l)) -> Forall one_line order ->
  exists route, split_lines (tsp_text show els order) = [""; "INPUT -->"; "  " +++ show els; "SOLUTION ==>"; "  " +++ route] /\ travels order route.
Proof.
  intros show els order O H. exists (String.concat " -> " order).
  assert (OR : one_line (String.concat " -> " order)).
  { clear - H. induction H as [|a l HA HL IH]; [exact I|]. destruct l as [|b l]; [exact HA|]. rewrite concat_cons2. apply one_app; auto. apply one_app; [lit|auto]. }
  split.
  - unfold tsp_text. change (join_lines ?x +++ String newline "" +++ ?y) with (join_lines x +++ String newline y). rewrite split_newline, split_join by discriminate.
    rewrite (split_one ("  " +++ _)) by (apply one_app; [lit|exact OR]). rewrite flat_one; [reflexivity|]. intros x HX. cbn [In] in HX.
    repeat (destruct HX as [<-|HX]; [first [lit|apply one_app; [lit|apply O]]|]). destruct HX.
  - clear. induction order as [|a l IH]; [constructor|]. destruct l as [|b l]; [constructor|]. rewrite concat_cons2. constructor. exact IH.
Qed.
(** The route can be read off the text, if names do not contain the arrow. *)
Theorem C147_route_partial : forall show els els' order order',
  Forall arrowless order -> Forall arrowless order' -> order <> [] -> order' <> [] -> (forall l, one_line (show l)) ->
  tsp_text show els order = tsp_text show els' order' -> order = order' /\ show els = show els'.
Proof.
  intros show els els' order order' H H' N N' O E. unfold tsp_text, join_lines in E. rewrite !concat_cons2 in E. cbn [String.concat] in E. rewrite !append_assoc in E.
  assert (G : forall t, split_lines ("" +++ String newline "" +++ "INPUT -->" +++ String newline "" +++ "  " +++ t) = "" :: "INPUT -->" :: split_lines ("  " +++ t)) by reflexivity.
  pose proof (f_equal split_lines E) as E2. rewrite !G in E2. apply (f_equal (skipn 2)) in E2. cbn [skipn] in E2.
  assert (K : forall u v, one_line u -> split_lines ("  " +++ u +++ String newline "" +++ "SOLUTION ==>" +++ String newline "" +++ v) = ("  " +++ u) :: "SOLUTION ==>" :: split_lines v).
  { intros u v OU. replace ("  " +++ u +++ String newline "" +++ "SOLUTION ==>" +++ String newline "" +++ v) with (("  " +++ u) +++ String newline ("SOLUTION ==>" +++ String newline v)) by (rewrite append_assoc; reflexivity).
    rewrite split_newline, split_newline. rewrite (split_one ("  " +++ u)) by (apply one_app; [lit|auto]). reflexivity. }
  assert (ES : show els = show els').
  { rewrite !K in E2 by auto. exact (f_equal (fun l => match hd "" l with String _ (String _ r) => r | _ => "" end) E2). }
  split; auto. rewrite ES in E. do 10 (apply append_inj_l in E). apply arrows_inj in E; auto.
Qed.
(** Two tours of the same cities whose texts are the same. *)
Definition city_ (i : nat) (n : string) : city_el := mkEl (qz (Z.of_nat i)) i [(n, [qz (Z.of_nat i); 0%Qc])].
Definition abc : list city_el := [city_ 0 "A"; city_ 1 "B"; city_ 2 "A -> B"].
Definition visits (l : list nat) : list srow :=
  [(flat_map (fun i => map (fun j => ("city" +++ brackets [i; j], if Nat.eqb (nth i l 9) j then 1%Z else 0%Z)) (seq 0 3)) (seq 0 3), 0%Qc, 1)].
Theorem C147_refuted : exists els rows rows' order order', tsp_unmapping rows els = Ok order /\ tsp_unmapping rows' els = Ok order' /\
  Permutation order order' /\ order <> order' /\ forall show, tsp_text show els order = tsp_text show els order'.
Proof.
  exists abc, (visits [0; 1; 2]), (visits [2; 0; 1]), ["A"; "B"; "A -> B"], ["A -> B"; "A"; "B"].
  split; [vm_compute; reflexivity|]. split; [vm_compute; reflexivity|]. split; [|split; [discriminate|intros show; reflexivity]].
  apply (Permutation_app_comm ["A"; "B"] ["A -> B"]).
Qed.

(** ** C148: repr *)
(** Everything stands between the brackets that follow the class name. *)
Definition enclosed (name s : string) : Prop := exists body, s = name +++ "({" +++ body +++ "})".
Theorem C148_logical : forall rd m s, repr_logical rd m = (m, Ok s) -> enclosed "LogicalModel" s.
Proof. intros rd m s E. rewrite (C121_repr_parts rd m s E). eexists. reflexivity. Qed.
(** The repr of a physical model: the brackets are closed before the offset. *)
Theorem C148_physical_exact : forall rd raw p, repr_physical rd raw p =
  "PhysicalModel({" +++ String.concat ", " ["'mtype': '" +++ named (p_mtype p) +++ "'"; "'raw_interactions': " +++ raw p +++ "})"; "'offset': " +++ sh_number rd (p_offset p)].
Proof. intros rd raw p. unfold repr_physical, String.concat. rewrite !append_assoc. destruct (p_mtype p); reflexivity. Qed.
(** So no physical model is shown in brackets. *)
Theorem C148_refuted : forall rd raw p, (forall x, sh_number rd (p_offset p) <> x +++ ")") -> sh_number rd (p_offset p) <> "" -> ~ enclosed "PhysicalModel" (repr_physical rd raw p).
Proof.
  intros rd raw p H NE [body E]. rewrite C148_physical_exact in E. set (n := sh_number rd (p_offset p)) in *.
  assert (EX : exists u, u +++ n = ("PhysicalModel" +++ "({" +++ body +++ "}") +++ ")").
  { exists ("PhysicalModel({" +++ ("'mtype': '" +++ named (p_mtype p) +++ "'") +++ ", " +++ ("'raw_interactions': " +++ raw p +++ "})") +++ ", " +++ "'offset': ").
    transitivity ("PhysicalModel" +++ "({" +++ body +++ "})"); [|rewrite !append_assoc; reflexivity]. rewrite <- E. unfold String.concat. rewrite !append_assoc. reflexivity. }
  destruct EX as [u EX]. clear E. revert EX. generalize ("PhysicalModel" +++ "({" +++ body +++ "}"). clear - H NE. revert n H NE.
  induction u as [|c u IH]; intros n0 H NE k E; [apply (H k E)|]. destruct k as [|d k]; cbn in E.
  - injection E as _ E. destruct u; [cbn in E; contradiction|discriminate].
  - injection E as _ E. apply (IH H NE k E).
Qed.

(** ** The hypotheses can be met *)
Definition answer1 : npp_answer := mkAns [qz 10; qz 7; qz 5] [qz 10] [qz 7; qz 5] (qz 2).
Definition spins1 : list srow := [([("x[4]", 1%Z); ("x[5]", (-1)%Z); ("x[6]", (-1)%Z)], 0%Qc, 1)].
Definition els1 : list num_el := [mkEl (qz 4) 4 (qz 10); mkEl (qz 5) 5 (qz 7); mkEl (qz 6) 6 (qz 5)].
Example C146_hyps : whole answer1 /\ npp_unmapping spins1 els1 = Ok answer1 /\
  (forall e, In e els1 -> exists n, el_val e = qz (Z.of_nat n)) /\ (exists s, first_sample spins1 = Ok s /\ forall e, In e els1 -> decided s e) /\
  split_lines (npp_text answer1) = [""; "INPUT -->"; "  [10, 7, 5]"; "  (length: 3)"; "SOLUTION ==>"; "  Set(+) : sum=10, elements=[10]"; "  Set(-) : sum=12, elements=[7, 5]"; "  diff   : 2"] /\
  Forall (fun w => one_line (fst w) /\ whole (snd w)) [("2021-05-01 00:00:00", answer1)].
Proof.
  assert (W : whole answer1).
  { split; [|apply Qc_is_canon; reflexivity]. cbn. intros q HQ. assert (qz 10 = q \/ qz 7 = q \/ qz 5 = q) as [<- |[<- | <-]] by tauto; [exists 10%nat|exists 7%nat|exists 5%nat]; reflexivity. }
  split; auto. split; [vm_compute; reflexivity|]. split.
  { intros e HE. repeat (destruct HE as [<-|HE]; [first [exists 10%nat; reflexivity|exists 7%nat; reflexivity|exists 5%nat; reflexivity]|]). destruct HE. }
  split.
  { eexists. split; [reflexivity|]. intros e HE. repeat (destruct HE as [<-|HE]; [eexists; split; [vm_compute; reflexivity|auto]|]). destruct HE. }
  split; [vm_compute; reflexivity|]. constructor; [split; [lit|exact W]|constructor].
Qed.
Example C147_hyps : Forall arrowless ["Sendai"; "Tokyo"] /\ travels ["Sendai"; "Tokyo"] "Sendai -> Tokyo" /\ tsp_unmapping (visits [0; 1; 2]) abc = Ok ["A"; "B"; "A -> B"].
Proof.
  split; [repeat constructor; intros HI; cbn in HI; repeat (destruct HI as [HI|HI]; [discriminate|]); destruct HI|]. split; [apply (tr_next "Sendai" "Tokyo" [] "Tokyo"); constructor|vm_compute; reflexivity].
Qed.
Example C148_hyps : exists p, (forall x, sh_number two_lines (p_offset p) <> x +++ ")") /\ sh_number two_lines (p_offset p) <> "" /\
  repr_physical two_lines (fun _ => "{}") p = "PhysicalModel({'mtype': 'ising', 'raw_interactions': {}}), 'offset': 0".
Proof.
  exists (mkPhysical Ising [] [] 0%Qc [] [] []). split; [|split; [discriminate|reflexivity]]. cbn. intros [|c x]; [discriminate|]. intros E. cbn in E. injection E as _ E. destruct x; discriminate.
Qed.
Print Assumptions figures_unique.
Print Assumptions C146_says.
Print Assumptions C146_unambiguous.
Print Assumptions C146_window.
Print Assumptions C146_file.
Print Assumptions C146_failures.
Print Assumptions C147_line.
Print Assumptions C147_route_partial.
Print Assumptions C147_refuted.
Print Assumptions C148_logical.
Print Assumptions C148_physical_exact.
Print Assumptions C148_refuted.
