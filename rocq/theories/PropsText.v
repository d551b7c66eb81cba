(** * PropsText: C121 printing, C122 the publisher, C123 the time and profiling utilities. *)
From Verif Require SolverProofs.
From Verif Require Import PyBase PyLemmas Numbers Constraint LogicalModel LogicalProofs Spec Services ServicesSpec PropsServices History PropsHistory Samples Text.
From Coq Require Import Qround.
Local Open Scope string_scope.
Local Open Scope list_scope.

(** ** Specification *)
(** The text contains no line break. *)
Definition line_break : ascii := "010"%char.
Fixpoint one_line (s : string) : Prop := match s with "" => True | String c r => c <> line_break /\ one_line r end.
(** White space. *)
Definition blanks : list ascii := [" "; "009"; "010"; "011"; "012"; "013"; "028"; "029"; "030"; "031"]%char.
Definition blank (c : ascii) : bool := existsb (Ascii.eqb c) blanks.
Local Arguments blank : simpl never.
(** What is left of a line without its leading white space. *)
Definition stripped (a b : string) : Prop :=
  exists w, a = w +++ b /\ (forall c, In c (list_ascii_of_string w) -> In c blanks) /\ forall c r, b = String c r -> ~ In c blanks.
(** The names of the types, and the border of the box. *)
Definition named (t : mtype) : string := match t with Ising => "ising" | Qubo => "qubo" end.
Definition border : string := "━━━━━━━━━━━━━━━━━━━━━━━━━━━━━━━━━━━━━━━━━━━━━━━━━━━━━━━━━━━━━━━━".
(** The line begins with a character of the box. *)
Definition boxed (ln : string) : Prop := exists b r, In b ["┏"; "┃"; "┣"; "┗"] /\ ln = b +++ r.
(** A line of a part, as it appears in the box. *)
Definition indented (ln : string) : string := "┃    " +++ ln.
(** The parts that Python renders on one line (names in a list are quoted, with their line breaks escaped). *)
Record renders (rd : renderer) : Prop := mkRenders {
  rd_keys : forall ks, one_line (sh_keys rd ks);
  rd_offset : forall c, one_line (sh_offset rd c);
  rd_number : forall q, one_line (sh_number rd q);
  rd_json : forall r c, one_line (sh_json rd r c);
  rd_constraints : forall d, one_line (sh_constraints_str rd d) }.
(** The non-white characters of a text, in order. *)
Fixpoint ink (s : string) : string := match s with "" => "" | String c r => if blank c then ink r else String c (ink r) end.
(** All columns of the table have one entry per interaction. *)
Definition rectangular (m : lmodel) : Prop := forall c, In c (m_cols m) -> length (snd c) = length (m_rows m).

(** ** Lines *)
Lemma space_blank c : is_space c = blank c.
Proof. destruct c as [b0 b1 b2 b3 b4 b5 b6 b7]. destruct b0, b1, b2, b3, b4, b5, b6, b7; reflexivity. Qed.
Lemma split_nonempty s : split_lines s <> [].
Proof. destruct s as [|c r]; cbn [split_lines]; [discriminate|]. destruct (Ascii.eqb c newline); [discriminate|]. destruct (split_lines r); discriminate. Qed.
Lemma split_one s : one_line s -> split_lines s = [s].
Proof.
  induction s as [|c r IH]; intros H; [reflexivity|]. destruct H as [N H]. cbn [split_lines]. destruct (Ascii.eqb_spec c newline); [contradiction|]. rewrite (IH H). reflexivity.
Qed.
Lemma one_split s ln : In ln (split_lines s) -> one_line ln.
Proof.
  revert ln. induction s as [|c r IH]; intros ln H; cbn [split_lines] in H.
  - destruct H as [<-|[]]. exact I.
  - destruct (Ascii.eqb_spec c newline) as [E|NE].
    + destruct H as [<-|H]; [exact I|auto].
    + destruct (split_lines r) as [|h t] eqn:ES; [destruct (split_nonempty r ES)|]. destruct H as [<-|H]; [|apply IH; right; exact H].
      split; [exact NE|]. apply IH. left. reflexivity.
Qed.
Lemma split_app a b : split_lines (a +++ b) = match split_lines b with h :: t => removelast (split_lines a) ++ (last (split_lines a) "" +++ h) :: t | [] => [] end.
Proof.
  induction a as [|c a IH].
  - cbn. destruct (split_lines b) eqn:E; [destruct (split_nonempty b E)|reflexivity].
  - change (String c a +++ b) with (String c (a +++ b)). cbn [split_lines]. destruct (split_lines b) as [|h t] eqn:EB; [destruct (split_nonempty b EB)|]. rewrite IH. destruct (split_lines a) as [|x l] eqn:EA; [destruct (split_nonempty a EA)|].
    destruct (Ascii.eqb c newline).
    + destruct l; reflexivity.
    + destruct l as [|y l]; reflexivity.
Qed.
Lemma split_newline a b : split_lines (a +++ String newline b) = split_lines a ++ split_lines b.
Proof.
  rewrite split_app. cbn [split_lines]. rewrite Ascii.eqb_refl. rewrite append_nil_r_s. rewrite (app_removelast_last "" (split_nonempty a)) at 3. rewrite <- app_assoc. reflexivity.
Qed.
Lemma split_join ls : ls <> [] -> split_lines (join_lines ls) = flat_map split_lines ls.
Proof.
  unfold join_lines. induction ls as [|a ls IH]; intros NE; [contradiction|]. destruct ls as [|b ls]; [cbn; rewrite app_nil_r; reflexivity|].
  change (String.concat (String newline "") (a :: b :: ls)) with (a +++ String newline (String.concat (String newline "") (b :: ls))).
  rewrite split_newline, IH by discriminate. reflexivity.
Qed.
Lemma one_app a b : one_line a -> one_line b -> one_line (a +++ b).
Proof. induction a as [|c a IH]; intros HA HB; [exact HB|]. destruct HA. split; auto. Qed.
Lemma flat_one (l : list string) : (forall x, In x l -> one_line x) -> flat_map split_lines l = l.
Proof. induction l as [|x l IH]; intros H; [reflexivity|]. cbn [flat_map]. rewrite (split_one x (H x (or_introl eq_refl))), IH; [reflexivity|]. intros; apply H; right; auto. Qed.
Lemma split_prefix t : split_lines (append_prefix t 4) = map indented (split_lines t).
Proof.
  unfold append_prefix. rewrite split_join.
  - change (fun ln : string => "┃" +++ spaces 4 +++ ln) with indented. apply flat_one. intros x HX. apply in_map_iff in HX. destruct HX as (ln & <- & HL).
    apply one_app; [cbn; repeat split; discriminate|]. eapply one_split; eauto.
  - intros E. apply map_eq_nil in E. apply (split_nonempty t E).
Qed.

Fixpoint one_lineb (s : string) : bool := match s with "" => true | String c r => negb (Ascii.eqb c newline) && one_lineb r end.
Lemma one_lineb_ok s : one_lineb s = true -> one_line s.
Proof. induction s as [|c r IH]; cbn [one_lineb]; intros H; [exact I|]. apply andb_true_iff in H. destruct H as [H1 H2]. split; [|auto]. intros ->. rewrite Ascii.eqb_refl in H1. discriminate. Qed.
Ltac lit := apply one_lineb_ok; vm_compute; reflexivity.
Lemma one_type t : one_line (type_name t).
Proof. destruct t; lit. Qed.

(** ** C121: printing *)
(** The lines of a logical model in print. *)
Definition printed (rd : renderer) (m : lmodel) : list string :=
  ["┏" +++ border; "┃ LOGICAL MODEL"; "┣" +++ border; "┣━ mtype: " +++ named (m_mtype m); "┣━ variables: " +++ sh_keys rd (dkeys (m_vars m))]
  ++ flat_map (fun na => ("┃  name: " +++ fst na) :: map indented (split_lines (sh_array rd (snd na)))) (m_vars m)
  ++ ["┣━ interactions:"] ++ map indented (split_lines (match m_rows m with [] => "Empty" | _ => sh_table rd (m_rows m) (m_cols m) end))
  ++ ["┣━ offset: " +++ sh_offset rd (m_offset m); "┣━ constraints:"] ++ map indented (split_lines (sh_constraints rd (m_constrs m))) ++ ["┗" +++ border].
Lemma rectangular_ok m : rectangular m <-> df_ok m = true.
Proof.
  unfold rectangular, df_ok. rewrite forallb_forall. split; intros H c HC; specialize (H c HC); [apply Nat.eqb_eq|apply Nat.eqb_eq in H]; auto.
Qed.
(** Printing succeeds exactly when the table is rectangular, otherwise it raises ValueError; it never changes the
    model. *)
Theorem C121_raises : forall rd m,
  fst (str_logical rd m) = m /\ fst (repr_logical rd m) = m /\
  (rectangular m -> (exists s, snd (str_logical rd m) = Ok s) /\ exists s, snd (repr_logical rd m) = Ok s) /\
  (~ rectangular m -> snd (str_logical rd m) = Err ValueError /\ snd (repr_logical rd m) = Err ValueError).
Proof.
  intros rd m. unfold str_logical, repr_logical, bind, dataframe, get, ret. rewrite rectangular_ok. destruct (df_ok m); cbn; split; auto; split; auto; split.
  - intros _. split; eexists; reflexivity.
  - intros H. destruct (H eq_refl).
  - discriminate.
  - intros _. split; reflexivity.
Qed.
(** Every model built by calls that introduced no attribute in an update can be printed. *)
Theorem C121_aligned : forall rd m, aligned m -> exists s, str_logical rd m = (m, Ok s).
Proof.
  intros rd m HA. destruct (C121_raises rd m) as (E & _ & H & _). destruct H as [[s H] _].
  - destruct HA as (HL & _ & _ & HC). rewrite Forall_forall in HC. intros c HI. rewrite <- HL. apply HC. exact HI.
  - exists s. rewrite (surjective_pairing (str_logical rd m)), E, H. reflexivity.
Qed.
Lemma str_text rd m s : str_logical rd m = (m, Ok s) -> s = join_lines
    (["┏" +++ bar; "┃ LOGICAL MODEL"; "┣" +++ bar; "┣━ mtype: " +++ type_name (m_mtype m);
      "┣━ variables: " +++ sh_keys rd (dkeys (m_vars m))]
     ++ flat_map (fun na => ["┃  name: " +++ fst na; append_prefix (sh_array rd (snd na)) 4]) (m_vars m)
     ++ ["┣━ interactions:"; append_prefix (match m_rows m with [] => "Empty" | _ => sh_table rd (m_rows m) (m_cols m) end) 4;
         "┣━ offset: " +++ sh_offset rd (m_offset m); "┣━ constraints:";
         append_prefix (sh_constraints rd (m_constrs m)) 4; "┗" +++ bar]).
Proof. unfold str_logical, bind, dataframe, get, ret. destruct (df_ok m); [|discriminate]. congruence. Qed.
(** The text consists of exactly these lines: the parts appear one after the other, none of their lines is lost, and
    every line of a part is indented in the same way (so that the part can be read off the box). *)
Theorem C121_lines : forall rd m s, renders rd -> (forall n, In n (dkeys (m_vars m)) -> one_line n) ->
  str_logical rd m = (m, Ok s) -> split_lines s = printed rd m.
Proof.
  intros rd m s HR HN E. rewrite (str_text rd m s E). clear E.
  rewrite split_join by discriminate. unfold printed. rewrite !flat_map_app. f_equal; [|f_equal].
  - apply flat_one. intros x [<-|[<-|[<-|[<-|[<-|[]]]]]].
    1-3: lit.
    + apply one_app; [lit|apply one_type].
    + apply one_app; [lit|apply rd_keys; auto].
  - revert HN. unfold dkeys. induction (m_vars m) as [|[n a] l IH]; intros HN; [reflexivity|]. cbn [flat_map app fst snd].
    rewrite split_prefix, (split_one ("┃  name: " +++ n)), IH.
    + cbn [app]. reflexivity.
    + intros k HK. apply HN. right. exact HK.
    + apply one_app; [lit|]. apply HN. left. reflexivity.
  - cbn [flat_map]. rewrite !split_prefix. rewrite (split_one "┣━ interactions:") by lit.
    rewrite (split_one "┣━ constraints:") by lit. rewrite (split_one ("┗" +++ bar)) by lit.
    rewrite (split_one ("┣━ offset: " +++ sh_offset rd (m_offset m))) by (apply one_app; [lit|apply rd_offset; auto]).
    destruct (m_rows m); cbn [app]; rewrite ?app_nil_r; reflexivity.
Qed.
Lemma boxed_indented ln : boxed (indented ln).
Proof. exists "┃", ("    " +++ ln). split; [cbn; auto|reflexivity]. Qed.
Lemma line_in b r : b = "┏" \/ b = "┃" \/ b = "┣" \/ b = "┗" -> boxed (b +++ r).
Proof. intros H. exists b, r. split; [|reflexivity]. destruct H as [-> | [-> | [-> | ->]]]; [left|right; left|right; right; left|right; right; right; left]; reflexivity. Qed.
(** It is a box: it opens with the upper and closes with the lower border, and every line begins with a character
    of the frame. *)
Theorem C121_box : forall rd m s, renders rd -> (forall n, In n (dkeys (m_vars m)) -> one_line n) -> str_logical rd m = (m, Ok s) ->
  Forall boxed (split_lines s) /\ hd "" (split_lines s) = "┏" +++ border /\ last (split_lines s) "" = "┗" +++ border.
Proof.
  intros rd m s HR HN E. rewrite (C121_lines rd m s HR HN E). unfold printed. split; [|split; [reflexivity|]].
  - assert (HI : forall l, Forall boxed (map indented l)) by (intros l; apply Forall_forall; intros x HX; apply in_map_iff in HX; destruct HX as (y & <- & _); apply boxed_indented).
    rewrite !Forall_app. refine (conj _ (conj _ (conj _ (conj (HI _) (conj _ (conj (HI _) _)))))).
    + apply Forall_cons; [apply (line_in "┏"); auto|]. apply Forall_cons; [apply (line_in "┃" " LOGICAL MODEL"); auto|]. apply Forall_cons; [apply (line_in "┣"); auto|].
      apply Forall_cons; [apply (line_in "┣" ("━ mtype: " +++ type_name (m_mtype m))); auto|]. apply Forall_cons; [apply (line_in "┣" ("━ variables: " +++ sh_keys rd (dkeys (m_vars m)))); auto|]. constructor.
    + clear HN E. induction (m_vars m) as [|[n a] l IH]; cbn [flat_map fst snd app]; [constructor|]. apply Forall_cons; [apply (line_in "┃" ("  name: " +++ n)); auto|]. apply Forall_app. split; auto.
    + apply Forall_cons; [apply (line_in "┣" "━ interactions:"); auto|constructor].
    + apply Forall_cons; [apply (line_in "┣" ("━ offset: " +++ sh_offset rd (m_offset m))); auto|]. apply Forall_cons; [apply (line_in "┣" "━ constraints:"); auto|constructor].
    + apply Forall_cons; [apply (line_in "┗"); auto|constructor].
  - rewrite !app_assoc. apply last_last.
Qed.
(** With a line break in the name of a variable it is not a box. *)
Definition plain_renderer : renderer :=
  mkRenderer (fun _ => "") (fun _ => "") (fun _ _ => "") (fun _ _ => "") (fun _ => "") (fun _ => "") (fun _ => "") (fun _ => "") (fun _ => "") (fun _ => "") (fun _ => "").
Definition broken_name : string := "a" +++ String newline "b".
Definition broken_model : lmodel := run_ops [OVariables (VName broken_name) (ShTuple [ShInt 1])] (new_model Ising).
Lemma plain_renders : renders plain_renderer.
Proof. split; intros; exact I. Qed.
Lemma in_text x l : existsb (String.eqb x) l = true -> In x l.
Proof. intros H. apply existsb_exists in H. destruct H as (y & HY & E). apply String.eqb_eq in E. subst. exact HY. Qed.
Definition broken_text : string := match snd (str_logical plain_renderer broken_model) with Ok s => s | Err _ => "" end.
Theorem C121_line_break : exists rd m s, renders rd /\ str_logical rd m = (m, Ok s) /\ dkeys (m_vars m) = [broken_name] /\ ~ Forall boxed (split_lines s).
Proof.
  exists plain_renderer, broken_model, broken_text. split; [apply plain_renders|]. split; [vm_compute; reflexivity|]. split; [vm_compute; reflexivity|].
  intros H. rewrite Forall_forall in H. assert (HI : In "b" (split_lines broken_text)) by (apply in_text; vm_compute; reflexivity). apply H in HI. clear H.
  destruct HI as (b & r & HB & E). destruct HB as [<-|[<-|[<-|[<-|[]]]]]; discriminate.
Qed.
(** repr puts everything on one line, and no visible character of the variables is lost or moved. *)
Lemma ink_app a b : ink (a +++ b) = ink a +++ ink b.
Proof. induction a as [|c a IH]; cbn; [reflexivity|]. destruct (blank c); cbn; rewrite IH; reflexivity. Qed.
Lemma ink_lstrip s : ink (lstrip s) = ink s.
Proof. induction s as [|c s IH]; [reflexivity|]. cbn. rewrite space_blank. destruct (blank c) eqn:E; [exact IH|]. cbn. rewrite E. reflexivity. Qed.
Lemma one_lstrip s : one_line s -> one_line (lstrip s).
Proof. induction s as [|c s IH]; intros H; [exact I|]. cbn. destruct (is_space c); [|exact H]. destruct H. auto. Qed.
Lemma concat_cons sep a b l : String.concat sep (a :: b :: l) = a +++ sep +++ String.concat sep (b :: l).
Proof. reflexivity. Qed.
Lemma ink_lines s : ink (String.concat " " (split_lines s)) = ink s.
Proof.
  induction s as [|c s IH]; [reflexivity|]. cbn [split_lines]. destruct (Ascii.eqb_spec c newline) as [->|NE].
  - destruct (split_lines s) as [|h t] eqn:ES; [destruct (split_nonempty s ES)|]. rewrite concat_cons. change (ink (String newline s)) with (ink s). rewrite <- IH. reflexivity.
  - destruct (split_lines s) as [|h t] eqn:ES; [destruct (split_nonempty s ES)|]. cbn [ink]. rewrite <- IH. destruct t as [|x t]; reflexivity.
Qed.
Lemma concat_strip l : ink (String.concat " " (map lstrip l)) = ink (String.concat " " l).
Proof.
  induction l as [|a l IH]; [reflexivity|]. destruct l as [|b l]; [apply ink_lstrip|]. cbn [map]. cbn [map] in IH. rewrite !concat_cons, !ink_app, IH, ink_lstrip. reflexivity.
Qed.
(** [split_lines] is what its name says: the lines of the text, in order. *)
Theorem C121_split : forall t ls, split_lines t = ls <-> ls <> [] /\ Forall one_line ls /\ t = String.concat (String line_break "") ls.
Proof.
  assert (A : forall t, t = String.concat (String line_break "") (split_lines t)).
  { induction t as [|c t IH]; [reflexivity|]. cbn [split_lines]. destruct (split_lines t) as [|h l] eqn:ES; [destruct (split_nonempty t ES)|].
    destruct (Ascii.eqb_spec c newline) as [->|NE]; rewrite IH at 1; [reflexivity|]. destruct l; reflexivity. }
  intros t ls. split.
  - intros <-. split; [apply split_nonempty|]. split; [|apply A]. apply Forall_forall. intros x Hx. eapply one_split; eauto.
  - intros (NE & HO & ->). change (split_lines (join_lines ls) = ls). rewrite split_join by auto. apply flat_one. apply Forall_forall. exact HO.
Qed.
Lemma lstrip_stripped a : stripped a (lstrip a).
Proof.
  induction a as [|c a IH].
  - exists "". split; [reflexivity|]. split; [intros c []|]. discriminate.
  - cbn [lstrip]. destruct (is_space c) eqn:E; rewrite space_blank in E.
    + destruct IH as (w & EW & HW & HB). exists (String c w). split; [cbn; f_equal; exact EW|]. split; auto. intros d [<-|H]; auto.
      apply existsb_exists in E. destruct E as (x & HX & EX). apply Ascii.eqb_eq in EX. subst. exact HX.
    + exists "". split; [reflexivity|]. split; [intros d []|]. intros d r ED. injection ED as <- <-. intros HI.
      assert (blank c = true) by (apply existsb_exists; exists c; split; auto; apply Ascii.eqb_refl). congruence.
Qed.
(** Leading white space is taken off every line and the lines are joined by spaces. *)
Theorem C121_strips : forall ls, ls <> [] -> Forall one_line ls -> exists ls',
  remove_leading_spaces (String.concat (String line_break "") ls) = String.concat " " ls' /\ Forall2 stripped ls ls'.
Proof.
  intros ls NE HO. exists (map lstrip ls). split.
  - unfold remove_leading_spaces. rewrite (proj2 (C121_split _ ls)); auto.
  - clear. induction ls; constructor; auto. apply lstrip_stripped.
Qed.
Theorem C121_leading_spaces : forall t, one_line (remove_leading_spaces t) /\ ink (remove_leading_spaces t) = ink t.
Proof.
  intros t. unfold remove_leading_spaces. split; [|rewrite concat_strip; apply ink_lines].
  assert (H : forall ln, In ln (map lstrip (split_lines t)) -> one_line ln).
  { intros ln HI. apply in_map_iff in HI. destruct HI as (x & <- & HX). apply one_lstrip. eapply one_split; eauto. }
  revert H. generalize (map lstrip (split_lines t)). induction l as [|a l IH]; intros H; [exact I|]. destruct l as [|b l]; [apply H; left; reflexivity|].
  rewrite concat_cons. apply one_app; [apply H; left; reflexivity|]. split; [discriminate|]. apply IH. intros; apply H; right; auto.
Qed.
Theorem C121_repr : forall rd m s, renders rd -> repr_logical rd m = (m, Ok s) -> one_line s.
Proof.
  intros rd m s HR E. unfold repr_logical, bind, dataframe, get, ret in E. destruct (df_ok m); [|discriminate].
  match type of E with (_, Ok ?t) = _ => assert (ES : s = t) by congruence end. rewrite ES. clear E ES.
  assert (HJ : one_line (match m_rows m with [] => "'interactions': 'Empty', " | _ => "'interactions': " +++ sh_json rd (m_rows m) (m_cols m) +++ ", " end)).
  { destruct (m_rows m); [lit|]. apply one_app; [lit|]. apply one_app; [apply rd_json; auto|lit]. }
  apply one_app; [lit|]. apply one_app; [lit|]. apply one_app; [apply one_type|]. apply one_app; [lit|]. apply one_app; [lit|]. apply one_app; [apply C121_leading_spaces|].
  apply one_app; [lit|]. apply one_app; [exact HJ|]. apply one_app; [lit|]. apply one_app; [apply rd_offset; auto|]. apply one_app; [lit|]. apply one_app; [lit|]. apply one_app; [apply rd_constraints; auto|lit].
Qed.
(** repr(model) lists the five parts, separated by commas. *)
Theorem C121_repr_parts : forall rd m s, repr_logical rd m = (m, Ok s) ->
  s = "LogicalModel({" +++ String.concat ", "
        ["'mtype': '" +++ named (m_mtype m) +++ "'"; "'variables': " +++ remove_leading_spaces (sh_variables rd (m_vars m));
         "'interactions': " +++ (match m_rows m with [] => "'Empty'" | _ => sh_json rd (m_rows m) (m_cols m) end);
         "'offset': " +++ sh_offset rd (m_offset m); "'constraints': " +++ sh_constraints_str rd (m_constrs m)] +++ "})".
Proof.
  intros rd m s E. unfold repr_logical, bind, dataframe, get, ret in E. destruct (df_ok m); [|discriminate].
  match type of E with (_, Ok ?t) = _ => assert (ES : s = t) by congruence end. rewrite ES. clear E ES.
  unfold String.concat. rewrite !append_assoc. destruct (m_rows m); rewrite ?append_assoc; destruct (m_mtype m); reflexivity.
Qed.
(** A physical model is printed in the same way. *)
Theorem C121_physical : forall rd p, renders rd ->
  split_lines (str_physical rd p) =
    ["┏" +++ border; "┃ PHYSICAL MODEL"; "┣" +++ border; "┣━ mtype: " +++ named (p_mtype p); "┣━ raw_interactions:"; "┃  linear:"]
    ++ map indented (split_lines (sh_linear rd (p_linear p))) ++ ["┃  quadratic:"] ++ map indented (split_lines (sh_quadratic rd (p_quad p)))
    ++ ["┣━ offset: " +++ sh_number rd (p_offset p); "┗" +++ border] /\
  Forall boxed (split_lines (str_physical rd p)).
Proof.
  intros rd p HR. assert (EL : split_lines (str_physical rd p) =
    ["┏" +++ border; "┃ PHYSICAL MODEL"; "┣" +++ border; "┣━ mtype: " +++ named (p_mtype p); "┣━ raw_interactions:"; "┃  linear:"]
    ++ map indented (split_lines (sh_linear rd (p_linear p))) ++ ["┃  quadratic:"] ++ map indented (split_lines (sh_quadratic rd (p_quad p)))
    ++ ["┣━ offset: " +++ sh_number rd (p_offset p); "┗" +++ border]).
  { unfold str_physical. rewrite split_join by discriminate. cbn [flat_map]. rewrite !split_prefix.
    rewrite (split_one ("┏" +++ bar)), (split_one "┃ PHYSICAL MODEL"), (split_one ("┣" +++ bar)), (split_one "┣━ raw_interactions:"), (split_one "┃  linear:"), (split_one "┃  quadratic:"), (split_one ("┗" +++ bar)) by lit.
    rewrite (split_one ("┣━ mtype: " +++ type_name (p_mtype p))) by (apply one_app; [lit|apply one_type]).
    rewrite (split_one ("┣━ offset: " +++ sh_number rd (p_offset p))) by (apply one_app; [lit|apply rd_number; auto]).
    cbn [app]. reflexivity. }
  split; [exact EL|]. rewrite EL.
  assert (HI : forall l, Forall boxed (map indented l)) by (intros l; apply Forall_forall; intros x HX; apply in_map_iff in HX; destruct HX as (y & <- & _); apply boxed_indented).
  rewrite !Forall_app. refine (conj _ (conj (HI _) (conj _ (conj (HI _) _)))).
  - apply Forall_cons; [apply (line_in "┏"); auto|]. apply Forall_cons; [apply (line_in "┃" " PHYSICAL MODEL"); auto|]. apply Forall_cons; [apply (line_in "┣"); auto|].
    apply Forall_cons; [apply (line_in "┣" ("━ mtype: " +++ type_name (p_mtype p))); auto|]. apply Forall_cons; [apply (line_in "┣" "━ raw_interactions:"); auto|]. apply Forall_cons; [apply (line_in "┃" "  linear:"); auto|constructor].
  - apply Forall_cons; [apply (line_in "┃" "  quadratic:"); auto|constructor].
  - apply Forall_cons; [apply (line_in "┣" ("━ offset: " +++ sh_number rd (p_offset p))); auto|]. apply Forall_cons; [apply (line_in "┗"); auto|constructor].
Qed.

(** ** C122: the publisher *)
Lemma publish_spec fl w e : forall fuel i, publish fl w e fuel i =
  if (Z.of_nat i <=? e)%Z && (e <? Z.of_nat (i + fuel))%Z then (map (message fl w) (seq i (Z.to_nat e - i + 1)), true) else (map (message fl w) (seq i fuel), false).
Proof.
  induction fuel as [|k IH]; intros i; cbn [publish].
  - destruct (Z.leb_spec (Z.of_nat i) e), (Z.ltb_spec e (Z.of_nat (i + 0))); cbn [andb]; try reflexivity. lia.
  - rewrite IH. destruct (Z.eqb_spec (Z.of_nat i) e) as [EQ|NE], (Z.leb_spec (Z.of_nat i) e), (Z.ltb_spec e (Z.of_nat (i + S k))), (Z.leb_spec (Z.of_nat (S i)) e), (Z.ltb_spec e (Z.of_nat (S i + k))); try lia; cbn [andb].
    all: try reflexivity.
    + replace (Z.to_nat e - i + 1)%nat with 1%nat by lia. reflexivity.
    + replace (Z.to_nat e - i + 1)%nat with (S (Z.to_nat e - S i + 1)) by lia. reflexivity.
Qed.
(** With --incremental-end=n the program publishes the messages of the rounds 1 to n, whatever their kind, and ends; with
    n <= 0 it never ends. Watched for fewer rounds, it has published one message per round. *)
Theorem C122_rounds : forall fl w n rounds,
  ((1 <= n)%Z -> (n <= Z.of_nat rounds)%Z -> published fl w n rounds = (map (message fl w) (seq 1 (Z.to_nat n)), true)) /\
  ((n < 1)%Z \/ (Z.of_nat rounds < n)%Z -> published fl w n rounds = (map (message fl w) (seq 1 rounds), false)).
Proof.
  intros fl w n rounds. unfold published. rewrite publish_spec. split.
  - intros H1 H2. destruct (Z.leb_spec (Z.of_nat 1) n), (Z.ltb_spec n (Z.of_nat (1 + rounds))); try lia. cbn [andb]. replace (Z.to_nat n - 1 + 1)%nat with (Z.to_nat n) by lia. reflexivity.
  - intros H. destruct (Z.leb_spec (Z.of_nat 1) n), (Z.ltb_spec n (Z.of_nat (1 + rounds))); try lia; reflexivity.
Qed.
(** What the message of a round is: the first of --random-text, --random-number, --random-city,
    --incremental-text and --incremental-number that is given decides, else it tells the time. *)
Theorem C122_messages : forall w n rounds a b c d, (1 <= n)%Z -> (n <= Z.of_nat rounds)%Z ->
  fst (published (mkFlags true a b c d) w n rounds) = map (pw_text w) (seq 1 (Z.to_nat n)) /\
  fst (published (mkFlags false false true c d) w n rounds) = map (pw_city w) (seq 1 (Z.to_nat n)) /\
  fst (published (mkFlags false false false false false) w n rounds) = map (fun i => "This is a test message at " +++ pw_now w i +++ ".") (seq 1 (Z.to_nat n)).
Proof. intros w n rounds a b c d H1 H2. rewrite !(proj1 (C122_rounds _ w n rounds) H1 H2). repeat split. Qed.
(** With --incremental-number the subscriber's number filter receives exactly 1, 2, ..., n. *)
Theorem C122_incremental_number : forall w n rounds, (1 <= n)%Z -> (n <= Z.of_nat rounds)%Z ->
  read_as_number None (fst (published (mkFlags false false false false true) w n rounds)) = Ok (map Z.of_nat (seq 1 (Z.to_nat n))).
Proof.
  intros w n rounds H1 H2. rewrite (proj1 (C122_rounds _ w n rounds) H1 H2). cbn [fst]. apply C57_roundtrip.
Qed.
(** With --random-number it receives the numbers drawn. *)
Theorem C122_random_number : forall w n rounds a b c, (1 <= n)%Z -> (n <= Z.of_nat rounds)%Z ->
  read_as_number None (fst (published (mkFlags false true a b c) w n rounds)) = Ok (map (fun i => Z.of_nat (pw_number w i)) (seq 1 (Z.to_nat n))).
Proof.
  intros w n rounds a b c H1 H2. rewrite (proj1 (C122_rounds _ w n rounds) H1 H2). cbn [fst].
  rewrite <- (map_map (pw_number w) Z.of_nat), <- C57_roundtrip, map_map. reflexivity.
Qed.
(** With --incremental-text the message of round i has i characters. *)
Theorem C122_incremental_text : forall w n rounds b, (1 <= n)%Z -> (n <= Z.of_nat rounds)%Z ->
  map String.length (fst (published (mkFlags false false false true b) w n rounds)) = seq 1 (Z.to_nat n).
Proof.
  intros w n rounds b H1 H2. rewrite (proj1 (C122_rounds _ w n rounds) H1 H2). cbn [fst]. rewrite map_map. rewrite <- map_id. apply map_ext. intros i. cbn [message fl_text fl_number fl_city fl_inc_text].
  assert (H : forall f k from, String.length (letters f from k) = k) by (intros f; induction k as [|k IH]; intros from; cbn; auto). apply H.
Qed.

(** Its characters are the letters drawn, in order. *)
Theorem C122_drawn_letters : forall w n rounds b i t, (1 <= n)%Z -> (n <= Z.of_nat rounds)%Z ->
  nth_error (fst (published (mkFlags false false false true b) w n rounds)) i = Some t -> forall j, (j <= i)%nat -> String.get j t = Some (pw_letter w (S i) j).
Proof.
  intros w n rounds b i t H1 H2. rewrite (proj1 (C122_rounds _ w n rounds) H1 H2). cbn [fst]. rewrite nth_error_map. destruct (nth_error (seq 1 (Z.to_nat n)) i) as [k|] eqn:EK; [|discriminate].
  assert (k = S i).
  { pose proof (nth_error_Some (seq 1 (Z.to_nat n)) i) as [HL _]. rewrite EK in HL. specialize (HL ltac:(discriminate)). rewrite seq_length in HL.
    apply nth_error_nth with (d := O) in EK. rewrite seq_nth in EK by auto. lia. }
  subst k. intros E. injection E as <-. intros j HJ. cbn [message fl_text fl_number fl_city fl_inc_text].
  assert (G : forall f k from j, (j < k)%nat -> String.get j (letters f from k) = Some (f (from + j)%nat)).
  { intros f. induction k as [|k IH]; intros from j0 HJ0; [lia|]. destruct j0 as [|j0]; cbn [letters String.get]; [rewrite Nat.add_0_r; reflexivity|]. rewrite IH by lia. rewrite Nat.add_succ_r. reflexivity. }
  rewrite G by lia. reflexivity.
Qed.

(** ** C123: time and profiling *)
Lemma floor_scale (x : Qc) (k : Z) : (0 < k)%Z -> (Qfloor (this x) = Qfloor (this (x * qz k)%Qc) / k)%Z.
Proof.
  intros KP. set (y := (x * qz k)%Qc). apply Z.div_unique with (r := (Qfloor (this y) - k * Qfloor (this x))%Z); [left|lia].
  assert (EY : (this y == this x * inject_Z k)%Q) by (unfold y, qz, Qcmult, Q2Qc; cbn [this]; rewrite !Qred_correct; reflexivity).
  pose proof (Qfloor_le (this x)) as A1. pose proof (Qlt_floor (this x)) as A2. pose proof (Qfloor_le (this y)) as B1. pose proof (Qlt_floor (this y)) as B2.
  assert (KQ : (0 < inject_Z k)%Q) by (change 0%Q with (inject_Z 0); rewrite <- Zlt_Qlt; exact KP).
  set (a := Qfloor (this x)) in *. set (b := Qfloor (this y)) in *. split.
  - assert (inject_Z (k * a) < inject_Z (b + 1))%Q.
    { eapply Qle_lt_trans; [|exact B2]. rewrite EY, inject_Z_mult, Qmult_comm. apply Qmult_le_compat_r; [exact A1|apply Qlt_le_weak; exact KQ]. }
    rewrite <- Zlt_Qlt in H. lia.
  - assert (inject_Z b < inject_Z ((a + 1) * k))%Q.
    { eapply Qle_lt_trans; [exact B1|]. rewrite EY, inject_Z_mult. apply Qmult_lt_compat_r; [exact KQ|exact A2]. }
    rewrite <- Zlt_Qlt in H. lia.
Qed.
Lemma to_int_floor q : (0 <= q)%Qc -> to_int q = Qfloor (this q).
Proof. intros H. unfold to_int. destruct (Qclt_bool q 0) eqn:E; [|reflexivity]. unfold Qclt_bool in E. apply negb_true_iff in E. unfold Qcle_bool in E. unfold Qcle in H. apply Qle_bool_iff in H. cbn in *. congruence. Qed.
Lemma qz_nonneg z : (0 <= z)%Z -> (0 <= qz z)%Qc.
Proof. intros H. unfold Qcle, qz, Q2Qc. cbn [this]. rewrite !Qred_correct. rewrite Zle_Qle in H. exact H. Qed.
(** How many units make a second. *)
Definition ticks (u : tunit) : Z := match u with Sec => 1 | Ms => 1000 | Us => 1000 * 1000 | Ns => 1000 * 1000 * 1000 end%Z.
Definition coarser (u v : tunit) : Prop := (ticks u <= ticks v)%Z.
(** The time is the number of units since the epoch; as an integer, those completed. *)
Theorem C123_time : forall u t, current_time u t = (t * qz (ticks u))%Qc /\
  ((0 <= t)%Qc -> (qz (current_time_as_int u t) <= t * qz (ticks u))%Qc /\ (t * qz (ticks u) < qz (current_time_as_int u t + 1))%Qc).
Proof.
  intros u t. assert (E : current_time u t = (t * qz (ticks u))%Qc) by (destruct u; reflexivity). split; auto. intros HT.
  unfold current_time_as_int. rewrite E. rewrite to_int_floor.
  - split.
    + unfold Qcle, qz, Q2Qc. cbn [this]. rewrite Qred_correct. apply Qfloor_le.
    + unfold Qclt, qz at 2, Q2Qc. cbn [this]. rewrite Qred_correct. apply Qlt_floor.
  - rewrite <- (Qcmult_0_l (qz (ticks u))). apply Qcmult_le_compat_r; [exact HT|]. apply qz_nonneg. destruct u; cbn; lia.
Qed.
(** At the same instant (after the epoch) the integer times in two units agree: the one in the coarser unit is the one in the finer
    unit, rounded down. *)
(** Before the epoch the integer time counts the completed units backwards. *)
Theorem C123_before_epoch : forall u t, current_time_as_int u (- t)%Qc = (- current_time_as_int u t)%Z.
Proof.
  intros u t. unfold current_time_as_int. rewrite !(proj1 (C123_time u _)). replace (- t * qz (ticks u))%Qc with (- (t * qz (ticks u)))%Qc by ring.
  generalize (t * qz (ticks u))%Qc. intros q. destruct (Qc_dec q 0) as [[H|H]|H].
  - rewrite (to_int_floor (- q)%Qc) by (apply Qcopp_le_compat in H || (pose proof (Qcopp_le_compat _ _ (Qclt_le_weak _ _ H)) as K; exact K)).
    unfold to_int. rewrite (proj2 (SolverProofs.Qclt_bool_iff q 0) H). lia.
  - rewrite (to_int_floor q) by (apply Qclt_le_weak; exact H). unfold to_int.
    assert (N : (- q < 0)%Qc) by (apply Qclt_minus_iff in H; apply Qclt_minus_iff; replace (0 + - - q)%Qc with (q + - 0)%Qc by ring; exact H).
    rewrite (proj2 (SolverProofs.Qclt_bool_iff (- q)%Qc 0) N). rewrite Qcopp_involutive. reflexivity.
  - subst q. vm_compute. reflexivity.
Qed.
Theorem C123_units : forall u v t, (0 <= t)%Qc -> coarser u v ->
  current_time_as_int u t = (current_time_as_int v t / (ticks v / ticks u))%Z /\
  current_time v t = (current_time u t * qz (ticks v / ticks u))%Qc.
Proof.
  intros u v t HT HC. assert (HF : (ticks v = ticks u * (ticks v / ticks u))%Z /\ (0 < ticks v / ticks u)%Z).
  { unfold coarser in HC. destruct u, v; cbn [ticks] in *; try lia; split; reflexivity. }
  destruct HF as [HF HP]. assert (HM : current_time v t = (current_time u t * qz (ticks v / ticks u))%Qc).
  { rewrite !(proj1 (C123_time _ t)). rewrite HF at 1. rewrite qz_mul. ring. }
  split; [|exact HM]. unfold current_time_as_int. assert (PU : forall x, (0 <= current_time x t)%Qc).
  { intros x. rewrite (proj1 (C123_time x t)). rewrite <- (Qcmult_0_l (qz (ticks x))). apply Qcmult_le_compat_r; [exact HT|]. apply qz_nonneg. destruct x; cbn; lia. }
  rewrite !to_int_floor by apply PU. rewrite (floor_scale _ _ HP), HM. reflexivity.
Qed.
(** A profiled function does what the function does: the same effect and the same exception, and the result with its name and the time
    between two readings of the clock. *)
Theorem C123_profile : forall {S A R} name (f : A -> M S R) clock a s,
  fst (profile name f clock a s) = fst (f a s) /\
  match snd (f a s) with
  | Ok r => snd (profile name f clock a s) = Ok (r, (name, (clock 1%nat - clock 0%nat)%Qc))
  | Err e => snd (profile name f clock a s) = Err e
  end.
Proof.
  intros S A R name f clock a s. unfold profile. destruct (f a s) as [s' [r|e]]; cbn [fst snd]; split; auto.
Qed.

(** ** The hypotheses can be met *)
Definition two_lines : renderer :=
  mkRenderer (fun _ => "['x']") (fun _ => "x" +++ String newline "y") (fun _ _ => "t" +++ String newline "u") (fun _ _ => "[]") (fun _ => "0") (fun _ => "{}") (fun _ => "{}") (fun _ => "{}") (fun _ => "") (fun _ => "") (fun _ => "0").
Example C121_hyps : renders two_lines /\ (forall n, In n (dkeys (m_vars qubo_model)) -> one_line n) /\
  exists s, str_logical two_lines qubo_model = (qubo_model, Ok s) /\ length (split_lines s) = 15.
Proof.
  split; [split; intros; cbn; repeat split; discriminate|]. split.
  - intros n HN. assert (HD : dkeys (m_vars qubo_model) = ["q"]) by (vm_compute; reflexivity). rewrite HD in HN. destruct HN as [<-|[]]. cbn. repeat split; discriminate.
  - eexists. split; vm_compute; reflexivity.
Qed.
Definition pub0 : pubworld := mkPubWorld (fun _ => "a.") (fun i => i * 7) (fun _ => "{}") (fun _ _ => "x"%char) (fun _ => "now").
Example C122_hyps : published (mkFlags false false false false true) pub0 3 5 = (["1"; "2"; "3"], true) /\
  published (mkFlags false false false false true) pub0 (-1) 2 = (["1"; "2"], false) /\ published (mkFlags false true false false false) pub0 2 5 = (["7"; "14"], true) /\
  published (mkFlags false false false true false) pub0 3 5 = (["x"; "xx"; "xxx"], true).
Proof. repeat split. Qed.
Example C123_hyps : (0 <= qfrac 12345678 1000)%Qc /\ coarser Sec Ms /\ current_time_as_int Sec (qfrac 12345678 1000) = 12345%Z /\ current_time_as_int Ms (qfrac 12345678 1000) = 12345678%Z.
Proof. split; [discriminate|]. split; [unfold coarser; cbn; lia|]. split; vm_compute; reflexivity. Qed.
Print Assumptions C121_raises.
Print Assumptions C121_aligned.
Print Assumptions C121_lines.
Print Assumptions C121_box.
Print Assumptions C121_line_break.
Print Assumptions C121_split.
Print Assumptions C121_strips.
Print Assumptions C121_leading_spaces.
Print Assumptions C121_repr.
Print Assumptions C121_repr_parts.
Print Assumptions C121_physical.
Print Assumptions C122_rounds.
Print Assumptions C122_messages.
Print Assumptions C122_incremental_number.
Print Assumptions C122_random_number.
Print Assumptions C122_incremental_text.
Print Assumptions C122_drawn_letters.
Print Assumptions C123_time.
Print Assumptions C123_before_epoch.
Print Assumptions C123_units.
Print Assumptions C123_profile.
