(** * PropsCommute: C135 updates and removals of different interactions are independent of each other. *)
From Coq Require Import Permutation.
From Verif Require Import PyBase PyLemmas Numbers Constraint LogicalModel Spec LogicalProofs EnergyProofs Samples InteractionProofs PropsInteractions PropsOrder.
Local Open Scope string_scope.
Local Open Scope list_scope.

(** ** Specification *)

(** One call of update_interaction or remove_interaction, with the clock at its time. *)
Inductive edit :=
| Update (ev : env) (t : target) (n : narg) (co sc : option carg) (a : attrarg) (ts : tsarg)
| Remove (t : target) (n : narg).
Definition perform (e : edit) : LM unit :=
  match e with
  | Update ev t n co sc a ts => update_interaction ev t n co sc a ts
  | Remove t n => remove_interaction t n
  end.
(** The calls, one after the other; the first that raises ends it. *)
Definition performs (l : list (string * edit)) : LM unit := mfor l (fun p => perform (snd p)).
(** The call is about the interaction named [nm] of the model; its attributes are a python dictionary. *)
Definition concerns (m : lmodel) (p : string * edit) : Prop :=
  In (fst p) (names m) /\
  match snd p with
  | Update ev t n co sc a ts => refers t n (fst p) /\ attrs_wf a
  | Remove t n => refers t n (fst p)
  end.
(** The calls are about interactions of the model, each about a different one. *)
Definition separate (m : lmodel) (l : list (string * edit)) : Prop := Forall (concerns m) l /\ NoDup (map fst l).
(** The interaction named [nm] is the same in both models. *)
Definition same_interaction (m m' : lmodel) (nm : string) : Prop :=
  (forall r, r_name r = nm -> (In r (m_rows m) <-> In r (m_rows m'))) /\ (forall k, attr_of m nm k = attr_of m' nm k).

(** ** One call *)
Definition row_change (e : edit) : option (row -> row) :=
  match e with
  | Remove _ _ => Some rm
  | Update _ _ _ co sc a ts =>
      match check_opt_num co, check_opt_num sc, check_opt_attrs a, check_opt_ts ts with
      | Ok c, Ok s, Ok _, Ok q => Some (upd_fields c s q)
      | _, _, _, _ => None
      end
  end.
Definition attr_change (e : edit) (k : string) : option aval := match e with Update _ _ _ _ _ a _ => given a k | Remove _ _ => None end.
Definition needs_active (e : edit) : bool := match e with Update _ _ _ _ _ _ _ => true | Remove _ _ => false end.
Definition at_name (nm : string) (f : row -> row) (r : row) : row := if String.eqb (r_name r) nm then f r else r.
Definition fine (m : lmodel) (p : string * edit) : Prop :=
  row_change (snd p) <> None /\ (needs_active (snd p) = true -> forall r, In r (m_rows m) -> r_name r = fst p -> active r).

Lemma change_name e f : row_change e = Some f -> forall r, r_name (f r) = r_name r.
Proof.
  destruct e as [ev t n co sc a ts|t n]; cbn [row_change].
  - destruct (check_opt_num co) as [c|]; [|discriminate]. destruct (check_opt_num sc) as [s|]; [|discriminate]. destruct (check_opt_attrs a); [|discriminate]. destruct (check_opt_ts ts); [|discriminate].
    intros H r. injection H as <-. destruct c, s; reflexivity.
  - intros H r. injection H as <-. reflexivity.
Qed.
Lemma at_other nm f l : ~ In nm (map r_name l) -> map (at_name nm f) l = l.
Proof.
  induction l as [|r l IH]; intros H; [reflexivity|]. cbn [map] in *. rewrite IH by (intros C; apply H; right; exact C). unfold at_name. destruct (String.eqb_spec (r_name r) nm); [|reflexivity]. exfalso. apply H. left. exact e.
Qed.
Lemma at_mid nm f l1 x l2 : NoDup (map r_name (l1 ++ x :: l2)) -> r_name x = nm -> map (at_name nm f) (l1 ++ x :: l2) = l1 ++ f x :: l2.
Proof.
  intros HN HX. rewrite map_app in HN. cbn [map] in HN. apply NoDup_remove in HN. destruct HN as [_ HN]. rewrite HX in HN. rewrite map_app. cbn [map].
  rewrite !at_other by (intros C; apply HN, in_or_app; auto). unfold at_name. rewrite HX, String.eqb_refl. reflexivity.
Qed.
Lemma attr_of_mid m l1 x l2 k : m_rows m = l1 ++ x :: l2 -> ~ In (r_name x) (map r_name l1) -> attr_of m (r_name x) k = attr_val m (length l1) k.
Proof.
  intros E H. unfold attr_of, names. rewrite E, map_app. cbn [map]. rewrite index_of_mid by exact H. rewrite map_length. reflexivity.
Qed.
Lemma attr_of_same m m' n k : names m' = names m -> (forall i, index_of n (names m) = Some i -> attr_val m' i k = attr_val m i k) -> attr_of m' n k = attr_of m n k.
Proof. intros E H. unfold attr_of. rewrite E. destruct (index_of n (names m)) as [i|]; auto. Qed.
Lemma names_at m m' nm f : (forall r, r_name (f r) = r_name r) -> m_rows m' = map (at_name nm f) (m_rows m) -> names m' = names m.
Proof. intros F E. unfold names. rewrite E, map_map. apply map_ext. intros r. unfold at_name. destruct (String.eqb (r_name r) nm); auto. Qed.
Lemma index_in_mid n l1 x l2 i : index_of n (map r_name (l1 ++ x :: l2)) = Some i -> n <> r_name x -> i <> length l1.
Proof.
  intros E N H. apply index_of_some in E. subst i. assert (X : nth_error (map r_name (l1 ++ x :: l2)) (length l1) = Some (r_name x)) by (rewrite map_app, nth_error_app2, map_length, Nat.sub_diag by (rewrite map_length; auto); reflexivity).
  congruence.
Qed.

(** What one call does, when it returns. *)
Lemma one_effect m m' p : rect m -> NoDup (names m) -> concerns m p -> perform (snd p) m = (m', Ok tt) ->
  exists f, row_change (snd p) = Some f /\ fine m p /\ m_rows m' = map (at_name (fst p) f) (m_rows m) /\ rect m' /\ same_rest m m' /\ m_attrs m' = m_attrs m /\ m_len m' = m_len m /\
    forall n k, attr_of m' n k = if String.eqb n (fst p) then match attr_change (snd p) k with Some v => v | None => attr_of m n k end else attr_of m n k.
Proof.
  intros HR HU [HI HC] E. destruct p as [nm e]. cbn [fst snd] in *. destruct e as [ev t n co sc a ts|t n]; cbn [perform] in E.
  - destruct HC as [HF HW]. pose proof (proj2 (internal_name_spec t n m nm) (conj HF HI)) as EIN.
    destruct (update_split ev t n co sc a ts m) as [(e' & E')|(c&s&d&q&U&[(nm'&l1&x&l2&EI&ER&HX&HN&HRm&E')|(NT&(inf&EI&HH)&E')])].
    + congruence.
    + rewrite EIN in EI. injection EI as <-. pose proof U as [U1 U2 U3 U4].
      assert (ND : forall d0, d = Some d0 -> NoDup (dkeys d0)).
      { intros d0 ->. destruct a; simpl in U3; inversion U3; subst. apply HW; auto. }
      assert (HNX : ~ In (r_name x) (map r_name l1)) by congruence.
      destruct (update_at_rect m l1 x l2 c s d q HR ER HNX ND) as (z & Ez & R & C & L & A & V1 & V2 & V3 & _).
      rewrite HX in Ez. rewrite E', Ez in E. injection E as ->.
      assert (RC : row_change (Update ev t n co sc a ts) = Some (upd_fields c s q)) by (cbn [row_change]; rewrite U1, U2, U3, U4; reflexivity).
      assert (RW : m_rows m' = map (at_name nm (upd_fields c s q)) (m_rows m)).
      { rewrite (core_rows _ _ C). cbn [m_rows with_rows]. rewrite ER. symmetry. apply at_mid; auto. unfold names in HU. rewrite ER in HU. exact HU. }
      assert (NM : names m' = names m) by (apply (names_at m m' nm (upd_fields c s q)); [exact (change_name _ _ RC)|exact RW]).
      exists (upd_fields c s q). split; [exact RC|]. split.
      { split; [cbn [snd]; congruence|]. intros _ r Hr Hn. cbn [fst] in Hn.
        assert (r = x); [|subst r; exact HRm]. rewrite ER in Hr. unfold names in HU. rewrite ER, map_app in HU. cbn [map] in HU. apply NoDup_remove in HU. destruct HU as [_ HU].
        apply in_app_or in Hr. destruct Hr as [Hr|[<-|Hr]]; [exfalso; apply HU, in_or_app; left; rewrite HX, <- Hn; apply in_map; exact Hr|reflexivity|exfalso; apply HU, in_or_app; right; rewrite HX, <- Hn; apply in_map; exact Hr]. }
      split; [exact RW|]. split; [exact R|]. split; [unfold core in C; simpl in C; inversion C; repeat split; auto|]. split; [exact A|]. split; [exact L|].
      intros n0 k. cbn [attr_change]. destruct (String.eqb_spec n0 nm) as [->|NE].
      * assert (X1 : attr_of m nm k = attr_val m (length l1) k) by (rewrite <- HX; apply (attr_of_mid m l1 x l2); auto).
        assert (X2 : attr_of m' nm k = attr_val m' (length l1) k) by (unfold attr_of in *; rewrite NM; unfold names; rewrite ER, map_app; cbn [map]; rewrite <- HX, index_of_mid, map_length by exact HNX; reflexivity).
        rewrite X1, X2. set (d0 := match d with Some d0 => d0 | None => [] end) in *.
        assert (HG : match given a k with
          | Some v => exists k', k = attr_key k' /\ dget k' d0 = Some v
          | None => forall k', In k' (dkeys d0) -> k <> attr_key k' end).
        { apply given_attr.
          - unfold d0. destruct a; simpl in *; inversion U3; reflexivity.
          - unfold d0. destruct d; [auto|constructor]. }
        destruct (given a k) as [v|]; [destruct HG as (k' & -> & HG); apply V2; auto|apply V3; auto].
      * apply attr_of_same; [exact NM|]. intros i Hi. apply V1. unfold names in Hi. rewrite ER in Hi. apply (index_in_mid _ _ _ _ _ Hi). congruence.
    + exfalso. unfold has_name in HH. apply mem_nin in HH. apply HH. destruct HF as [[_ [i HD]]|(-> & -> & HNE)].
      * apply denotes_info in HD. rewrite EI in HD. inversion HD; subst; auto.
      * simpl in EI. discriminate.
  - apply remove_cases in E. destruct E as [(e' & X & _)|(_&nm'&l1&x&l2&EI&ER&EN&HN&->)]; [discriminate|].
    pose proof (proj2 (internal_name_spec t n m nm) (conj HC HI)) as EIN. rewrite EIN in EI. injection EI as <-.
    assert (RW : l1 ++ rm x :: l2 = map (at_name nm rm) (m_rows m)).
    { rewrite ER. symmetry. apply at_mid; auto. unfold names in HU. rewrite ER in HU. exact HU. }
    exists rm. split; [reflexivity|]. split; [split; [discriminate|discriminate]|]. split; [exact RW|].
    assert (HL : length (l1 ++ rm x :: l2) = length (m_rows m)) by (rewrite ER, !app_length; reflexivity).
    split; [destruct HR as (A & B & C); split; [cbn; rewrite HL; exact A|split; [exact B|exact C]]|]. split; [repeat split|]. split; [reflexivity|]. split; [reflexivity|].
    intros n0 k. cbn [attr_change]. assert (X : attr_of (with_rows (l1 ++ rm x :: l2) m) n0 k = attr_of m n0 k); [|rewrite X; destruct (String.eqb n0 nm); reflexivity].
    apply attr_of_same; [|reflexivity]. apply (names_at m _ nm rm); [reflexivity|exact RW].
Qed.
(** When it returns. *)
Lemma one_succeeds m p : rect m -> concerns m p -> fine m p -> exists m', perform (snd p) m = (m', Ok tt).
Proof.
  intros HR [HI HC] [F1 F2]. destruct p as [nm e]. cbn [fst snd] in *. assert (HH : has_name m nm = true) by (apply mem_in; exact HI).
  destruct (has_name_split m nm HH) as (l1 & x & l2 & ER & HX & HN). destruct e as [ev t n co sc a ts|t n]; cbn [perform].
  - destruct HC as [HF HW]. assert (AX : r_removed x = false) by (apply (F2 eq_refl x); [rewrite ER; apply in_or_app; right; left; reflexivity|exact HX]).
    cbn [row_change] in F1. destruct (check_opt_num co) as [c|] eqn:U1; [|congruence]. destruct (check_opt_num sc) as [s|] eqn:U2; [|congruence].
    destruct (check_opt_attrs a) as [d|] eqn:U3; [|congruence]. destruct (check_opt_ts ts) as [q|] eqn:U4; [|congruence].
    assert (EU : update_interaction ev t n co sc a ts m = update_at nm c s d q m).
    { assert (HRm : is_removed m nm = Ok false) by (rewrite <- HX; rewrite (is_removed_mid m l1 x l2 ER); [rewrite AX; auto|congruence]).
      unfold update_interaction. cbv [bind guard lift get ret raise]. rewrite U1, U2, U3, U4.
      destruct HF as [[HNT [i HD]]|(-> & -> & HNE)].
      - rewrite (denotes_truthy _ _ _ HD), HNT. simpl.
        assert (EO : opt_info t = Ok (Some (mkInfo i (inter_key i) nm))).
        { unfold opt_info. rewrite (proj1 (denotes_info _ _ _) HD). inversion HD; reflexivity. }
        rewrite EO. simpl. rewrite HH, HRm. reflexivity.
      - simpl. apply String.eqb_neq in HNE. rewrite HNE. simpl. rewrite HH, HRm. reflexivity. }
    subst nm. destruct (update_at_rect m l1 x l2 c s d q HR ER HN) as (z & Ez & _).
    { intros d0 ->. destruct a; simpl in U3; inversion U3; subst. apply HW; auto. }
    exists z. rewrite EU. exact Ez.
  - apply C06_succeeds_iff. exists nm. auto.
Qed.

(** ** Many calls *)
Definition row_after (l : list (string * edit)) (r : row) : row :=
  match dget (r_name r) l with Some e => match row_change e with Some f => f r | None => r end | None => r end.
Definition attr_after (l : list (string * edit)) (n k : string) (v0 : aval) : aval :=
  match dget n l with Some e => match attr_change e k with Some v => v | None => v0 end | None => v0 end.
Lemma dget_out {B} (l : list (string * B)) n : ~ In n (map fst l) -> dget n l = None.
Proof.
  induction l as [|[a b] l IH]; intros H; [reflexivity|]. cbn [dget]. cbn [map fst In] in H. destruct (eqb n a) eqn:E; [exfalso; apply H; left; symmetry; apply eqb_eq; exact E|apply IH; intros C; apply H; right; exact C].
Qed.
Lemma dget_here {B} (l : list (string * B)) n b : NoDup (map fst l) -> In (n, b) l -> dget n l = Some b.
Proof.
  induction l as [|[a c] l IH]; intros N H; [contradiction|]. cbn [map fst] in N. inversion N as [|? ? N1 N2]; subst. cbn [dget]. destruct H as [H|H].
  - injection H as -> ->. rewrite eqb_refl. reflexivity.
  - destruct (eqb n a) eqn:E; [|apply IH; auto]. exfalso. apply N1. apply eqb_eq in E. subst a. apply (in_map fst) in H. exact H.
Qed.
Lemma dget_found {B} (l : list (string * B)) n b : dget n l = Some b -> In (n, b) l.
Proof. induction l as [|[a c] l IH]; cbn [dget]; [discriminate|]. destruct (eqb n a) eqn:E; intros H; [apply eqb_eq in E; left; congruence|right; auto]. Qed.
Lemma dget_shuffle {B} (l l' : list (string * B)) n : NoDup (map fst l) -> Permutation l l' -> dget n l = dget n l'.
Proof.
  intros N P. assert (N' : NoDup (map fst l')) by (eapply Permutation_NoDup; [apply Permutation_map; exact P|exact N]).
  destruct (dget n l) as [b|] eqn:E; [symmetry; apply dget_here; auto; apply (Permutation_in _ P); apply dget_found; exact E|].
  destruct (dget n l') as [b|] eqn:E'; [|reflexivity]. apply dget_found in E'. apply (Permutation_in _ (Permutation_sym P)) in E'. apply (dget_here _ _ _ N) in E'. congruence.
Qed.

Lemma others_kept m m' (p q : string * edit) f : (forall r, r_name (f r) = r_name r) -> m_rows m' = map (at_name (fst p) f) (m_rows m) -> fst q <> fst p ->
  (concerns m q <-> concerns m' q) /\ (fine m q <-> fine m' q).
Proof.
  intros F E N. split.
  - unfold concerns. rewrite (names_at m m' (fst p) f F E). reflexivity.
  - unfold fine. rewrite E. split; intros [A B]; split; auto; intros H r HI HN.
    + apply in_map_iff in HI. destruct HI as (r0 & <- & HI). unfold at_name in *. destruct (String.eqb_spec (r_name r0) (fst p)) as [EQ|NE]; [rewrite F in HN; congruence|apply (B H); auto].
    + apply (B H); auto. apply in_map_iff. exists r. split; auto. unfold at_name. destruct (String.eqb_spec (r_name r) (fst p)) as [EQ|NE]; [congruence|reflexivity].
Qed.
Lemma separate_tail m m' (p : string * edit) l f : (forall r, r_name (f r) = r_name r) -> m_rows m' = map (at_name (fst p) f) (m_rows m) -> separate m (p :: l) -> separate m' l.
Proof.
  intros F E [H1 H2]. inversion H1 as [|? ? H3 H4]; subst. cbn [map] in H2. inversion H2 as [|? ? H5 H6]; subst. split; auto. rewrite Forall_forall in *. intros q HQ.
  apply (others_kept m m' p q f F E); auto. intros C. apply H5. rewrite <- C. apply in_map. exact HQ.
Qed.
Lemma many_effect l : forall m m', rect m -> NoDup (names m) -> separate m l -> performs l m = (m', Ok tt) ->
  Forall (fine m) l /\ m_rows m' = map (row_after l) (m_rows m) /\ rect m' /\ same_rest m m' /\ m_attrs m' = m_attrs m /\ m_len m' = m_len m /\ forall n k, attr_of m' n k = attr_after l n k (attr_of m n k).
Proof.
  induction l as [|p l IH]; intros m m' HR HU HS E.
  - injection E as <-. split; [constructor|]. split; [symmetry; apply map_id|]. split; [exact HR|]. repeat split.
  - unfold performs in E. cbn [mfor] in E. fold (performs l) in E. unfold bind at 1 in E. destruct (perform (snd p) m) as [m1 [[]|e]] eqn:EP; [|discriminate].
    assert (HC : concerns m p) by (destruct HS as [H _]; inversion H; auto). assert (HO : forall q, In q l -> fst q <> fst p).
    { intros q HQ C. destruct HS as [_ H]. cbn [map] in H. inversion H; subst. apply H2. rewrite <- C. apply in_map. exact HQ. }
    destruct (one_effect m m1 p HR HU HC EP) as (f & RC & FI & RW & R1 & S1 & A1 & L1 & V1). assert (F := change_name _ _ RC).
    assert (NM := names_at m m1 (fst p) f F RW). assert (HS1 := separate_tail m m1 p l f F RW HS).
    destruct (IH m1 m' R1) as (FL & RW2 & R2 & S2 & A2 & L2 & V2); auto; [rewrite NM; exact HU|].
    split; [constructor; auto; rewrite Forall_forall in *; intros q HQ; apply (others_kept m m1 p q f F RW (HO q HQ)); auto|].
    split.
    { rewrite RW2, RW, map_map. apply map_ext. intros r. unfold row_after. destruct p as [nm e]. cbn [fst snd] in *. cbn [dget]. unfold at_name. change (eqb (r_name r) nm) with (String.eqb (r_name r) nm).
      destruct (String.eqb_spec (r_name r) nm) as [EQ|NE]; [|reflexivity]. rewrite F, RC. rewrite dget_out; [reflexivity|]. intros C. apply in_map_iff in C. destruct C as (q & C & HQ). apply (HO q HQ). congruence. }
    split; [exact R2|]. split; [destruct S1 as (?&?&?&?&?&?&?), S2 as (?&?&?&?&?&?&?); repeat split; congruence|]. split; [congruence|]. split; [congruence|].
    intros n k. rewrite V2, V1. unfold attr_after. destruct p as [nm e]. cbn [fst snd] in *. cbn [dget]. change (eqb n nm) with (String.eqb n nm).
    destruct (String.eqb_spec n nm) as [->|NE]; [|reflexivity]. rewrite dget_out; [reflexivity|]. intros C. apply in_map_iff in C. destruct C as (q & C & HQ). apply (HO q HQ). exact C.
Qed.
Lemma many_succeed l : forall m, rect m -> NoDup (names m) -> separate m l -> Forall (fine m) l -> exists m', performs l m = (m', Ok tt).
Proof.
  induction l as [|p l IH]; intros m HR HU HS HF; [exists m; reflexivity|]. inversion HF as [|? ? HF1 HF2]; subst.
  assert (HC : concerns m p) by (destruct HS as [H _]; inversion H; auto). destruct (one_succeeds m p HR HC HF1) as [m1 EP].
  destruct (one_effect m m1 p HR HU HC EP) as (f & RC & FI & RW & R1 & S1 & A1 & L1 & V1). assert (F := change_name _ _ RC).
  destruct (IH m1) as [m' E]; auto.
  - rewrite (names_at m m1 (fst p) f F RW). exact HU.
  - exact (separate_tail m m1 p l f F RW HS).
  - rewrite Forall_forall in *. intros q HQ. apply (others_kept m m1 p q f F RW); auto. intros C. destruct HS as [_ H]. cbn [map] in H. inversion H; subst. apply H2. rewrite <- C. apply in_map. exact HQ.
  - exists m'. unfold performs. cbn [mfor]. unfold bind at 1. rewrite EP. exact E.
Qed.

(** ** C135 *)
Lemma separate_shuffle m l l' : Permutation l l' -> separate m l -> separate m l'.
Proof.
  intros P [A B]. split; [rewrite Forall_forall in *; intros q HQ; apply A, (Permutation_in _ (Permutation_sym P)), HQ|].
  eapply Permutation_NoDup; [apply Permutation_map; exact P|exact B].
Qed.
(** In any order, the same calls give the same interactions with the same attributes, and the rest of the model is the same. *)
Theorem C135_order : forall l l' m m1, aligned m -> names_unique m -> separate m l -> Permutation l l' -> performs l m = (m1, Ok tt) ->
  exists m2, performs l' m = (m2, Ok tt) /\ m_rows m1 = m_rows m2 /\ (forall n k, attr_of m1 n k = attr_of m2 n k) /\
    same_rest m1 m2 /\ m_attrs m1 = m_attrs m2 /\ m_len m1 = m_len m2 /\ forall fd s, energy fd s m1 = energy fd s m2.
Proof.
  intros l l' m m1 HA HU HS P E. apply aligned_rect in HA. assert (HS' := separate_shuffle m l l' P HS).
  destruct (many_effect l m m1 HA HU HS E) as (F1 & W1 & R1 & S1 & A1 & L1 & V1).
  destruct (many_succeed l' m HA HU HS') as [m2 E2]; [rewrite Forall_forall in *; intros q HQ; apply F1, (Permutation_in _ (Permutation_sym P)), HQ|].
  destruct (many_effect l' m m2 HA HU HS' E2) as (F2 & W2 & R2 & S2 & A2 & L2 & V2).
  assert (D : forall n, dget n l = dget n l') by (intros n; apply dget_shuffle; [apply HS|exact P]).
  assert (W : m_rows m1 = m_rows m2) by (rewrite W1, W2; apply map_ext; intros r; unfold row_after; rewrite D; reflexivity).
  exists m2. split; [exact E2|]. split; [exact W|]. split; [intros n k; rewrite V1, V2; unfold attr_after; rewrite D; reflexivity|].
  split; [destruct S1 as (?&?&?&?&?&?&?), S2 as (?&?&?&?&?&?&?); repeat split; congruence|]. split; [congruence|]. split; [congruence|].
  intros fd s. rewrite !energy_csum, W. replace (m_offset m2) with (m_offset m1); [reflexivity|]. destruct S1 as (_&_&H1&_), S2 as (_&_&H2&_). congruence.
Qed.
(** They all return exactly when each of them, made alone, returns. *)
Theorem C135_returns : forall l m, aligned m -> names_unique m -> separate m l ->
  ((exists m1, performs l m = (m1, Ok tt)) <-> (forall p, In p l -> exists mp, perform (snd p) m = (mp, Ok tt))).
Proof.
  intros l m HA HU HS. apply aligned_rect in HA. split.
  - intros [m1 E] p HP. destruct (many_effect l m m1 HA HU HS E) as (F1 & _). rewrite Forall_forall in F1. apply one_succeeds; auto. destruct HS as [H _]. rewrite Forall_forall in H. auto.
  - intros H. apply many_succeed; auto. rewrite Forall_forall. intros p HP. destruct (H p HP) as [mp E]. destruct HS as [HC _]. rewrite Forall_forall in HC. destruct (one_effect m mp p HA HU (HC p HP) E) as (f & _ & FI & _). exact FI.
Qed.
(** Each interaction ends as its own call alone would leave it, and the interactions without a call stay as they were. *)
Lemma row_after_name m l r : Forall (fine m) l -> r_name (row_after l r) = r_name r.
Proof.
  intros F. unfold row_after. destruct (dget (r_name r) l) as [e|]; [|reflexivity]. destruct (row_change e) as [f|] eqn:EF; [|reflexivity]. apply (change_name e f EF).
Qed.
Lemma at_name_name nm f r : (forall r, r_name (f r) = r_name r) -> r_name (at_name nm f r) = r_name r.
Proof. intros F. unfold at_name. destruct (String.eqb (r_name r) nm); auto. Qed.
Theorem C135_each : forall l m m1, aligned m -> names_unique m -> separate m l -> performs l m = (m1, Ok tt) ->
  (forall p mp, In p l -> perform (snd p) m = (mp, Ok tt) -> same_interaction m1 mp (fst p)) /\
  (forall n, ~ In n (map fst l) -> same_interaction m1 m n).
Proof.
  intros l m m1 HA HU HS E. apply aligned_rect in HA. destruct (many_effect l m m1 HA HU HS E) as (F1 & W1 & R1 & S1 & A1 & L1 & V1). split.
  - intros p mp HP EP. destruct HS as [HC HN]. rewrite Forall_forall in HC. destruct (one_effect m mp p HA HU (HC p HP) EP) as (f & RC & _ & RW & _ & _ & _ & _ & V). destruct p as [nm e]. cbn [fst snd] in *.
    assert (D : dget nm l = Some e) by (apply dget_here; auto). assert (F := change_name _ _ RC).
    assert (EQ : forall r, r_name r = nm -> row_after l r = at_name nm f r) by (intros r Hr; unfold row_after, at_name; rewrite Hr, D, RC, String.eqb_refl; reflexivity).
    split.
    + intros r Hr. rewrite W1, RW. split; intros HI; apply in_map_iff in HI; destruct HI as (r0 & <- & HI); apply in_map_iff; exists r0.
      * rewrite (row_after_name m) in Hr by exact F1. split; [symmetry; apply EQ; exact Hr|exact HI].
      * rewrite at_name_name in Hr by exact F. split; [apply EQ; exact Hr|exact HI].
    + intros k. rewrite V1, V, String.eqb_refl. unfold attr_after. rewrite D. reflexivity.
  - intros n HN. assert (D : dget n l = None) by (apply dget_out; exact HN).
    assert (EQ : forall r, r_name r = n -> row_after l r = r) by (intros r Hr; unfold row_after; rewrite Hr, D; reflexivity). split.
    + intros r Hr. rewrite W1. split.
      * intros HI. apply in_map_iff in HI. destruct HI as (r0 & <- & HI). rewrite (row_after_name m) in Hr by exact F1. rewrite (EQ r0 Hr). exact HI.
      * intros HI. apply in_map_iff. exists r. split; [apply EQ; exact Hr|exact HI].
    + intros k. rewrite V1. unfold attr_after. rewrite D. reflexivity.
Qed.
(** The change of the energy is the sum of the changes the calls make alone. *)
Lemma sum_zeros {A} (l : list A) (g : A -> Qc) : (forall a, In a l -> g a = 0%Qc) -> qsum (map g l) = 0%Qc.
Proof. induction l as [|a l IH]; intros H; [reflexivity|]. cbn [map qsum]. rewrite IH by (intros b HB; apply H; right; exact HB). rewrite H by (left; reflexivity). ring. Qed.
Lemma change_one fd s l r (ff : string * edit -> row -> row) : NoDup (map fst l) -> (forall p, In p l -> row_change (snd p) = Some (ff p)) ->
  contribution fd s (row_after l r) = (contribution fd s r + qsum (map (fun p => contribution fd s (at_name (fst p) (ff p) r) - contribution fd s r) l))%Qc.
Proof.
  induction l as [|[nm e] l IH]; intros N F.
  - unfold row_after. cbn. ring.
  - cbn [map fst] in N. inversion N as [|? ? N1 N2]; subst. cbn [map fst qsum].
    unfold row_after. cbn [dget]. change (eqb (r_name r) nm) with (String.eqb (r_name r) nm). unfold at_name at 1. destruct (String.eqb_spec (r_name r) nm) as [EQ|NE].
    + rewrite sum_zeros. { assert (FE := F (nm, e) (or_introl eq_refl)). cbn [snd] in FE. rewrite FE. ring. }
      intros q HQ. unfold at_name. destruct (String.eqb_spec (r_name r) (fst q)) as [C|C]; [|ring]. exfalso. apply N1. rewrite <- EQ, C. apply in_map. exact HQ.
    + fold (row_after l r). rewrite IH; auto. { ring. } intros p HP. apply F. right. exact HP.
Qed.
Lemma csum_change fd s l rs (ff : string * edit -> row -> row) : NoDup (map fst l) -> (forall p, In p l -> row_change (snd p) = Some (ff p)) ->
  csum fd s (map (row_after l) rs) = (csum fd s rs + qsum (map (fun p => csum fd s (map (at_name (fst p) (ff p)) rs) - csum fd s rs) l))%Qc.
Proof.
  intros N F. induction rs as [|r rs IH].
  - cbn [map]. rewrite sum_zeros; [cbn; ring|]. intros p _. cbn. ring.
  - cbn [map]. rewrite !csum_cons, IH, (change_one fd s l r ff N F).
    assert (X : qsum (map (fun p => csum fd s (at_name (fst p) (ff p) r :: map (at_name (fst p) (ff p)) rs) - (contribution fd s r + csum fd s rs)) l)%Qc =
      (qsum (map (fun p => contribution fd s (at_name (fst p) (ff p) r) - contribution fd s r) l) + qsum (map (fun p => csum fd s (map (at_name (fst p) (ff p)) rs) - csum fd s rs) l))%Qc).
    { clear. induction l as [|p l IH]; [cbn; ring|]. cbn [map qsum]. rewrite IH, csum_cons. ring. }
    rewrite X. ring.
Qed.
Theorem C135_energy : forall l m m1 alone fd s, aligned m -> names_unique m -> separate m l -> performs l m = (m1, Ok tt) ->
  (forall p, In p l -> perform (snd p) m = (alone p, Ok tt)) ->
  energy fd s m1 = (energy fd s m + qsum (map (fun p => energy fd s (alone p) - energy fd s m) l))%Qc.
Proof.
  intros l m m1 alone fd s HA HU HS E HL. apply aligned_rect in HA. destruct (many_effect l m m1 HA HU HS E) as (F1 & W1 & R1 & S1 & A1 & L1 & V1).
  set (ff := fun p : string * edit => match row_change (snd p) with Some f => f | None => fun r => r end).
  destruct HS as [HC HN]. rewrite Forall_forall in HC.
  assert (FF : forall p, In p l -> row_change (snd p) = Some (ff p)).
  { intros p HP. destruct (one_effect m (alone p) p HA HU (HC p HP) (HL p HP)) as (f & RC & _). unfold ff. rewrite RC. reflexivity. }
  assert (EN : forall p, In p l -> (energy fd s (alone p) - energy fd s m)%Qc = (- (csum fd s (map (at_name (fst p) (ff p)) (m_rows m)) - csum fd s (m_rows m)))%Qc).
  { intros p HP. destruct (one_effect m (alone p) p HA HU (HC p HP) (HL p HP)) as (f & RC & _ & RW & _ & SR & _). rewrite !energy_csum, RW. destruct SR as (_ & _ & -> & _). unfold ff. rewrite RC. ring. }
  rewrite (map_ext_in _ _ _ EN). rewrite !energy_csum, W1, (csum_change fd s l (m_rows m) ff HN FF). destruct S1 as (_ & _ & -> & _).
  assert (X : forall g : string * edit -> Qc, qsum (map (fun p => - g p)%Qc l) = (- qsum (map g l))%Qc) by (intros g; clear; induction l as [|p l IH]; [cbn; ring|]; cbn [map qsum]; rewrite IH; ring).
  rewrite (X (fun p => csum fd s (map (at_name (fst p) (ff p)) (m_rows m)) - csum fd s (m_rows m))%Qc). ring.
Qed.

(** Additions and edits of other interactions may be made in either order too, when the updates use attributes the model already has
    (an update that brings in a new attribute is the exception: see C36). *)
Definition known (m : lmodel) (p : string * edit) : Prop :=
  forall ev t n co sc d ts k, snd p = Update ev t n co sc (AtDict d) ts -> In k (dkeys d) -> In ("attributes." +++ k) (m_attrs m).
Lemma one_aligned m m' p : aligned m -> NoDup (names m) -> concerns m p -> known m p -> perform (snd p) m = (m', Ok tt) -> aligned m'.
Proof.
  intros HA HU HC HK E. destruct (one_effect m m' p (aligned_rect _ HA) HU HC E) as (f & RC & FI & RW & R1 & S1 & A1 & L1 & V1).
  destruct R1 as (B1 & B2 & B3). split; [exact B1|]. rewrite A1. assert (HD : dkeys (m_cols m') = dkeys (m_cols m)); [|split; [rewrite HD; apply HA|split; [apply HA|exact B3]]].
  destruct p as [nm e]. destruct HC as [HI HC]. cbn [fst snd] in *. destruct e as [ev t n co sc a ts|t n]; cbn [perform] in E.
  - destruct HC as [HF HW]. pose proof (proj2 (internal_name_spec t n m nm) (conj HF HI)) as EIN.
    destruct (update_split ev t n co sc a ts m) as [(e' & E')|(c&s&d&q&U&[(nm'&l1&x&l2&EI&ER&HX&HN&HRm&E')|(NT&(inf&EI&HH)&E')])]; [congruence| |].
    + rewrite EIN in EI. injection EI as <-. destruct U as [U1 U2 U3 U4].
      assert (ND : forall d0, d = Some d0 -> NoDup (dkeys d0)) by (intros d0 ->; destruct a; simpl in U3; inversion U3; subst; apply HW; auto).
      assert (HNX : ~ In (r_name x) (map r_name l1)) by congruence.
      destruct (update_at_rect m l1 x l2 c s d q (aligned_rect _ HA) ER HNX ND) as (z & Ez & _ & _ & _ & _ & _ & _ & _ & DK). rewrite HX in Ez. rewrite E', Ez in E. injection E as ->. apply DK.
      destruct HA as (_ & DA & _). rewrite DA. destruct d as [d|]; [|intros k []]. destruct a as [|d'|]; cbn in U3; try discriminate. injection U3 as ->. intros k Hk. exact (HK _ _ _ _ _ _ _ _ eq_refl Hk).
    + exfalso. unfold has_name in HH. apply mem_nin in HH. apply HH. destruct HF as [[_ [i HD]]|(-> & -> & HNE)].
      * apply denotes_info in HD. rewrite EI in HD. inversion HD; subst; auto.
      * simpl in EI. discriminate.
  - apply remove_cases in E. destruct E as [(e' & X & _)|(_&nm'&l1&x&l2&EI&ER&EN&HN&->)]; [discriminate|]. reflexivity.
Qed.
Lemma many_aligned l : forall m m', aligned m -> NoDup (names m) -> separate m l -> Forall (known m) l -> performs l m = (m', Ok tt) -> aligned m'.
Proof.
  induction l as [|p l IH]; intros m m' HA HU HS HK E; [injection E as <-; exact HA|].
  unfold performs in E. cbn [mfor] in E. fold (performs l) in E. unfold bind at 1 in E. destruct (perform (snd p) m) as [m1 [[]|e]] eqn:EP; [|discriminate].
  assert (HC : concerns m p) by (destruct HS as [H _]; inversion H; auto). inversion HK as [|? ? K1 K2]; subst.
  destruct (one_effect m m1 p (aligned_rect _ HA) HU HC EP) as (f & RC & FI & RW & R1 & S1 & A1 & L1 & V1). assert (F := change_name _ _ RC).
  apply (IH m1 m'); auto.
  - exact (one_aligned m m1 p HA HU HC K1 EP).
  - rewrite (names_at m m1 (fst p) f F RW). exact HU.
  - exact (separate_tail m m1 p l f F RW HS).
  - rewrite Forall_forall in *. intros q HQ. unfold known in *. rewrite A1. exact (K2 q HQ).
Qed.
Lemma makes_names l m m' rs : aligned m -> Forall proper_call l -> makes l m = (m', Ok tt) -> map call_row l = map Some rs -> names m' = names m ++ map r_name rs.
Proof.
  intros HA HP E ER. destruct (makes_effect l m m' HA HP E) as (rs' & H1 & H2 & _). assert (rs' = rs) by (apply map_some_inj; congruence). subst rs'. unfold names. rewrite H2, map_app. reflexivity.
Qed.
Theorem C135_additions : forall la le m m1 m2, aligned m -> names_unique m -> Forall proper_call la -> separate m le -> Forall (known m) le ->
  makes la m = (m1, Ok tt) -> performs le m1 = (m2, Ok tt) ->
  exists n1 n2, performs le m = (n1, Ok tt) /\ makes la n1 = (n2, Ok tt) /\
    m_rows m2 = m_rows n2 /\ (forall n k, attr_of m2 n k = attr_of n2 n k) /\ same_rest m2 n2 /\ forall fd s, energy fd s m2 = energy fd s n2.
Proof.
  intros la le m m1 m2 HA HU HP HS HK EM EE. destruct (proj1 (makes_iff la m HA HP)) as (rs & ER & ND & HF); [eauto|].
  destruct (makes_effect la m m1 HA HP EM) as (rs1 & X1 & W1 & S1 & A1 & V1 & U1). assert (rs1 = rs) by (apply map_some_inj; congruence). subst rs1.
  assert (NM1 := makes_names la m m1 rs HA HP EM ER).
  assert (HU1 : NoDup (names m1)).
  { rewrite NM1. clear - HU ND HF. unfold names_unique in HU. induction (names m) as [|x l IH]; [exact ND|]. inversion HU; subst. cbn [app]. constructor; [|apply IH; auto; intros r HR C; apply (HF r HR); right; exact C].
    intros C. apply in_app_or in C. destruct C as [C|C]; [contradiction|]. apply in_map_iff in C. destruct C as (r & <- & HR). apply (HF r HR). left. reflexivity. }
  assert (HIN : forall q, In q le -> In (fst q) (names m)) by (intros q HQ; destruct HS as [HC _]; rewrite Forall_forall in HC; apply HC; exact HQ).
  assert (HS1 : separate m1 le).
  { destruct HS as [HC HN]. split; [|exact HN]. rewrite Forall_forall in *. intros q HQ. destruct (HC q HQ) as [Q1 Q2]. split; [rewrite NM1; apply in_or_app; left; exact Q1|exact Q2]. }
  destruct (many_effect le m1 m2 (aligned_rect _ A1) HU1 HS1 EE) as (F2 & W2 & R2 & S2 & AT2 & L2 & V2).
  assert (FM : Forall (fine m) le).
  { rewrite Forall_forall in *. intros q HQ. destruct (F2 q HQ) as [Q1 Q2]. split; [exact Q1|]. intros Q3 r HR Hn. apply (Q2 Q3); auto. rewrite W1. apply in_or_app. left. exact HR. }
  destruct (many_succeed le m (aligned_rect _ HA) HU HS FM) as [n1 EN]. destruct (many_effect le m n1 (aligned_rect _ HA) HU HS EN) as (G2 & Y2 & _ & T2 & B2 & _ & Z2).
  assert (AN := many_aligned le m n1 HA HU HS HK EN). assert (NN : names n1 = names m).
  { unfold names. rewrite Y2, map_map. apply map_ext. intros r. apply (row_after_name m). exact FM. }
  destruct (proj2 (makes_iff la n1 AN HP)) as [n2 EN2]; [exists rs; rewrite NN; auto|].
  destruct (makes_effect la n1 n2 AN HP EN2) as (rs2 & X2 & Y3 & T3 & A3 & Z3 & Q3). assert (rs2 = rs) by (apply map_some_inj; congruence). subst rs2.
  assert (NM2 := makes_names la n1 n2 rs AN HP EN2 ER).
  assert (NW : forall r, In r rs -> dget (r_name r) le = None).
  { intros r HR. apply dget_out. intros C. apply in_map_iff in C. destruct C as (q & C & HQ). apply (HF r HR). rewrite <- C. apply HIN. exact HQ. }
  assert (RW : m_rows m2 = m_rows n2).
  { rewrite W2, W1, Y3, Y2, map_app. f_equal. rewrite <- (map_id rs) at 2. apply map_ext_in. intros r HR. unfold row_after. rewrite NW by exact HR. reflexivity. }
  assert (SR : same_rest m2 n2) by (destruct S1 as (?&?&?&?&?&?&?), S2 as (?&?&?&?&?&?&?), T2 as (?&?&?&?&?&?&?), T3 as (?&?&?&?&?&?&?); repeat split; congruence).
  exists n1, n2. split; [exact EN|]. split; [exact EN2|]. split; [exact RW|]. split; [|split; [exact SR|]].
  - intros n k. rewrite V2. destruct (in_dec string_dec n (names m)) as [HI|HI].
    + rewrite (V1 n k HI). rewrite Z3 by (rewrite NN; exact HI). rewrite Z2. reflexivity.
    + assert (DN : dget n le = None) by (apply dget_out; intros C; apply in_map_iff in C; destruct C as (q & <- & HQ); apply HI, HIN, HQ). unfold attr_after. rewrite DN.
      destruct (in_dec string_dec n (map r_name rs)) as [HJ|HJ].
      * apply in_map_iff in HJ. destruct HJ as (r & <- & HR). assert (HCc : In (Some r) (map call_row la)) by (rewrite ER; apply in_map; exact HR). apply in_map_iff in HCc. destruct HCc as (c & EC & HCI). rewrite (U1 c r k HCI EC), (Q3 c r k HCI EC). reflexivity.
      * unfold attr_of. rewrite NM1, NM2, NN. assert (X : index_of n (names m ++ map r_name rs) = None) by (apply index_of_none; intros C; apply in_app_or in C; destruct C; contradiction). rewrite X. reflexivity.
  - intros fd s. rewrite !energy_csum, RW. destruct SR as (_ & _ & -> & _). reflexivity.
Qed.

(** ** The hypotheses are met *)
Definition three_edits : list (string * edit) :=
  [("again", Update env0 TNone (NStr "again") (Some (num 7)) None AtNone (TsNum (qz 3)));
   ("x[1]*x[2]", Update env0 (TTuple [EVar (spn "x" 2); EVar (spn "x" 1)]) (NStr "") None (Some (num 2)) (AtDict [("weight", ANum (qz 2)); ("colour", ANum (qz 4))]) TsNone);
   ("x[0]*x[1]", Remove (TTuple [EVar (spn "x" 0); EVar (spn "x" 1)]) (NStr ""))].
Example C135_hyps : aligned ising_model /\ names_unique ising_model /\ separate ising_model three_edits /\ Permutation three_edits (rev three_edits) /\ three_edits <> rev three_edits /\
  (exists m1, performs three_edits ising_model = (m1, Ok tt)) /\ (forall p, In p three_edits -> exists mp, perform (snd p) ising_model = (mp, Ok tt)).
Proof.
  split; [apply ising_al|]. split; [apply ising_wf|]. split.
  { split; [|apply nodupb_ok; vm_compute; reflexivity]. repeat apply Forall_cons; [| | |constructor]; (split; [vm_compute; auto 10|]); cbn [snd fst].
    - split; [right; repeat split; discriminate|discriminate].
    - split; [left; split; [reflexivity|eexists; apply denotes_swap; reflexivity]|]. intros d H. injection H as <-. apply nodupb_ok. reflexivity.
    - left. split; [reflexivity|eexists; apply denotes_pair; reflexivity]. }
  split; [apply Permutation_rev|]. split; [discriminate|]. split; [apply okb_ex; vm_compute; reflexivity|].
  intros p [<-|[<-|[<-|[]]]]; apply okb_ex; vm_compute; reflexivity.
Qed.
Definition two_additions : list call :=
  [mkCall env0 (TVar (spn "x" 1)) (NStr "") (num 3) (num 1) (AtDict [("weight", ANum (qz 5)); ("size", ANum (qz 6))]) TsNone;
   mkCall env0 (TTuple [EVar (spn "x" 0); EVar (spn "x" 2)]) (NStr "far") (num 1) (num 1) AtNone (TsNum (qz 2))].
Definition plain_edits : list (string * edit) :=
  [("x[1]*x[2]", Update env0 (TTuple [EVar (spn "x" 2); EVar (spn "x" 1)]) (NStr "") None (Some (num 2)) (AtDict [("weight", ANum (qz 2))]) TsNone);
   ("again", Remove TNone (NStr "again"))].
Example C135_additions_hyps : Forall proper_call two_additions /\ separate ising_model plain_edits /\ Forall (known ising_model) plain_edits /\
  exists m1 m2, makes two_additions ising_model = (m1, Ok tt) /\ performs plain_edits m1 = (m2, Ok tt).
Proof.
  split; [repeat constructor; unfold proper_call; cbn [ca_attrs]; intros d H; [injection H as <-; apply nodupb_ok; reflexivity|discriminate]|]. split.
  { split; [|apply nodupb_ok; vm_compute; reflexivity]. repeat apply Forall_cons; [| |constructor]; (split; [vm_compute; auto 10|]); cbn [snd fst].
    - split; [left; split; [reflexivity|eexists; apply denotes_swap; reflexivity]|]. intros d H. injection H as <-. apply nodupb_ok. reflexivity.
    - right. repeat split; discriminate. }
  split.
  { repeat apply Forall_cons; [| |constructor]; intros ev t n co sc d ts k H HK; cbn [snd] in H; [|discriminate]. injection H as <- <- <- <- <- <- <-. destruct HK as [<-|[]]. vm_compute. auto. }
  destruct (okb_ex (makes two_additions ising_model)) as [m1 E1]; [vm_compute; reflexivity|]. exists m1.
  assert (X : okb (performs plain_edits (fst (makes two_additions ising_model))) = true) by (vm_compute; reflexivity). rewrite E1 in X. cbn [fst] in X. destruct (okb_ex _ X) as [m2 E2]. exists m2. auto.
Qed.
Print Assumptions C135_order.
Print Assumptions C135_returns.
Print Assumptions C135_each.
Print Assumptions C135_energy.
Print Assumptions C135_additions.
