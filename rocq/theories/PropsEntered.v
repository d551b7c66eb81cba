(** * PropsEntered: C102, a Hamiltonian entered term by term. *)
From Coq Require Import Permutation.
From Verif Require Import PyBase PyLemmas Numbers Constraint LogicalModel Spec LogicalProofs EnergyProofs ConvertProofs ConstraintProofs MergeProofs
  PhysicalProofs ToPhysicalProofs PropsPhysical PropsInteractions PropsState Samples Solver SolverSpec SolverProofs Services PropsSolver PropsSolvers SampleModels.
Local Open Scope string_scope.
Local Open Scope list_scope.

(** ** Specification *)

(** A term c v or c v w of a Hamiltonian. *)
Inductive term := Lin (v : var) (c : Qc) | Quad (v w : var) (c : Qc).
Definition coefficient (x : term) : Qc := match x with Lin _ c => c | Quad _ _ c => c end.
Definition variables_of (x : term) : list string :=
  match x with Lin v _ => [v_label v] | Quad v w _ => [v_label v; v_label w] end.
Definition term_value (s : assignment) (x : term) : Qc :=
  match x with Lin v c => (c * s (v_label v))%Qc | Quad v w c => (c * (s (v_label v) * s (v_label w)))%Qc end.
Definition polynomial (s : assignment) (l : list term) : Qc := qsum (map (term_value s) l).

(** The same one or two variables, in any order. *)
Definition same_variables (x y : term) : Prop := forall l, In l (variables_of x) <-> In l (variables_of y).
Definition all_different (l : list term) : Prop := ForallOrdPairs (fun x y => ~ same_variables x y) l.
(** No square of a variable. *)
Definition no_square (x : term) : Prop := NoDup (variables_of x).
(** No variable has a * in its label (no array of a model has: C80). *)
Definition plain (x : term) : Prop := Forall (fun l => has_char "*"%char l = false) (variables_of x).

(** Entering the terms: one add_interaction per term. *)
Definition term_target (x : term) : target :=
  match x with Lin v _ => TVar v | Quad v w _ => TTuple [EVar v; EVar w] end.
Definition enter (clock : target -> env) (l : list term) : LM unit :=
  mfor l (fun x => add_term clock (term_target x) (coefficient x)).

(** ** One term *)
Definition term_name (x : term) : string :=
  match x with
  | Lin v _ => v_label v
  | Quad v w _ => if String.ltb (v_label v) (v_label w) then v_label v +++ "*" +++ v_label w else v_label w +++ "*" +++ v_label v
  end.
Definition term_inter (x : term) : inter :=
  match x with
  | Lin v _ => I1 v
  | Quad v w _ => if String.ltb (v_label v) (v_label w) then I2 v w else I2 w v
  end.
Lemma term_denotes x : no_square x -> denotes (term_target x) (term_inter x) (term_name x).
Proof.
  destruct x as [v c|v w c]; cbn [term_target term_inter term_name]; intros H; [constructor|].
  destruct (String.ltb (v_label v) (v_label w)) eqn:E; constructor; auto.
  rewrite (ltb_total (v_label w) (v_label v)); [rewrite E; reflexivity|].
  intros C. inversion H as [|? ? N _]; subst. apply N. cbn. auto.
Qed.
Lemma denotes_term x i n : denotes (term_target x) i n -> no_square x /\ i = term_inter x /\ n = term_name x.
Proof.
  assert (LT : forall a b, String.ltb a b = true -> a <> b) by (intros a b H ->; rewrite ltb_irrefl in H; discriminate).
  destruct x as [v c|v w c]; cbn [term_target term_inter term_name]; intros D; inversion D as [?|? ? L|? ? L]; subst.
  - split; [constructor; [intros [] | constructor] | auto].
  - rewrite L. split; [|auto]. constructor; [intros [C|[]]; symmetry in C; exact (LT _ _ L C) | constructor; [intros [] | constructor]].
  - assert (HX : String.ltb (v_label v) (v_label w) = false) by (apply ltb_asym; auto). rewrite HX. split; [|auto].
    constructor; [intros [C|[]]; exact (LT _ _ L C) | constructor; [intros [] | constructor]].
Qed.
Lemma term_labels x l : In l (labels_of (term_inter x)) <-> In l (variables_of x).
Proof. destruct x as [v c|v w c]; cbn; [tauto|]. destruct (String.ltb _ _); cbn; tauto. Qed.
Lemma term_mono s x : (coefficient x * 1 * monomial s (inter_key (term_inter x)) = term_value s x)%Qc.
Proof. destruct x as [v c|v w c]; cbn; [ring|]. destruct (String.ltb _ _); cbn; ring. Qed.
Lemma name_same x y : no_square x -> no_square y -> plain x -> plain y -> (term_name x = term_name y <-> same_variables x y).
Proof.
  intros Nx Ny Px Py.
  assert (PL : forall z, plain z -> plain_labels (term_inter z)).
  { intros z H. unfold plain_labels. rewrite Forall_forall. intros l Hl. apply term_labels in Hl. red in H. rewrite Forall_forall in H. auto. }
  rewrite (C08_default_name_injective _ _ _ _ _ _ (term_denotes x Nx) (term_denotes y Ny) (PL _ Px) (PL _ Py)).
  unfold same_variables. split; intros H l; specialize (H l); rewrite !term_labels in *; auto.
Qed.

Definition term_row (clock : target -> env) (x : term) : row :=
  mkRow (term_name x) (inter_key (term_inter x)) (term_inter x) (CNum (coefficient x)) (CNum 1%Qc) (Some (ts_given (clock (term_target x)) TsNone)) true false.
Lemma attrs_none : attrs_wf AtNone.
Proof. intros d E. discriminate. Qed.
Lemma add_term_iff clock x m : aligned m ->
  (exists m', add_term clock (term_target x) (coefficient x) m = (m', Ok tt)) <-> no_square x /\ ~ In (term_name x) (names m).
Proof.
  intros AL. unfold add_term. rewrite (C03_succeeds_iff _ _ _ _ _ _ _ _ AL attrs_none). split.
  - intros (c & s & i & dn & nm & _ & _ & _ & _ & D & [[_ ->]|[E N]] & NI); [|injection E as <-; congruence].
    apply denotes_term in D as (H & _ & ->). auto.
  - intros (H & NI). do 3 eexists. exists (term_name x), (term_name x). repeat split; try discriminate; auto; [apply term_denotes; auto|]. left; auto.
Qed.
Lemma add_term_effect clock x m m' : aligned m -> add_term clock (term_target x) (coefficient x) m = (m', Ok tt) ->
  m_rows m' = m_rows m ++ [term_row clock x] /\ same_rest m m' /\ aligned m'.
Proof.
  intros AL E. unfold add_term in E. destruct (C03_effect _ _ _ _ _ _ _ _ _ AL attrs_none E) as (c & s & i & dn & nm & E1 & E2 & D & SN & _ & ER & SR & AL' & _).
  injection E1 as <-. injection E2 as <-. apply denotes_term in D as (_ & -> & ->).
  destruct SN as [[_ ->]|[C N]]; [|injection C as <-; congruence]. auto.
Qed.
Lemma same_rest_trans a b c : same_rest a b -> same_rest b c -> same_rest a c.
Proof. intros (A1 & A2 & A3 & A4 & A5 & A6 & A7) (B1 & B2 & B3 & B4 & B5 & B6 & B7). repeat split; congruence. Qed.

(** ** All terms *)
Lemma enter_iff clock l : forall m, aligned m ->
  (exists m', enter clock l m = (m', Ok tt)) <-> Forall no_square l /\ NoDup (map term_name l) /\ (forall x, In x l -> ~ In (term_name x) (names m)).
Proof.
  induction l as [|x l IH]; intros m AL; cbn [enter mfor map].
  - split; [|eexists; reflexivity]. intros _. split; auto. split; [constructor|]. intros ? [].
  - fold (enter clock l). unfold bind at 1. destruct (add_term clock (term_target x) (coefficient x) m) as [m1 r] eqn:E.
    destruct r as [[]|e].
    + destruct (add_term_effect _ _ _ _ AL E) as (ER & _ & AL1).
      assert (HN : names m1 = names m ++ [term_name x]) by (unfold names; rewrite ER, map_app; reflexivity).
      destruct (proj1 (add_term_iff clock x m AL)) as [HS HI]; [eauto|].
      rewrite (IH m1 AL1), HN. split.
      * intros (F & N & D). split; [constructor; auto|]. split; [constructor; auto|].
        -- intros C. apply in_map_iff in C as (y & EY & HY). apply (D y HY). rewrite in_app_iff. right. now left.
        -- intros y [<-|HY]; auto. intros C. apply (D y HY). rewrite in_app_iff. now left.
      * intros (F & N & D). inversion F; subst. inversion N as [|? ? N1 N2]; subst. split; auto. split; auto.
        intros y HY C. apply in_app_iff in C as [C|[C|[]]]; [apply (D y); auto; now right|]. apply N1. rewrite C. now apply in_map.
    + split; [intros [m' C]; discriminate|]. intros (F & N & D). inversion F; subst. exfalso.
      destruct (proj2 (add_term_iff clock x m AL)) as [m' C]; [|congruence]. split; auto. apply D. now left.
Qed.
Lemma enter_effect clock l : forall m m', aligned m -> enter clock l m = (m', Ok tt) ->
  m_rows m' = m_rows m ++ map (term_row clock) l /\ same_rest m m' /\ aligned m'.
Proof.
  induction l as [|x l IH]; intros m m' AL E; cbn [enter mfor map] in E.
  - injection E as <-. rewrite app_nil_r. repeat split; try apply AL.
  - fold (enter clock l) in E. unfold bind at 1 in E. destruct (add_term clock (term_target x) (coefficient x) m) as [m1 r] eqn:E1.
    destruct r as [[]|e]; [|discriminate]. destruct (add_term_effect _ _ _ _ AL E1) as (ER & SR & AL1).
    destruct (IH _ _ AL1 E) as (ER2 & SR2 & AL2). rewrite ER2, ER, <- app_assoc. split; auto. split; auto. eapply same_rest_trans; eauto.
Qed.
Lemma different_names l : Forall no_square l -> Forall plain l -> (NoDup (map term_name l) <-> all_different l).
Proof.
  intros S P. induction l as [|x l IH]; [split; intros _; constructor|]. inversion S; inversion P; subst. cbn [map]. split.
  - intros N. inversion N as [|? ? N1 N2]; subst. constructor; [|apply IH; auto]. rewrite Forall_forall. intros y HY C.
    apply N1. apply name_same in C; auto; [rewrite C; now apply in_map| |]; rewrite Forall_forall in *; auto.
  - intros N. inversion N as [|? ? N1 N2]; subst. constructor; [|apply IH; auto]. intros C. apply in_map_iff in C as (y & EY & HY).
    rewrite Forall_forall in N1. apply (N1 y HY). symmetry in EY. apply name_same in EY; auto; rewrite Forall_forall in *; auto.
Qed.

(** ** C102 *)

(** The terms are accepted exactly when no variable is squared and no two terms are of
    the same variables.  (The model has no interactions yet; it can have variables, an
    offset, constraints.) *)
Theorem C102_accepted : forall clock l m, aligned m -> m_rows m = [] -> Forall plain l ->
  ((exists m', enter clock l m = (m', Ok tt)) <-> Forall no_square l /\ all_different l).
Proof.
  intros clock l m AL ER PL. rewrite (enter_iff clock l m AL).
  assert (HN : names m = []) by (unfold names; rewrite ER; reflexivity). rewrite HN. split.
  - intros (F & N & _). split; auto. now apply different_names.
  - intros (F & D). split; auto. split; [now apply different_names|]. intros x _ [].
Qed.

(** Then the logical model has that energy, whatever the values of the variables, and
    nothing else of it has changed. *)
Theorem C102_energy : forall clock l m m', aligned m -> enter clock l m = (m', Ok tt) ->
  (forall fd s, energy fd s m' = (energy fd s m - polynomial s l)%Qc) /\ same_rest m m' /\ length (m_rows m') = length (m_rows m) + length l.
Proof.
  intros clock l m m' AL E. destruct (enter_effect _ _ _ _ AL E) as (ER & SR & _). split; [|split; auto].
  - intros fd s. unfold energy. pose proof SR as (_ & _ & EO & _). rewrite EO, ER, map_app, qsum_app.
    assert (EP : qsum (map (contribution fd s) (map (term_row clock) l)) = polynomial s l).
    { unfold polynomial. rewrite map_map. f_equal. apply map_ext. intros x. unfold contribution. cbn [r_removed term_row r_coef r_scale r_key]. apply term_mono. }
    rewrite EP. ring.
  - rewrite ER, app_length, map_length. reflexivity.
Qed.

(** When a term is rejected, those before it stay entered, and only those. *)
Theorem C102_rejected : forall clock l m m' e, aligned m -> enter clock l m = (m', Err e) ->
  exists pre x post, l = pre ++ x :: post /\ enter clock pre m = (m', Ok tt) /\
    (no_square x -> In (term_name x) (names m')).
Proof.
  intros clock l. induction l as [|x l IH]; intros m m' e AL E; cbn [enter mfor] in E; [discriminate|].
  fold (enter clock l) in E. unfold bind at 1 in E. destruct (add_term clock (term_target x) (coefficient x) m) as [m1 r] eqn:E1.
  destruct r as [[]|e1].
  - destruct (add_term_effect _ _ _ _ AL E1) as (_ & _ & AL1). destruct (IH _ _ _ AL1 E) as (pre & y & post & -> & EP & H).
    exists (x :: pre), y, post. split; auto. split; auto. cbn [enter mfor]. unfold bind at 1. rewrite E1. exact EP.
  - injection E as <- <-. assert (m1 = m) as -> by (unfold add_term in E1; exact (C02_add_atomic _ _ _ _ _ _ _ _ _ _ AL attrs_none E1)).
    exists [], x, l. split; auto. split; auto. intros HS. destruct (in_dec string_dec (term_name x) (names m)) as [|N]; auto.
    destruct (proj2 (add_term_iff clock x m AL) (conj HS N)) as [m' C]. congruence.
Qed.

(** The physical model: exactly these coefficients (a zero one leaves no trace). *)
Definition linear_terms (l : list term) (p : physical) : Prop :=
  forall a c, dget a (p_linear p) = Some c <-> c <> 0%Qc /\ exists v, v_label v = a /\ In (Lin v c) l.
Definition quadratic_terms (l : list term) (p : physical) : Prop :=
  forall a b c, dget (a, b) (p_quad p) = Some c <->
    c <> 0%Qc /\ String.ltb a b = true /\ exists v w, ((v_label v = a /\ v_label w = b) \/ (v_label v = b /\ v_label w = a)) /\ In (Quad v w c) l.

Lemma qsum_single {A} (f : A -> Qc) l x : In x l -> NoDup l -> (forall y, In y l -> y <> x -> f y = 0%Qc) -> qsum (map f l) = f x.
Proof.
  intros HI HN HZ. assert (EC : forall c l, qsum (c :: l) = (c + qsum l)%Qc) by reflexivity.
  assert (Z : forall l, (forall y, In y l -> f y = 0%Qc) -> qsum (map f l) = 0%Qc).
  { clear. intros l. induction l as [|y l IH]; auto. intros H. cbn [map]. assert (EC : forall c l, qsum (c :: l) = (c + qsum l)%Qc) by reflexivity.
    rewrite EC, IH, H; [ring| now left |]. intros; apply H; now right. }
  induction l as [|y l IH]; [destruct HI|]. inversion HN; subst. cbn [map]. rewrite EC. destruct HI as [->|HI].
  - rewrite Z; [ring|]. intros z Hz. apply HZ; [now right|]. congruence.
  - rewrite IH; auto; [|intros; apply HZ; auto; now right]. rewrite HZ; [ring| now left | congruence].
Qed.
Lemma qsum_zero' {A} (f : A -> Qc) l : (forall y, In y l -> f y = 0%Qc) -> qsum (map f l) = 0%Qc.
Proof.
  induction l as [|y l IH]; auto. intros H. cbn [map]. assert (EC : forall c l, qsum (c :: l) = (c + qsum l)%Qc) by reflexivity.
  rewrite EC, IH, H; [ring| now left |]. intros; apply H; now right.
Qed.
Lemma nodup_unmap {A B} (f : A -> B) l : NoDup (map f l) -> NoDup l.
Proof. induction l as [|x l IH]; intros H; constructor; inversion H; subst; auto. intros C. apply H2. now apply in_map. Qed.
Lemma name_unique l x y : NoDup (map term_name l) -> In x l -> In y l -> term_name x = term_name y -> x = y.
Proof.
  induction l as [|z l IH]; [intros _ []|]. cbn [map]. intros N. inversion N as [|? ? N1 N2]; subst.
  intros [<-|Hx] [<-|Hy] E; auto; exfalso; apply N1; [rewrite E | rewrite <- E]; now apply in_map.
Qed.
Definition lin_part a (x : term) : Qc := match x with Lin v c => if String.eqb a (v_label v) then c else 0%Qc | _ => 0%Qc end.
Definition quad_part a b (x : term) : Qc :=
  match x with
  | Quad v w c => if String.ltb (v_label v) (v_label w) then (if String.eqb a (v_label v) && String.eqb b (v_label w) then c else 0%Qc)
                  else (if String.eqb a (v_label w) && String.eqb b (v_label v) then c else 0%Qc)
  | _ => 0%Qc end.
Lemma lin_total_terms fd clock a l : lin_total fd (map (term_row clock) l) a = qsum (map (lin_part a) l).
Proof.
  unfold lin_total. rewrite map_map. f_equal. apply map_ext. intros x. cbn [r_removed term_row r_key]. unfold coefv. cbn [r_coef r_scale term_row].
  assert (EV : forall q, value fd (CNum q) = q) by reflexivity. rewrite !EV.
  destruct x as [v c|v w c]; cbn [term_inter inter_key lin_part coefficient]; [destruct (String.eqb _ _); ring|]. now destruct (String.ltb _ _).
Qed.
Lemma quad_total_terms fd clock a b l : quad_total fd (map (term_row clock) l) a b = qsum (map (quad_part a b) l).
Proof.
  unfold quad_total. rewrite map_map. f_equal. apply map_ext. intros x. cbn [r_removed term_row r_key]. unfold coefv. cbn [r_coef r_scale term_row].
  assert (EV : forall q, value fd (CNum q) = q) by reflexivity. rewrite !EV.
  destruct x as [v c|v w c]; cbn [term_inter inter_key quad_part coefficient]; [reflexivity|].
  destruct (String.ltb _ _); cbn [inter_key]; destruct (String.eqb _ _ && _); ring.
Qed.

Lemma lin_part_spec l a : NoDup (map term_name l) ->
  forall c, c <> 0%Qc -> (qsum (map (lin_part a) l) = c <-> exists v, v_label v = a /\ In (Lin v c) l).
Proof.
  intros N c NZ. split.
  - intros E. destruct (Exists_dec (fun x => lin_part a x <> 0%Qc) l) as [H|H].
    { intros x. destruct (Qc_eq_dec (lin_part a x) 0%Qc); [right; tauto | now left]. }
    + apply Exists_exists in H as (x & HI & HX). assert (ES : qsum (map (lin_part a) l) = lin_part a x).
      { apply qsum_single; auto; [eapply nodup_unmap; eauto|]. intros y HY D. destruct (Qc_eq_dec (lin_part a y) 0%Qc) as [|C]; auto. exfalso. apply D.
        apply (name_unique l); auto. destruct x as [v cx|]; [|cbn in HX; congruence]. destruct y as [w cy|]; [|cbn in C; congruence]. cbn in *.
        destruct (String.eqb_spec a (v_label v)); [|congruence]. destruct (String.eqb_spec a (v_label w)); [congruence|congruence]. }
      rewrite ES in E. destruct x as [v cx|]; [|cbn in HX; congruence]. cbn in *. destruct (String.eqb_spec a (v_label v)) as [EV|]; [|congruence]. subst. eauto.
    + exfalso. apply NZ. rewrite <- E. apply qsum_zero'. intros y HY. destruct (Qc_eq_dec (lin_part a y) 0%Qc) as [|C]; auto. exfalso. apply H. apply Exists_exists; eauto.
  - intros (v & EV & HI). rewrite (qsum_single (lin_part a) l (Lin v c)); auto.
    + cbn. rewrite EV, String.eqb_refl. reflexivity.
    + eapply nodup_unmap; eauto.
    + intros y HY D. destruct y as [w cy|]; auto. cbn. destruct (String.eqb_spec a (v_label w)) as [E2|]; auto. exfalso. apply D. apply (name_unique l); auto. cbn. congruence.
Qed.
Lemma quad_part_nz a b x : quad_part a b x <> 0%Qc -> term_name x = a +++ "*" +++ b /\
  exists v w, ((v_label v = a /\ v_label w = b /\ String.ltb a b = true) \/ (v_label v = b /\ v_label w = a /\ String.ltb b a = false)) /\ x = Quad v w (quad_part a b x).
Proof.
  destruct x as [|v w c]; cbn; [congruence|]. destruct (String.ltb (v_label v) (v_label w)) eqn:EL.
  - destruct (String.eqb_spec a (v_label v)) as [->|], (String.eqb_spec b (v_label w)) as [->|]; cbn; try congruence. intros _. split; auto. exists v, w. auto.
  - destruct (String.eqb_spec a (v_label w)) as [->|], (String.eqb_spec b (v_label v)) as [->|]; cbn; try congruence. intros _. split; auto. exists v, w. auto.
Qed.
Lemma quad_part_spec l a b : NoDup (map term_name l) -> Forall no_square l ->
  forall c, c <> 0%Qc -> (qsum (map (quad_part a b) l) = c <->
    String.ltb a b = true /\ exists v w, ((v_label v = a /\ v_label w = b) \/ (v_label v = b /\ v_label w = a)) /\ In (Quad v w c) l).
Proof.
  intros N F c NZ. split.
  - intros E. destruct (Exists_dec (fun x => quad_part a b x <> 0%Qc) l) as [H|H].
    { intros x. destruct (Qc_eq_dec (quad_part a b x) 0%Qc); [right; tauto | now left]. }
    + apply Exists_exists in H as (x & HI & HX). assert (ES : qsum (map (quad_part a b) l) = quad_part a b x).
      { apply qsum_single; auto; [eapply nodup_unmap; eauto|]. intros y HY D. destruct (Qc_eq_dec (quad_part a b y) 0%Qc) as [|C]; auto. exfalso. apply D.
        apply (name_unique l); auto. destruct (quad_part_nz _ _ _ HX) as [-> _]. destruct (quad_part_nz _ _ _ C) as [-> _]. auto. }
      rewrite ES in E. destruct (quad_part_nz _ _ _ HX) as (_ & v & w & HC & EX). rewrite E in EX. split.
      * destruct HC as [(_ & _ & H)|(H1 & H2 & H)]; auto. rewrite (ltb_total a b); [rewrite H; reflexivity|].
        intros C. rewrite Forall_forall in F. specialize (F _ HI). rewrite EX in F. inversion F as [|? ? NI _]; subst. apply NI. cbn. left. congruence.
      * exists v, w. split; [tauto|]. rewrite <- EX. auto.
    + exfalso. apply NZ. rewrite <- E. apply qsum_zero'. intros y HY. destruct (Qc_eq_dec (quad_part a b y) 0%Qc) as [|C]; auto. exfalso. apply H. apply Exists_exists; eauto.
  - intros (HL & v & w & HC & HI).
    assert (EQ : quad_part a b (Quad v w c) = c).
    { cbn. destruct HC as [[-> ->]|[-> ->]].
      - rewrite HL, !String.eqb_refl. reflexivity.
      - assert (HX : String.ltb b a = false) by (apply ltb_asym; auto). rewrite HX, !String.eqb_refl. reflexivity. }
    rewrite (qsum_single (quad_part a b) l (Quad v w c)); auto; [eapply nodup_unmap; eauto|].
    intros y HY D. destruct (Qc_eq_dec (quad_part a b y) 0%Qc) as [|C]; auto. exfalso. apply D. apply (name_unique l); auto.
    destruct (quad_part_nz _ _ _ C) as [-> _]. destruct (quad_part_nz a b (Quad v w c)) as [-> _]; auto. rewrite EQ. auto.
Qed.

Theorem C102_physical : forall clock l m m1 q ev evs fd, aligned m -> m_rows m = [] -> m_constrs m = [] -> m_offset m = CNum q ->
  enter clock l m = (m1, Ok tt) ->
  exists m2 p, to_physical ev evs fd m1 = (m2, Ok p) /\ p_mtype p = m_mtype m /\ p_offset p = q /\ linear_terms l p /\ quadratic_terms l p /\
    forall s, energy_physical s p = (q - polynomial s l)%Qc.
Proof.
  intros clock l m m1 q ev evs fd AL ER0 EC EO E. destruct (enter_effect _ _ _ _ AL E) as (ER & SR & AL1). rewrite ER0 in ER. cbn [app] in ER.
  destruct (proj1 (enter_iff clock l m AL)) as (NS & ND & _); [eauto|].
  pose proof SR as (R1 & R2 & R3 & R4 & R5 & R6 & R7).
  assert (U1 : names_unique m1). { unfold names_unique, names. rewrite ER, map_map. exact ND. }
  assert (RS : resolved fd m1).
  { split; [|rewrite R3, EO; discriminate]. intros r Hr _. rewrite ER in Hr. apply in_map_iff in Hr as (x & <- & _). split; discriminate. }
  destruct (to_physical_purged ev evs fd m1 [] AL1 U1) as (m2 & EP & _).
  { rewrite R6, EC. reflexivity. } { exact RS. } { intros r _ _ []. }
  exists m2, (phys fd m1 []). split; auto.
  destruct (C10_coefficients ev evs fd m1 m2 _ (proj1 AL1) EP) as (cms & ECM & _ & _ & L0 & L1 & Q0 & Q1). rewrite R6, EC in ECM. cbn in ECM. injection ECM as <-.
  cbn [flat_map] in *. rewrite app_nil_r, ER in L0, L1, Q0, Q1.
  assert (EL : forall a, lin_total fd (map (term_row clock) l) a = qsum (map (lin_part a) l)) by (intros; apply lin_total_terms).
  assert (EQ : forall a b, quad_total fd (map (term_row clock) l) a b = qsum (map (quad_part a b) l)) by (intros; apply quad_total_terms).
  split; [unfold phys, build_physical; destruct (index_labels _ _ _ _ _ _); exact R1|]. split; [|split; [|split]].
  - unfold phys, build_physical. destruct (index_labels _ _ _ _ _ _). change (value fd (m_offset m1) + 0 = q)%Qc. rewrite R3, EO. change (value fd (CNum q)) with q. ring.
  - intros a c. split.
    + intros H. destruct (Qc_eq_dec (lin_total fd (map (term_row clock) l) a) 0%Qc) as [Z|NZ]; [rewrite (L0 _ Z) in H; discriminate|].
      rewrite (L1 _ NZ) in H. injection H as <-. split; auto. apply (lin_part_spec l a ND); auto.
    + intros (NZ & H). apply (lin_part_spec l a ND c NZ) in H. rewrite <- EL in H. rewrite <- H in NZ. rewrite (L1 _ NZ), H. auto.
  - intros a b c. split.
    + intros H. destruct (Qc_eq_dec (quad_total fd (map (term_row clock) l) a b) 0%Qc) as [Z|NZ]; [rewrite (Q0 _ _ Z) in H; discriminate|].
      rewrite (Q1 _ _ NZ) in H. injection H as <-. split; auto. apply (quad_part_spec l a b ND NS); auto.
    + intros (NZ & H). apply (quad_part_spec l a b ND NS c NZ) in H. rewrite <- EQ in H. rewrite <- H in NZ. rewrite (Q1 _ _ NZ), H. auto.
  - intros s. rewrite (C09_no_constraints ev evs fd m1 m2 _ (proj1 AL1)); auto; [|congruence].
    destruct (C102_energy _ _ _ _ AL E) as (EE & _). rewrite EE. unfold energy. rewrite ER0, EO. cbn. ring.
Qed.

(** The exact solver answers with every assignment of the variables that have a term
    with a coefficient other than zero, each once, with its energy. *)
Definition mentioned (l : list term) (a : string) : Prop := exists x, In x l /\ coefficient x <> 0%Qc /\ In a (variables_of x).
Definition all_answers (t : mtype) (vs : string -> Prop) (E : assignment -> Qc) (rows : list srow) : Prop :=
  NoDup (map (fun r : srow => fst (fst r)) rows) /\
  (forall s e c, In (s, e, c) rows ->
     e = E (value_of s) /\ c = 1 /\ NoDup (dkeys s) /\ (forall a, In a (dkeys s) <-> vs a) /\ Forall (legal t) (dvals s)) /\
  (forall a : assignment, (forall l, vs l -> exists z, legal t z /\ a l = qz z) ->
     exists s e c, In (s, e, c) rows /\ forall l, vs l -> value_of s l = a l).

Lemma dget_in_keys {K V} `{Eqb K} (k : K) (d : dict K V) v : dget k d = Some v -> In k (dkeys d).
Proof. intros E. apply dget_in in E. apply (in_map fst) in E. exact E. Qed.
Lemma keys_dget {K V} `{Eqb K} (k : K) (d : dict K V) : In k (dkeys d) -> exists v, dget k d = Some v.
Proof. intros HI. destruct (dget k d) as [v|] eqn:E; eauto. apply dget_none in E. contradiction. Qed.
Lemma occurs_mentioned l p : linear_terms l p -> quadratic_terms l p -> Forall no_square l -> forall a, occurs p a <-> mentioned l a.
Proof.
  intros HL HQ NS a. split.
  - intros [H|(b & c & H & HA)].
    + apply keys_dget in H as [v E]. apply HL in E as (NZ & w & EW & HI). exists (Lin w v). repeat split; auto. cbn. auto.
    + apply keys_dget in H as [v E]. apply HQ in E as (NZ & _ & x & y & HC & HI). exists (Quad x y v). repeat split; auto. cbn. destruct HC as [[-> ->]|[-> ->]], HA; auto.
  - intros (x & HI & NZ & HA). destruct x as [v c|v w c]; cbn in *.
    + left. destruct HA as [HA|[]]. apply (dget_in_keys _ _ c). apply HL. eauto.
    + right. rewrite Forall_forall in NS. specialize (NS _ HI). destruct (String.ltb (v_label v) (v_label w)) eqn:EL.
      * exists (v_label v), (v_label w). split; [|destruct HA as [|[|[]]]; auto]. apply (dget_in_keys _ _ c). apply HQ. split; auto. split; auto. exists v, w. auto.
      * exists (v_label w), (v_label v). split; [|destruct HA as [|[|[]]]; auto]. apply (dget_in_keys _ _ c). apply HQ. split; auto. split; [|exists v, w; auto].
        rewrite (ltb_total (v_label w) (v_label v)); [rewrite EL; reflexivity|]. intros C. inversion NS as [|? ? N _]; subst. apply N. cbn. auto.
Qed.
Theorem C102_answers : forall clock l m m1 q ev evs fd neal, aligned m -> m_rows m = [] -> m_constrs m = [] -> m_offset m = CNum q ->
  enter clock l m = (m1, Ok tt) -> (exists a, mentioned l a) ->
  exists m2 p rows, to_physical ev evs fd m1 = (m2, Ok p) /\ local_solve true neal (Some p) = Ok rows /\
    all_answers (m_mtype m) (mentioned l) (fun s => q - polynomial s l)%Qc rows.
Proof.
  intros clock l m m1 q ev evs fd neal AL ER EC EO E (a0 & HA0).
  destruct (proj1 (enter_iff clock l m AL)) as (NS & ND & _); [eauto|].
  destruct (C102_physical clock l m m1 q ev evs fd AL ER EC EO E) as (m2 & p & EP & ET & _ & HL & HQ & HE).
  pose proof (occurs_mentioned l p HL HQ NS) as OC.
  destruct (C75_succeeds neal p) as [rows EX].
  - apply OC in HA0. destruct HA0 as [H|(b & c & H & _)]; [left|right]; intros C; rewrite C in H; destruct H.
  - intros x H. apply keys_dget in H as [v H]. apply HQ in H as (_ & C & _). rewrite ltb_irrefl in C. discriminate.
  - exists m2, p, rows. split; auto. split; auto. destruct (C75_exact _ _ _ EX) as (HR & HN & H1 & HA). split; auto. split.
    + intros s e c HI. destruct (HR _ _ _ HI) as (E1 & E2 & E3 & E4). rewrite E1, HE, <- ET. split; auto. split; [apply (H1 _ HI)|]. split; auto. split; auto.
      intros a. rewrite E3. apply OC.
    + intros a Ha. destruct (HA a) as (s & e & c & HI & HV); [intros x Hx; apply OC in Hx; rewrite ET; auto|]. exists s, e, c. split; auto. intros x Hx. apply HV, OC, Hx.
Qed.

(** ** Examples *)
Definition sample_terms : list term := [Quad (spn "x" 1) (spn "x" 0) (qz 3); Lin (spn "x" 0) (- qz 2)%Qc; Quad (spn "x" 1) (spn "x" 2) 0%Qc].
Example C102_hyps : aligned (new_model Ising) /\ Forall plain sample_terms /\
  (exists m1, enter (fun _ => env0) sample_terms (new_model Ising) = (m1, Ok tt)) /\
  (exists a, mentioned sample_terms a) /\
  (exists m1 e, enter (fun _ => env0) (sample_terms ++ [Quad (spn "x" 0) (spn "x" 1) 1%Qc]) (new_model Ising) = (m1, Err e)).
Proof.
  split; [repeat split; constructor|]. split; [repeat constructor|]. split; [eexists; vm_compute; reflexivity|]. split; [|do 2 eexists; vm_compute; reflexivity].
  exists "x[0]". exists (Lin (spn "x" 0) (- qz 2)%Qc). split; [right; now left|]. split; [discriminate | now left].
Qed.
Print Assumptions C102_accepted.
Print Assumptions C102_energy.
Print Assumptions C102_rejected.
Print Assumptions C102_physical.
Print Assumptions C102_answers.
