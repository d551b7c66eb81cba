(** * Samples: concrete models, built by running the API, for the examples
    that show the theorems' hypotheses are met. *)
From Verif Require Import PyBase Constraint LogicalModel Spec.
Open Scope string_scope.
Open Scope list_scope.

Definition env0 : env := mkEnv (qz 100) (qz 7) (fun k => "t" +++ str_of_nat k) "11" (fun k => "2" +++ str_of_nat k).
Definition evs0 : nat -> env := fun k => mkEnv (qz 100) (qz 7) (fun j => "c" +++ str_of_nat k +++ "-" +++ str_of_nat j) "11" (fun j => "2" +++ str_of_nat j).
Definition spn (n : string) (i : nat) : var := mkVar (n +++ brackets [i]) Spin.
Definition bin (n : string) (i : nat) : var := mkVar (n +++ brackets [i]) Binary.
Definition num (z : Z) : carg := AC (CNum (qz z)).

(** Ising: x[0..2], h on x[0] with a placeholder, J on (x[0],x[1]) twice and
    (x[1],x[2]) with an attribute and scale 3, an interaction pending removal,
    offset 5. *)
Definition ising_ops : LM unit :=
  variables (VName "x") (ShTuple [ShInt 3]) ;;;
  add_interaction env0 (TVar (spn "x" 0)) (NStr "") (AC (CPh "lambda")) (num 1) AtNone TsNone ;;;
  add_interaction env0 (TTuple [EVar (spn "x" 1); EVar (spn "x" 0)]) (NStr "") (num 2) (num 1) AtNone TsNone ;;;
  add_interaction env0 (TTuple [EVar (spn "x" 0); EVar (spn "x" 1)]) (NStr "again") (num (-2)) (num 1) AtNone TsNone ;;;
  add_interaction env0 (TTuple [EVar (spn "x" 1); EVar (spn "x" 2)]) (NStr "") (num 4) (num 3)
    (AtDict [("weight", ANum (qz 9))]) (TsNum (qz 50)) ;;;
  add_interaction env0 (TVar (spn "x" 2)) (NStr "gone") (num 6) (num 1) AtNone TsNone ;;;
  remove_interaction TNone (NStr "gone") ;;;
  set_offset (CNum (qz 5)).
Definition ising_model : lmodel := fst (ising_ops (new_model Ising)).
Definition feed0 : feed := [("lambda", qz 3)].

(** The same shape of model over 0/1 variables, with two constraints. *)
Definition qubo_ops : LM unit :=
  variables (VName "q") (ShTuple [ShInt 4]) ;;;
  add_interaction env0 (TVar (bin "q" 0)) (NStr "") (AC (CPh "lambda")) (num 1) AtNone TsNone ;;;
  add_interaction env0 (TTuple [EVar (bin "q" 1); EVar (bin "q" 0)]) (NStr "") (num 2) (num 5) AtNone TsNone ;;;
  add_interaction env0 (TVar (bin "q" 2)) (NStr "gone") (num 6) (num 1) AtNone TsNone ;;;
  remove_interaction (TNone) (NStr "gone") ;;;
  add_constraint (Some (NHot [bin "q" 0; bin "q" 1; bin "q" 2] 1 "one" (qz 10))) ;;;
  add_constraint (Some (Equality [bin "q" 0] [bin "q" 3] "same" (qz 4))).
Definition qubo_model : lmodel := fst (qubo_ops (new_model Qubo)).
(** An Ising model with a constraint. *)
Definition ising_con : lmodel :=
  fst (add_constraint (Some (NHot [spn "x" 0; spn "x" 1] 1 "one" (qz 10))) ising_model).

Lemma ising_ops_ok : snd (ising_ops (new_model Ising)) = Ok tt.
Proof. reflexivity. Qed.
Lemma qubo_ops_ok : snd (qubo_ops (new_model Qubo)) = Ok tt.
Proof. reflexivity. Qed.

(** Decision procedures for the well-formedness predicates on concrete models. *)
Definition nodupb {A} `{Eqb A} (l : list A) : bool :=
  (fix go l := match l with [] => true | x :: r => negb (mem x r) && go r end) l.
Definition ikey_eqb (a b : ikey) : bool :=
  match a, b with
  | K1 x, K1 y => String.eqb x y | K2 x y, K2 z w => String.eqb x z && String.eqb y w | _, _ => false end.
Definition key_okb (r : row) : bool :=
  ikey_eqb (r_key r) (inter_key (r_inter r)) &&
  match r_key r with K1 _ => true | K2 a b => String.ltb a b end.
Definition wfb (m : lmodel) : bool := nodupb (names m) && forallb key_okb (m_rows m).
Definition alignedb (m : lmodel) : bool :=
  (m_len m =? length (m_rows m))%nat &&
  (if list_eq_dec string_dec (dkeys (m_cols m)) (m_attrs m) then true else false) &&
  nodupb (m_attrs m) && forallb (fun kc => (length (snd kc) =? m_len m)%nat) (m_cols m).
Definition rowresb fd (r : row) : bool :=
  r_removed r || (match ceval fd (r_coef r) with Some _ => true | None => false end &&
                  match ceval fd (r_scale r) with Some _ => true | None => false end).
Definition resolvedb fd (m : lmodel) : bool :=
  forallb (rowresb fd) (m_rows m) && match ceval fd (m_offset m) with Some _ => true | None => false end.
From Verif Require Import PyLemmas.
Lemma nodupb_ok {A} `{Eqb A} (l : list A) : nodupb l = true -> NoDup l.
Proof.
  induction l as [|x l IH]; intros E; [constructor|]. simpl in E. apply andb_true_iff in E. destruct E as [E1 E2].
  constructor; auto. apply negb_true_iff in E1. apply mem_nin; auto.
Qed.
Lemma ikey_eqb_ok a b : ikey_eqb a b = true -> a = b.
Proof.
  destruct a, b; simpl; try discriminate; intros E.
  - apply String.eqb_eq in E; congruence.
  - apply andb_true_iff in E. destruct E as [E1 E2]. apply String.eqb_eq in E1, E2. congruence.
Qed.
Lemma wfb_ok m : wfb m = true -> well_formed m.
Proof.
  unfold wfb. intros E. apply andb_true_iff in E. destruct E as [E1 E2]. split; [apply nodupb_ok; auto|].
  apply Forall_forall. intros r Hr. rewrite forallb_forall in E2. specialize (E2 r Hr). unfold key_okb in E2.
  apply andb_true_iff in E2. destruct E2 as [E2 E3]. split; [apply ikey_eqb_ok; auto|]. destruct (r_key r); auto.
Qed.
Lemma alignedb_ok m : alignedb m = true -> aligned m.
Proof.
  unfold alignedb. intros E. repeat (apply andb_true_iff in E; destruct E as [E ?E]).
  split; [apply Nat.eqb_eq; auto|]. split; [destruct (list_eq_dec _ _ _); auto; discriminate|].
  split; [apply nodupb_ok; auto|]. apply Forall_forall. intros kc Hk. rewrite forallb_forall in E0.
  apply Nat.eqb_eq; auto.
Qed.
Lemma resolvedb_ok fd m : resolvedb fd m = true -> resolved fd m.
Proof.
  unfold resolvedb. intros E. apply andb_true_iff in E. destruct E as [E1 E2]. split.
  - intros r Hr HA. rewrite forallb_forall in E1. specialize (E1 r Hr). unfold rowresb in E1. rewrite HA in E1. simpl in E1.
    apply andb_true_iff in E1. unfold resolves. destruct (ceval fd (r_coef r)), (ceval fd (r_scale r)); simpl in *; split; destruct E1; congruence.
  - unfold resolves. destruct (ceval fd (m_offset m)); congruence.
Qed.

Lemma ising_wf : well_formed ising_model. Proof. apply wfb_ok; reflexivity. Qed.
Lemma ising_al : aligned ising_model. Proof. apply alignedb_ok; reflexivity. Qed.
Lemma ising_res : resolved feed0 ising_model. Proof. apply resolvedb_ok; reflexivity. Qed.
Lemma qubo_wf : well_formed qubo_model. Proof. apply wfb_ok; reflexivity. Qed.
Lemma qubo_al : aligned qubo_model. Proof. apply alignedb_ok; reflexivity. Qed.
Lemma qubo_res : resolved feed0 qubo_model. Proof. apply resolvedb_ok; reflexivity. Qed.
Lemma icon_wf : well_formed ising_con. Proof. apply wfb_ok; reflexivity. Qed.
Lemma icon_al : aligned ising_con. Proof. apply alignedb_ok; reflexivity. Qed.
Lemma icon_res : resolved feed0 ising_con. Proof. apply resolvedb_ok; reflexivity. Qed.
Definition purgeableb (m : lmodel) (cms : list lmodel) : bool :=
  forallb (fun r => negb (r_removed r) || forallb (fun cm => negb (mem (r_name r) (names cm))) cms) (m_rows m).
Lemma purgeableb_ok m cms : purgeableb m cms = true ->
  forall r cm, In r (m_rows m) -> r_removed r = true -> In cm cms -> ~ In (r_name r) (names cm).
Proof.
  unfold purgeableb. intros E r cm Hr HX HI. rewrite forallb_forall in E. specialize (E r Hr). rewrite HX in E. simpl in E.
  rewrite forallb_forall in E. specialize (E cm HI). apply negb_true_iff in E. apply mem_nin; auto.
Qed.

(** A call that returns normally, decided by running it. *)
Definition okb {S A} (x : S * res A) : bool := match snd x with Ok _ => true | Err _ => false end.
Lemma okb_ok {S} (x : S * res unit) : okb x = true -> x = (fst x, Ok tt).
Proof. destruct x as [s [[]|e]]; simpl; intros H; [auto|discriminate]. Qed.
Lemma okb_ex {S} (x : S * res unit) : okb x = true -> exists s, x = (s, Ok tt).
Proof. intros H. exists (fst x). apply okb_ok; auto. Qed.
