(** * PyBase: the fragment of Python's semantics the model relies on.

    Exceptions are values, methods are state transformers that return the
    state even when they raise, dictionaries are insertion-ordered
    association lists, numbers are exact rationals. *)
From Coq Require Export String Ascii Bool Arith ZArith Lia List Permutation.
From Coq Require Export QArith Qcanon.
From Coq Require Import DecimalString DecimalNat.
Export ListNotations.
Close Scope Q_scope.
Close Scope Qc_scope.
Open Scope nat_scope.

(** Exception classes raised by /repo (or by the libraries it calls). *)
Inductive exn :=
| ValueError | TypeError | KeyError | IndexError | AttributeError
| ZeroDivisionError | UnboundLocalError | AssertionError
| PlaceholderError   (* PyQUBO: a placeholder has no value in feed_dict *)
| NotImplementedError
| NameError          (* pandas: an undefined name in a query *)
| UserError (code : nat).   (* raised by a user callback *)

Inductive res (A : Type) := Ok (a : A) | Err (e : exn).
Arguments Ok {A} a.
Arguments Err {A} e.

Definition rbind {A B} (m : res A) (k : A -> res B) : res B :=
  match m with Ok a => k a | Err e => Err e end.

(** A method: the state it leaves behind, and its result or exception. *)
Definition M (S A : Type) := S -> S * res A.
Definition ret {S A} (a : A) : M S A := fun s => (s, Ok a).
Definition raise {S A} (e : exn) : M S A := fun s => (s, Err e).
Definition bind {S A B} (m : M S A) (k : A -> M S B) : M S B :=
  fun s => match m s with
           | (s', Ok a) => k a s'
           | (s', Err e) => (s', Err e)
           end.
Definition get {S} : M S S := fun s => (s, Ok s).
Definition put {S} (s : S) : M S unit := fun _ => (s, Ok tt).
Definition modify {S} (f : S -> S) : M S unit := fun s => (f s, Ok tt).
Definition lift {S A} (r : res A) : M S A := fun s => (s, r).
Definition guard {S} (b : bool) (e : exn) : M S unit :=
  if b then ret tt else raise e.

Declare Scope py_scope.
Delimit Scope py_scope with py.
Notation "x <- m ;; k" := (bind m (fun x => k))
  (at level 90, m at next level, right associativity) : py_scope.
Notation "m ;;; k" := (bind m (fun _ => k))
  (at level 90, right associativity) : py_scope.
Open Scope py_scope.

(** [for x in l: body(x)] over a list fixed before the loop starts. *)
Fixpoint mfor {S A} (l : list A) (body : A -> M S unit) : M S unit :=
  match l with
  | [] => ret tt
  | x :: r => body x ;;; mfor r body
  end.

(** Decidable equality used for dictionary keys and [in] tests. *)
Class Eqb (A : Type) := { eqb : A -> A -> bool;
                          eqb_eq : forall x y, eqb x y = true <-> x = y }.
#[export] Instance Eqb_string : Eqb string :=
  { eqb := String.eqb; eqb_eq := String.eqb_eq }.
#[export] Instance Eqb_nat : Eqb nat := { eqb := Nat.eqb; eqb_eq := Nat.eqb_eq }.
#[export] Instance Eqb_Z : Eqb Z := { eqb := Z.eqb; eqb_eq := Z.eqb_eq }.

Definition pair_eqb {A B} `{Eqb A} `{Eqb B} (x y : A * B) : bool :=
  eqb (fst x) (fst y) && eqb (snd x) (snd y).
Lemma pair_eqb_eq {A B} `{Eqb A} `{Eqb B} (x y : A * B) :
  pair_eqb x y = true <-> x = y.
Proof.
  destruct x as [a b], y as [c d]; unfold pair_eqb; simpl.
  rewrite andb_true_iff, !eqb_eq. split; [intros [-> ->]; auto | intros E; inversion E; auto].
Qed.
#[export] Instance Eqb_pair {A B} `{Eqb A} `{Eqb B} : Eqb (A * B) :=
  { eqb := pair_eqb; eqb_eq := pair_eqb_eq }.

Definition Qc_eqb (x y : Qc) : bool := if Qc_eq_dec x y then true else false.
Lemma Qc_eqb_eq x y : Qc_eqb x y = true <-> x = y.
Proof. unfold Qc_eqb; destruct (Qc_eq_dec x y); split; congruence. Qed.
#[export] Instance Eqb_Qc : Eqb Qc := { eqb := Qc_eqb; eqb_eq := Qc_eqb_eq }.

Definition mem {A} `{Eqb A} (x : A) (l : list A) : bool := existsb (eqb x) l.

(** [list.index(x)]: position of the first occurrence. *)
Fixpoint index_of {A} `{Eqb A} (x : A) (l : list A) : option nat :=
  match l with
  | [] => None
  | y :: r => if eqb x y then Some 0
              else match index_of x r with Some i => Some (S i) | None => None end
  end.

(** [l[i] = v] for a valid index; out of range gives [None] (IndexError). *)
Fixpoint set_nth {A} (i : nat) (v : A) (l : list A) : option (list A) :=
  match l, i with
  | [], _ => None
  | _ :: r, 0 => Some (v :: r)
  | x :: r, S i' => match set_nth i' v r with Some r' => Some (x :: r') | None => None end
  end.

(** [l.pop(i)] for i >= 0. *)
Fixpoint pop_nth {A} (i : nat) (l : list A) : option (list A) :=
  match l, i with
  | [], _ => None
  | _ :: r, 0 => Some r
  | x :: r, S i' => match pop_nth i' r with Some r' => Some (x :: r') | None => None end
  end.

(** Total in-place update used where the index is known to be valid. *)
Fixpoint upd_nth {A} (i : nat) (f : A -> A) (l : list A) : list A :=
  match l, i with
  | [], _ => []
  | x :: r, 0 => f x :: r
  | x :: r, S i' => x :: upd_nth i' f r
  end.

(** Dictionaries: insertion-ordered association lists. *)
Definition dict (K V : Type) := list (K * V).

Section Dict.
  Context {K V : Type} `{Eqb K}.
  Fixpoint dget (k : K) (d : dict K V) : option V :=
    match d with
    | [] => None
    | (k', v) :: r => if eqb k k' then Some v else dget k r
    end.
  Fixpoint dset (k : K) (v : V) (d : dict K V) : dict K V :=
    match d with
    | [] => [(k, v)]
    | (k', v') :: r => if eqb k k' then (k', v) :: r else (k', v') :: dset k v r
    end.
  Fixpoint ddel (k : K) (d : dict K V) : dict K V :=
    match d with
    | [] => []
    | (k', v') :: r => if eqb k k' then r else (k', v') :: ddel k r
    end.
  Definition dmem (k : K) (d : dict K V) : bool :=
    match dget k d with Some _ => true | None => false end.
  Definition dkeys (d : dict K V) : list K := map fst d.
  Definition dvals (d : dict K V) : list V := map snd d.
  Definition dupdate (d d' : dict K V) : dict K V :=
    fold_left (fun acc kv => dset (fst kv) (snd kv) acc) d' d.
End Dict.

(** [str(n)] for a non-negative int. *)
Definition str_of_nat (n : nat) : string :=
  NilEmpty.string_of_uint (Nat.to_uint n).

Definition cat := String.append.
Infix "+++" := String.append (at level 60, right associativity) : string_scope.

(** Does character [c] occur in [s]? *)
Fixpoint has_char (c : ascii) (s : string) : bool :=
  match s with
  | EmptyString => false
  | String d r => Ascii.eqb c d || has_char c r
  end.

(** [s[:s.index(c)]], [None] when [c] does not occur (ValueError). *)
Fixpoint before_char (c : ascii) (s : string) : option string :=
  match s with
  | EmptyString => None
  | String d r => if Ascii.eqb c d then Some EmptyString
                  else match before_char c r with
                       | Some p => Some (String d p) | None => None end
  end.

(** Rationals used in examples and constants. *)
Definition qz (z : Z) : Qc := Q2Qc (inject_Z z).
Definition qfrac (n : Z) (d : positive) : Qc := Q2Qc (n # d).

Fixpoint qsum (l : list Qc) : Qc :=
  match l with [] => 0%Qc | x :: r => (x + qsum r)%Qc end.

Definition Qcle_bool (x y : Qc) : bool := Qle_bool (this x) (this y).
Definition Qclt_bool (x y : Qc) : bool := negb (Qcle_bool y x).
