(** * Heap: a program with several logical models, constraint objects and sets.

    In Python a constraint is an object: a model holds a reference to it, two
    models may hold the same one, and so may the program. A constraint in turn
    holds a reference to a set of variables. LogicalModel.v and Constraint.v
    treat both as values; here they are objects in a heap. *)
From Verif Require Import PyBase Constraint LogicalModel History.
Open Scope list_scope.

(** A constraint object with references to its sets:
    n_hot_constraint.py 21-34, zero_or_one_hot_constraint.py 26-34,
    equality_constraint.py 21-33. *)
Inductive cobj :=
| HNHot (s : nat) (n : Z) (label : string) (strength : Qc)
| HZeroOrOne (s : nat) (label : string) (strength : Qc)
| HEquality (s1 s2 : nat) (label : string) (strength : Qc).
Definition o_label (o : cobj) : string :=
  match o with HNHot _ _ l _ | HZeroOrOne _ l _ | HEquality _ _ l _ => l end.

(** A logical model object: its own fields (the field [m_constrs] of [h_core]
    is not used) and the references in self._constraints (logical_model.py 42). *)
Record hmodel := mkH { h_core : lmodel; h_constrs : dict string nat }.

(** All objects of a program; an address is a position in these lists. *)
Record world := mkW { w_sets : list (list var); w_objs : list cobj; w_models : list hmodel }.
Definition empty_world : world := mkW [] [] [].

(** The current content of a set, of a constraint, of a model. *)
Definition set_at (w : world) (s : nat) : list var := nth s (w_sets w) [].
Definition value_of (w : world) (o : cobj) : constr :=
  match o with
  | HNHot s n l q => NHot (set_at w s) n l q
  | HZeroOrOne s l q => ZeroOrOne (set_at w s) l q
  | HEquality s1 s2 l q => Equality (set_at w s1) (set_at w s2) l q
  end.
Definition constr_at (w : world) (c : nat) : constr :=
  value_of w (nth c (w_objs w) (HZeroOrOne 0 "" 0%Qc)).
Definition content (w : world) (h : hmodel) : lmodel :=
  with_constrs (map (fun kc => (fst kc, constr_at w (snd kc))) (h_constrs h)) (h_core h).
Definition model_at (w : world) (i : nat) : option lmodel :=
  option_map (content w) (nth_error (w_models w) i).

(** Replacing the [i]-th entry of a list. *)
Fixpoint put_nth {A} (i : nat) (x : A) (l : list A) : list A :=
  match l, i with
  | [], _ => []
  | _ :: r, 0 => x :: r
  | y :: r, S i => y :: put_nth i x r
  end.
Definition with_sets s w := mkW s (w_objs w) (w_models w).
Definition with_objs o w := mkW (w_sets w) o (w_models w).
Definition with_models m w := mkW (w_sets w) (w_objs w) m.

Definition WM := M world.
(** A new set object; its address. *)
Definition new_set (vs : list var) : WM nat := fun w =>
  (with_sets (w_sets w ++ [vs]) w, Ok (length (w_sets w))).

(** The [variables] argument: a set of the program, by reference, or anything
    else, by value. *)
Inductive varg := ByRef (s : nat) | ByVal (a : varsarg).

(** abstract_constraint.py 35-45 _check_variables_and_to_set: a set is returned
    as it is (41-42), anything else is copied into a new set. *)
Definition h_check (a : varg) : WM nat := fun w =>
  match a with
  | ByRef s => match nth_error (w_sets w) s with
               | Some (_ :: _) => (w, Ok s)
               | _ => (w, Err TypeError)
               end
  | ByVal a => match check_variables_and_to_set a with
               | Ok vs => new_set vs w
               | Err e => (w, Err e)
               end
  end.

(** The object at an address; a program cannot name one it does not have. *)
Definition get_obj (c : nat) : WM cobj := fun w =>
  match nth_error (w_objs w) c with Some o => (w, Ok o) | None => (w, Err UnboundLocalError) end.
Definition set_obj (c : nat) (o : cobj) : WM unit := fun w =>
  (with_objs (put_nth c o (w_objs w)) w, Ok tt).

(** n_hot_constraint.py 36-38, zero_or_one_hot_constraint.py 36-38 add_variable:
    set.union makes a new set. EqualityConstraint has no such method. *)
Definition h_add_variable (c : nat) (a : varg) : WM unit :=
  o <- get_obj c ;;
  match o with
  | HNHot s n l q => t <- h_check a ;; w <- get ;;
                     u <- new_set (set_union (set_at w s) (set_at w t)) ;; set_obj c (HNHot u n l q)
  | HZeroOrOne s l q => t <- h_check a ;; w <- get ;;
                        u <- new_set (set_union (set_at w s) (set_at w t)) ;; set_obj c (HZeroOrOne u l q)
  | HEquality _ _ _ _ => raise AttributeError
  end.

(** n_hot_constraint.py 40-45, zero_or_one_hot_constraint.py 40-45
    remove_variable: set.difference makes a new set. *)
Definition h_remove_variable (c : nat) (a : varg) : WM unit :=
  o <- get_obj c ;;
  match o with
  | HNHot s n l q => t <- h_check a ;; w <- get ;;
      guard (forallb (fun v => mem v (set_at w s)) (set_at w t)) ValueError ;;;
      u <- new_set (set_diff (set_at w s) (set_at w t)) ;; set_obj c (HNHot u n l q)
  | HZeroOrOne s l q => t <- h_check a ;; w <- get ;;
      guard (forallb (fun v => mem v (set_at w s)) (set_at w t)) ValueError ;;;
      u <- new_set (set_diff (set_at w s) (set_at w t)) ;; set_obj c (HZeroOrOne u l q)
  | HEquality _ _ _ _ => raise AttributeError
  end.

(** equality_constraint.py 35-55 add_variable_to_1/2, remove_variable_from_1/2. *)
Definition h_eq_add (side1 : bool) (c : nat) (a : varg) : WM unit :=
  o <- get_obj c ;;
  match o with
  | HEquality s1 s2 l q => t <- h_check a ;; w <- get ;;
      u <- new_set (set_union (set_at w (if side1 then s1 else s2)) (set_at w t)) ;;
      set_obj c (if side1 then HEquality u s2 l q else HEquality s1 u l q)
  | _ => raise AttributeError
  end.
Definition h_eq_remove (side1 : bool) (c : nat) (a : varg) : WM unit :=
  o <- get_obj c ;;
  match o with
  | HEquality s1 s2 l q => t <- h_check a ;; w <- get ;;
      guard (forallb (fun v => mem v (set_at w (if side1 then s1 else s2))) (set_at w t)) ValueError ;;;
      u <- new_set (set_diff (set_at w (if side1 then s1 else s2)) (set_at w t)) ;;
      set_obj c (if side1 then HEquality u s2 l q else HEquality s1 u l q)
  | _ => raise AttributeError
  end.

(** Constructors: n_hot_constraint.py 21-34, zero_or_one_hot_constraint.py
    26-34, equality_constraint.py 21-33, abstract_constraint.py 24-33.
    [None] for [variables]: a new empty set. *)
Definition h_vars (a : option varg) : WM nat :=
  match a with None => new_set [] | Some a => h_check a end.
Definition h_common (label : option string) (strength : option Qc) : WM (string * Qc) :=
  match label with
  | None => raise TypeError
  | Some l => if String.eqb l "" then raise ValueError
              else match strength with None => raise TypeError | Some q => ret (l, q) end
  end.
Definition new_obj (o : cobj) : WM unit := fun w => (with_objs (w_objs w ++ [o]) w, Ok tt).
Definition h_nhot (a : option varg) (n : option Z) (label : option string) (strength : option Qc) : WM unit :=
  lq <- h_common label strength ;; s <- h_vars a ;;
  match n with
  | None => raise TypeError
  | Some n => if (n <=? 0)%Z then raise ValueError else new_obj (HNHot s n (fst lq) (snd lq))
  end.
Definition h_zero_or_one (a : option varg) (label : option string) (strength : option Qc) : WM unit :=
  lq <- h_common label strength ;; s <- h_vars a ;; new_obj (HZeroOrOne s (fst lq) (snd lq)).
(** A name of a set is bound before the call: it cannot be one the call makes. *)
Definition bound (w : world) (a : varg) : varg :=
  match a with ByRef s => if (s <? length (w_sets w))%nat then a else ByVal VA_bad | ByVal _ => a end.
Definition h_equality (a b : option varg) (label : option string) (strength : option Qc) : WM unit :=
  lq <- h_common label strength ;; w <- get ;; s <- h_vars a ;; t <- h_vars (option_map (bound w) b) ;;
  new_obj (HEquality s t (fst lq) (snd lq)).

(** ** Models *)

Definition get_model (i : nat) : WM hmodel := fun w =>
  match nth_error (w_models w) i with Some h => (w, Ok h) | None => (w, Err UnboundLocalError) end.
Definition set_model (i : nat) (h : hmodel) : WM unit := fun w =>
  (with_models (put_nth i h (w_models w)) w, Ok tt).

(** A method of model [i] that reads its constraints but stores nothing in
    self._constraints and calls no method that changes a constraint. *)
Definition on_model (i : nat) (f : LM unit) : WM unit :=
  h <- get_model i ;;
  w <- get ;;
  match f (content w h) with
  | (m, r) => set_model i (mkH (with_constrs [] m) (h_constrs h)) ;;; lift r
  end.

(** logical_model.py 354-369 delete_variable: remove_variable is called on the
    constraint objects themselves (363-364). *)
Definition h_delete (i : nat) (t : target) : WM unit :=
  h <- get_model i ;;
  guard (t_truthy t) ValueError ;;;
  match t with
  | TVar v =>
      on_model i (modify (fun m => with_deleted (dset (v_label v) true (m_deleted m)) m)) ;;;
      mfor (h_constrs h) (fun kc => h_remove_variable (snd kc) (ByVal (VA_one v))) ;;;
      on_model i (sel <- select_by_variable (v_label v) ;; mfor sel (fun n => remove_interaction TNone (NStr n)))
  | _ => raise TypeError
  end.

(** 426-429 add_constraint: the reference is stored. [None]: not a constraint. *)
Definition h_add_constraint (i : nat) (c : option nat) : WM unit :=
  h <- get_model i ;;
  match c with
  | None => raise TypeError
  | Some c => o <- get_obj c ;; set_model i (mkH (h_core h) (dset (o_label o) c (h_constrs h)))
  end.

(** 431-433 remove_constraint. [None]: not a str. *)
Definition h_remove_constraint (i : nat) (l : option string) : WM unit :=
  h <- get_model i ;;
  match l with
  | None => raise TypeError
  | Some l => if dmem l (h_constrs h) then set_model i (mkH (h_core h) (ddel l (h_constrs h))) else raise KeyError
  end.

(** Any other method of LogicalModel.v; a constraint given by value is a new
    object no one else holds, with new sets. *)
Definition h_fresh (c : constr) : WM nat :=
  o <- match c with
       | NHot vs n l q => s <- new_set (to_set [] vs) ;; ret (HNHot s n l q)
       | ZeroOrOne vs l q => s <- new_set (to_set [] vs) ;; ret (HZeroOrOne s l q)
       | Equality a b l q => s <- new_set (to_set [] a) ;; t <- new_set (to_set [] b) ;; ret (HEquality s t l q)
       end ;;
  w <- get ;;
  new_obj o ;;; ret (length (w_objs w)).
Definition h_op (ev : env) (evs : nat -> env) (i : nat) (o : op) : WM unit :=
  match o with
  | ODelete t => h_delete i t
  | OAddConstraint None => h_add_constraint i None
  | OAddConstraint (Some c) => get_model i ;;; k <- h_fresh c ;; h_add_constraint i (Some k)
  | ORemoveConstraint l => h_remove_constraint i l
  | _ => on_model i (do_op ev evs o)
  end.

(** 612-671 merge: the references of other are stored in self (666), before
    the last fields are merged. [ids i] is id() of model [i]; merging a model
    with itself reads and writes the same object. *)
Definition with_ids (a b : string) (ev : env) : env := mkEnv (e_now ev) (e_import ev) (e_clock_str ev) a (fun _ => b).
Definition h_merge (ids : nat -> string) (ev evo : env) (i j : nat) : WM unit :=
  h <- get_model i ;;
  g <- get_model j ;;
  w <- get ;;
  match merge (with_ids (ids i) (ids j) ev) evo 0 (content w h) (content w g) with
  | (m, o, r) =>
      (if Nat.eqb i j then ret tt else set_model j (mkH (with_constrs [] o) (h_constrs g))) ;;;
      set_model i (mkH (with_constrs [] m)
                       (match r with Ok _ => dupdate (h_constrs h) (h_constrs g) | Err _ => h_constrs h end)) ;;;
      lift r
  end.

(** ** Programs *)

(** One statement of a program. *)
Inductive stmt :=
| SSet (vs : list var)                                  (* s = {...} *)
| SSetAdd (s : nat) (v : var)                           (* s.add(v), Python *)
| SSetDiscard (s : nat) (v : var)                       (* s.discard(v), Python *)
| SNHot (a : option varg) (n : option Z) (label : option string) (strength : option Qc)
| SZeroOrOne (a : option varg) (label : option string) (strength : option Qc)
| SEquality (a b : option varg) (label : option string) (strength : option Qc)
| SAddVariable (c : nat) (a : varg)
| SRemoveVariable (c : nat) (a : varg)
| SEqAdd (side1 : bool) (c : nat) (a : varg)
| SEqRemove (side1 : bool) (c : nat) (a : varg)
| SModel (t : mtype)                                    (* logical_model.py 33-54 *)
| SAddConstraint (i : nat) (c : option nat)
| SOp (i : nat) (o : op)
| SMerge (i j : nat).

Definition set_change (f : list var -> list var) (s : nat) : WM unit := fun w =>
  match nth_error (w_sets w) s with
  | Some vs => (with_sets (put_nth s (f vs) (w_sets w)) w, Ok tt)
  | None => (w, Err UnboundLocalError)
  end.
Definition exec (ids : nat -> string) (ev evo : env) (evs : nat -> env) (s : stmt) : WM unit :=
  match s with
  | SSet vs => new_set (to_set [] vs) ;;; ret tt
  | SSetAdd s v => set_change (fun vs => set_union vs [v]) s
  | SSetDiscard s v => set_change (fun vs => set_diff vs [v]) s
  | SNHot a n l q => h_nhot a n l q
  | SZeroOrOne a l q => h_zero_or_one a l q
  | SEquality a b l q => h_equality a b l q
  | SAddVariable c a => h_add_variable c a
  | SRemoveVariable c a => h_remove_variable c a
  | SEqAdd b c a => h_eq_add b c a
  | SEqRemove b c a => h_eq_remove b c a
  | SModel t => fun w => (with_models (w_models w ++ [mkH (new_model t) []]) w, Ok tt)
  | SAddConstraint i c => h_add_constraint i c
  | SOp i o => h_op ev evs i o
  | SMerge i j => h_merge ids ev evo i j
  end.

(** Every state a program can reach, whatever it calls, in whatever order, and
    whichever calls raise. *)
Inductive runs (ids : nat -> string) : world -> Prop :=
| runs_start : runs ids empty_world
| runs_step ev evo evs s w : runs ids w -> runs ids (fst (exec ids ev evo evs s w)).
