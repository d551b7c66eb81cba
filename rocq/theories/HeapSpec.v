(** * HeapSpec: what it means for objects of a program to be shared or left alone. *)
From Verif Require Import PyBase Constraint LogicalModel History Heap.
Open Scope list_scope.

(** model_k.get_constraints()[l] is constraint object [c]. *)
Definition holds (w : world) (k : nat) (l : string) (c : nat) : Prop :=
  exists h, nth_error (w_models w) k = Some h /\ dget l (h_constrs h) = Some c.
(** Model [k] holds constraint object [c] under some label. *)
Definition held (w : world) (k c : nat) : Prop := exists l, holds w k l c.
(** Constraint object [c] keeps its variables in set object [s]. *)
Definition uses (w : world) (c s : nat) : Prop :=
  exists o, nth_error (w_objs w) c = Some o /\
            match o with HNHot t _ _ _ | HZeroOrOne t _ _ => s = t | HEquality t u _ _ => s = t \/ s = u end.
(** No other model holds a constraint object of model [k]. *)
Definition private (w : world) (k : nat) : Prop := forall i c, i <> k -> held w k c -> ~ held w i c.

(** A statement that mentions neither model [k] nor a constraint object model
    [k] holds, and does not change a set in which such an object keeps its
    variables (all as they are in [w]). *)
Definition elsewhere (w : world) (k : nat) (s : stmt) : Prop :=
  match s with
  | SOp i _ => i <> k
  | SMerge i j => i <> k /\ j <> k
  | SAddConstraint i c => i <> k /\ forall x, c = Some x -> ~ held w k x
  | SAddVariable c _ | SRemoveVariable c _ | SEqAdd _ c _ | SEqRemove _ c _ => ~ held w k c
  | SSetAdd s _ | SSetDiscard s _ => forall c, held w k c -> ~ uses w c s
  | SSet _ | SNHot _ _ _ _ | SZeroOrOne _ _ _ | SEquality _ _ _ _ | SModel _ => True
  end.

(** Running a program: each statement with the clock and ids it sees. A
    statement that raises does not end the program (the caller catches). *)
Fixpoint run_all (ids : nat -> string) (p : list (env * env * (nat -> env) * stmt)) (w : world) : world :=
  match p with
  | [] => w
  | (ev, evo, evs, s) :: r => run_all ids r (fst (exec ids ev evo evs s w))
  end.

(** Constraints written down by value are sets, without duplicates. *)
Definition set_like (o : op) : Prop :=
  match o with
  | OAddConstraint (Some (NHot vs _ _ _)) | OAddConstraint (Some (ZeroOrOne vs _ _)) => NoDup vs
  | OAddConstraint (Some (Equality a b _ _)) => NoDup a /\ NoDup b
  | _ => True
  end.

(** The value a [variables] argument has at the time of the call. *)
Definition arg_value (w : world) (a : varg) : varsarg :=
  match a with
  | ByVal a => a
  | ByRef s => match nth_error (w_sets w) s with Some vs => VA_set (map Some vs) | None => VA_bad end
  end.
(** The calls of methods of a constraint object: the object, the argument, and
    what the method does to a constraint (Constraint.v). *)
Definition method (s : stmt) : option (nat * varg * (varsarg -> M constr unit)) :=
  match s with
  | SAddVariable c a => Some (c, a, c_add_variable)
  | SRemoveVariable c a => Some (c, a, c_remove_variable)
  | SEqAdd b c a => Some (c, a, c_eq_add b)
  | SEqRemove b c a => Some (c, a, c_eq_remove b)
  | _ => None
  end.
(** The calls that make a constraint object, and what they make. *)
Definition made (w : world) (s : stmt) : option (res constr) :=
  match s with
  | SNHot a n l q => Some (mk_nhot (option_map (arg_value w) a) n l q)
  | SZeroOrOne a l q => Some (mk_zero_or_one (option_map (arg_value w) a) l q)
  | SEquality a b l q => Some (mk_equality (option_map (arg_value w) a) (option_map (arg_value w) b) l q)
  | _ => None
  end.
(** The only calls meant to change constraint object [d]: its own methods,
    delete_variable of a model that holds it, and a change to a set object in
    which it keeps its variables. *)
Definition may_change (w : world) (d : nat) (s : stmt) : Prop :=
  match s with
  | SAddVariable c _ | SRemoveVariable c _ | SEqAdd _ c _ | SEqRemove _ c _ => c = d
  | SOp i (ODelete _) => held w i d
  | SSetAdd t _ | SSetDiscard t _ => uses w d t
  | _ => False
  end.
(** An argument that is not a set of the program: a list, an array, a
    generator, one variable, or nothing. *)
Definition not_a_set (a : option varg) : Prop := forall t, a <> Some (ByRef t).
Definition given_sets (s : stmt) : Prop :=
  match s with
  | SNHot a _ _ _ | SZeroOrOne a _ _ => ~ not_a_set a
  | SEquality a b _ _ => ~ (not_a_set a /\ not_a_set b)
  | _ => False
  end.
