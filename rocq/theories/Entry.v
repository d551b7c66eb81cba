(** * Entry: constructors and getters that only check their argument, and the
    type checks at the head of merge and from_pyqubo. *)
From Verif Require Import PyBase Constraint LogicalModel.
Local Open Scope string_scope.
Local Open Scope list_scope.

(** The [mtype] argument: a string, or any other object (equal to no string). *)
Inductive mtarg := MtStr (s : string) | MtOther.
(** abstract_model.py 19-24; constants.py MODEL_ISING, MODEL_QUBO. *)
Definition check_mtype (a : mtarg) : res mtype :=
  match a with
  | MtStr s => if String.eqb s "ising" then Ok Ising else if String.eqb s "qubo" then Ok Qubo else Err ValueError
  | MtOther => Err ValueError
  end.
(** LogicalModel(mtype) (logical_model.py 34-48). *)
Definition logical_model (a : mtarg) : res lmodel := rbind (check_mtype a) (fun t => Ok (new_model t)).
(** PhysicalModel(mtype) (physical_model.py 23-33). *)
Definition physical_model (a : mtarg) : res physical :=
  rbind (check_mtype a) (fun t => Ok (mkPhysical t [] [] 0%Qc [] [] [])).
(** get_mtype (abstract_model.py 26-27). *)
Definition get_mtype (m : lmodel) : string := match m_mtype m with Ising => "ising" | Qubo => "qubo" end.

(** get_constraints_by_label (logical_model.py 859-863). *)
Definition get_constraints_by_label (l : string) : LM constr :=
  m <- get ;; lift (match dget l (m_constrs m) with Some c => Ok c | None => Err KeyError end).
(** get_deleted_array, get_fixed_array (logical_model.py 792-802). *)
Definition get_deleted_array (m : lmodel) : list string := dkeys (m_deleted m).
Definition get_fixed_array (m : lmodel) : list string := dkeys (m_fixed m).

(** merge (logical_model.py 612-613): [None] is an argument that is not a LogicalModel. *)
Definition merge_checked (ev evo : env) (k : nat) (m : lmodel) (other : option lmodel) : lmodel * option lmodel * res unit :=
  match other with
  | None => (m, None, Err TypeError)
  | Some o => match merge ev evo k m o with (m', o', r) => (m', Some o', r) end
  end.
(** from_pyqubo (logical_model.py 455-463): an expression is compiled first (by PyQUBO,
    [compile]); [None] is an argument that is neither. *)
Inductive pqarg (E : Type) := PqExpression (e : E) | PqCompiled (pq : pqmodel) | PqOther.
Arguments PqExpression {E} e. Arguments PqCompiled {E} pq. Arguments PqOther {E}.
Definition from_pyqubo_checked {E} (compile : E -> res pqmodel) (ev : env) (m : lmodel) (a : pqarg E) : lmodel * res unit :=
  match a with
  | PqOther => (m, Err TypeError)
  | PqCompiled pq => match from_pyqubo ev m pq with (m', _, r) => (m', r) end
  | PqExpression e =>
      match compile e with
      | Err x => (m, Err x)
      | Ok pq => match from_pyqubo ev m pq with (m', _, r) => (m', r) end
      end
  end.
