(** * History: every sequence of calls a user can make on logical models. *)
From Verif Require Import PyBase Constraint LogicalModel.
Open Scope list_scope.

(** One call of a public method of LogicalModel (sawatabi/model/logical_model.py),
    with well- or ill-typed arguments. *)
Inductive op :=
| OVariables (n : nameorarray) (sh : sharg)                                              (* 60-81 *)
| OAppend (n : nameorarray) (sh : sharg)                                                 (* 83-98 *)
| OAdd (t : target) (n : narg) (co sc : carg) (a : attrarg) (ts : tsarg)                 (* 126-196 *)
| OUpdate (t : target) (n : narg) (co sc : option carg) (a : attrarg) (ts : tsarg)       (* 202-260 *)
| ORemove (t : target) (n : narg)                                                        (* 266-278 *)
| ODelete (t : target)                                                                   (* 354-369 *)
| OFix (t : target) (v : Qc)                                                             (* 375-420 *)
| OAddConstraint (c : option constr)                                                     (* 426-431 *)
| ORemoveConstraint (l : option string)                                                  (* 433-437 *)
| OOffset (c : coef)                                                                     (* 439-443 *)
| OPyqubo (pq : pqmodel)                                                                 (* 455-492 *)
| OIsing                                                                                 (* 706-739 *)
| OQubo                                                                                  (* 741-774 *)
| OPhysical (fd : feed).                                                                 (* 498-610 *)

(** The model after the call, and whether it returned or raised. [ev], [evs]:
    clock readings and object ids during the call. *)
Definition do_op (ev : env) (evs : nat -> env) (o : op) (m : lmodel) : lmodel * res unit :=
  match o with
  | OVariables n sh => variables n sh m
  | OAppend n sh => append n sh m
  | OAdd t n co sc a ts => add_interaction ev t n co sc a ts m
  | OUpdate t n co sc a ts => update_interaction ev t n co sc a ts m
  | ORemove t n => remove_interaction t n m
  | ODelete t => delete_variable t m
  | OFix t v => fix_variable ev t v m
  | OAddConstraint c => add_constraint c m
  | ORemoveConstraint l => remove_constraint l m
  | OOffset c => set_offset c m
  | OPyqubo pq => match from_pyqubo ev m pq with (m', _, r) => (m', r) end
  | OIsing => to_ising ev m
  | OQubo => to_qubo ev m
  | OPhysical fd => match to_physical ev evs fd m with
                    | (m', Ok _) => (m', Ok tt) | (m', Err e) => (m', Err e) end
  end.

(** The models obtained from an empty one by any sequence of such calls, each
    of which may return or raise. *)
Inductive history : lmodel -> Prop :=
| h_new t : history (new_model t)
| h_op ev evs o m : history m -> history (fst (do_op ev evs o m)).

(** The same with merge of two such models (612-671), which may change both. *)
Inductive reachable : lmodel -> Prop :=
| r_new t : reachable (new_model t)
| r_op ev evs o m : reachable m -> reachable (fst (do_op ev evs o m))
| r_merge ev evo k m o : reachable m -> reachable o -> reachable (fst (fst (merge ev evo k m o)))
| r_merged ev evo k m o : reachable m -> reachable o -> reachable (snd (fst (merge ev evo k m o))).

(** Histories in which to_physical does not raise while the model has constraints. *)
Inductive calm : lmodel -> Prop :=
| c_new t : calm (new_model t)
| c_op ev evs o m : calm m ->
    (forall fd, o = OPhysical fd -> m_constrs m = [] \/ snd (do_op ev evs o m) = Ok tt) ->
    calm (fst (do_op ev evs o m)).

(** Histories (with merge) in which attribute dictionaries have distinct keys,
    as every Python dict has, and update_interaction sets known attributes only. *)
Definition attrs_of (a : attrarg) : dict string aval := match a with AtDict d => d | _ => [] end.
Definition orderly (o : op) (m : lmodel) : Prop :=
  match o with
  | OAdd _ _ _ _ a _ => NoDup (dkeys (attrs_of a))
  | OUpdate _ _ _ _ a _ => NoDup (dkeys (attrs_of a)) /\ forall k, In k (dkeys (attrs_of a)) -> In (attr_key k) (m_attrs m)
  | _ => True
  end.
Inductive tidy : lmodel -> Prop :=
| t_new t : tidy (new_model t)
| t_op ev evs o m : tidy m -> orderly o m -> tidy (fst (do_op ev evs o m))
| t_merge ev evo k m o : tidy m -> tidy o -> tidy (fst (fst (merge ev evo k m o)))
| t_merged ev evo k m o : tidy m -> tidy o -> tidy (snd (fst (merge ev evo k m o))).
