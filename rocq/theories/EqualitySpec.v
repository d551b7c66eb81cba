(** * EqualitySpec: what it means for two models to have the same content. *)
From Verif Require Import PyBase Constraint LogicalModel.
Open Scope list_scope.

(** Two dictionaries with the same keys and related values, in any order. *)
Definition match_dict {K V} `{Eqb K} (R : V -> V -> Prop) (d d' : dict K V) : Prop :=
  forall k, match dget k d, dget k d' with
            | Some v, Some w => R v w
            | None, None => True
            | _, _ => False
            end.
(** The same elements, in any order. *)
Definition same_set (a b : list var) : Prop := forall v, In v a <-> In v b.
(** The same kind of constraint with the same parameters over the same variables. *)
Definition same_constr (c c' : constr) : Prop :=
  match c, c' with
  | NHot vs n l s, NHot vs' n' l' s' => same_set vs vs' /\ n = n' /\ l = l' /\ s = s'
  | ZeroOrOne vs l s, ZeroOrOne vs' l' s' => same_set vs vs' /\ l = l' /\ s = s'
  | Equality a b l s, Equality a' b' l' s' => same_set a a' /\ same_set b b' /\ l = l' /\ s = s'
  | _, _ => False
  end.
(** Same type, arrays, interactions (in the same order, with the same attributes),
    constraints, deleted and fixed variables, and offset. What the last to_physical
    returned is not part of the content. *)
Record same_content (m m' : lmodel) : Prop := {
  sc_type : m_mtype m = m_mtype m';
  sc_vars : match_dict eq (m_vars m) (m_vars m');
  sc_rows : m_rows m = m_rows m';
  sc_cols : match_dict eq (m_cols m) (m_cols m');
  sc_attrs : m_attrs m = m_attrs m';
  sc_len : m_len m = m_len m';
  sc_constrs : match_dict same_constr (m_constrs m) (m_constrs m');
  sc_deleted : match_dict eq (m_deleted m) (m_deleted m');
  sc_fixed : match_dict eq (m_fixed m) (m_fixed m');
  sc_offset : m_offset m = m_offset m' }.

(** Every dictionary of the model has each key once, as Python dictionaries do. *)
Definition proper (m : lmodel) : Prop :=
  NoDup (dkeys (m_vars m)) /\ NoDup (dkeys (m_deleted m)) /\ NoDup (dkeys (m_fixed m)) /\
  NoDup (dkeys (m_constrs m)) /\ NoDup (dkeys (m_cols m)) /\ NoDup (m_attrs m).
