(** * ModelEq: == of logical models and of constraints. *)
From Verif Require Import PyBase Constraint LogicalModel Physical.
Open Scope list_scope.

Definition vtype_eq_dec (a b : vtype) : {a = b} + {a <> b}. Proof. decide equality. Defined.
Definition var_eq_dec (a b : var) : {a = b} + {a <> b}. Proof. decide equality; [apply vtype_eq_dec|apply string_dec]. Defined.
Definition coef_eq_dec (a b : coef) : {a = b} + {a <> b}.
Proof. decide equality; [apply Qc_eq_dec|apply string_dec]. Defined.
Definition ikey_eq_dec (a b : ikey) : {a = b} + {a <> b}. Proof. decide equality; apply string_dec. Defined.
Definition inter_eq_dec (a b : inter) : {a = b} + {a <> b}. Proof. decide equality; apply var_eq_dec. Defined.
Definition aval_eq_dec (a b : aval) : {a = b} + {a <> b}. Proof. decide equality; [apply Qc_eq_dec|apply string_dec]. Defined.
Definition row_eq_dec (a b : row) : {a = b} + {a <> b}.
Proof.
  decide equality; try apply bool_dec; try apply coef_eq_dec; try apply string_dec.
  - decide equality. apply Qc_eq_dec.
  - apply inter_eq_dec.
  - apply ikey_eq_dec.
Defined.
Definition array_eq_dec (a b : array) : {a = b} + {a <> b}.
Proof. decide equality; apply list_eq_dec; [apply var_eq_dec|apply Z.eq_dec]. Defined.
Definition decb {P Q : Prop} (d : {P} + {Q}) : bool := if d then true else false.

(** == of two dictionaries: as many keys, and every key of the first is a key of
    the second with an equal value. *)
Definition dict_eqb_by {K V} `{Eqb K} (r : V -> V -> bool) (a b : dict K V) : bool :=
  Nat.eqb (length a) (length b) &&
  forallb (fun kv => match dget (fst kv) b with Some w => r (snd kv) w | None => false end) a.

(** == of two sets: as many elements, and every element of the first is in the second. *)
Definition set_eqb (a b : list var) : bool :=
  Nat.eqb (length a) (length b) && forallb (fun v => mem v b) a.

(** n_hot_constraint.py 72-80, zero_or_one_hot_constraint.py 67-74,
    equality_constraint.py 92-100. isinstance and _constraint_class are the
    constructor of [constr]. *)
Definition constr_eqb (c c' : constr) : bool :=
  match c, c' with
  | NHot vs n l s, NHot vs' n' l' s' =>
      set_eqb vs vs' && Z.eqb n n' && String.eqb l l' && Qc_eqb s s'
  | ZeroOrOne vs l s, ZeroOrOne vs' l' s' =>
      set_eqb vs vs' && String.eqb l l' && Qc_eqb s s'
  | Equality a b l s, Equality a' b' l' s' =>
      set_eqb a a' && set_eqb b b' && String.eqb l l' && Qc_eqb s s'
  | _, _ => false
  end.

(** logical_model.py 868-880. PyQUBO's variables, coefficients and arrays
    (external) are compared by value. An attribute that was not set is the object
    np.nan, which a list comparison finds equal to itself. [None]: the other
    object is not a LogicalModel. *)
Definition model_eqb (m : lmodel) (other : option lmodel) : bool :=
  match other with
  | None => false
  | Some o =>
      mtype_eqb (m_mtype m) (m_mtype o)
      && dict_eqb_by (fun a b => decb (array_eq_dec a b)) (m_vars m) (m_vars o)
      && (decb (list_eq_dec row_eq_dec (m_rows m) (m_rows o))
          && dict_eqb_by (fun a b => decb (list_eq_dec aval_eq_dec a b)) (m_cols m) (m_cols o))
      && decb (list_eq_dec string_dec (m_attrs m) (m_attrs o))
      && Nat.eqb (m_len m) (m_len o)
      && dict_eqb_by constr_eqb (m_constrs m) (m_constrs o)
      && dict_eqb_by Bool.eqb (m_deleted m) (m_deleted o)
      && dict_eqb_by Bool.eqb (m_fixed m) (m_fixed o)
      && decb (coef_eq_dec (m_offset m) (m_offset o))
  end.
(** 882-883. *)
Definition model_neb (m : lmodel) (other : option lmodel) : bool := negb (model_eqb m other).
