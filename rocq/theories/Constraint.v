(** * Constraint: constraint classes as data (sawatabi/model/constraint/). *)
From Verif Require Import PyBase.
Open Scope string_scope.

(** pyqubo.Spin / pyqubo.Binary: external objects identified by label and class. *)
Inductive vtype := Spin | Binary.
Record var := mkVar { v_label : string; v_type : vtype }.

Definition vtype_eqb (a b : vtype) : bool :=
  match a, b with Spin, Spin | Binary, Binary => true | _, _ => false end.
Definition var_eqb (a b : var) : bool :=
  String.eqb (v_label a) (v_label b) && vtype_eqb (v_type a) (v_type b).
Lemma var_eqb_eq a b : var_eqb a b = true <-> a = b.
Proof.
  destruct a as [l t], b as [l' t']; unfold var_eqb; simpl.
  rewrite andb_true_iff, String.eqb_eq.
  split.
  - intros [-> E]. destruct t, t'; simpl in E; congruence.
  - intros E; inversion E; subst; split; auto. destruct t'; auto.
Qed.
#[export] Instance Eqb_var : Eqb var := { eqb := var_eqb; eqb_eq := var_eqb_eq }.

(** Constraint objects.
    n_hot_constraint.py 21-34, zero_or_one_hot_constraint.py 26-34,
    equality_constraint.py 21-33, abstract_constraint.py 24-33.
    A python [set] of variables is a duplicate-free list in arbitrary order.
    Simplification: strengths are rational numbers. *)
Inductive constr :=
| NHot (vs : list var) (n : Z) (label : string) (strength : Qc)
| ZeroOrOne (vs : list var) (label : string) (strength : Qc)
| Equality (vs1 vs2 : list var) (label : string) (strength : Qc).

(** abstract_constraint.py 50-51 get_label. *)
Definition c_label (c : constr) : string :=
  match c with NHot _ _ l _ | ZeroOrOne _ l _ | Equality _ _ l _ => l end.

(** The forms the [variables] argument may take, abstract_constraint.py 35-45:
    a single variable, a list / an Array (given by its flattened elements; [None]
    is an element of a wrong type), a set, or something of a wrong type. *)
Inductive varsarg :=
| VA_one (v : var)
| VA_list (l : list (option var))
| VA_set (l : list (option var))
| VA_array (l : list var)
| VA_bad.

Fixpoint all_some {A} (l : list (option A)) : option (list A) :=
  match l with
  | [] => Some []
  | Some x :: r => match all_some r with Some r' => Some (x :: r') | None => None end
  | None :: _ => None
  end.

(** python set(iterable): first occurrences kept (order is irrelevant). *)
Fixpoint to_set (acc l : list var) : list var :=
  match l with
  | [] => acc
  | x :: r => if mem x acc then to_set acc r else to_set (acc ++ [x])%list r
  end.

(** abstract_constraint.py 35-45 _check_variables_and_to_set;
    base_mixin.py 58-71 _check_argument_type_in_list (empty => TypeError). *)
Definition check_variables_and_to_set (a : varsarg) : res (list var) :=
  match a with
  | VA_bad => Err TypeError
  | VA_one v => Ok [v]
  | VA_array l => Ok (to_set [] l)
  | VA_list l | VA_set l =>
      match l with
      | [] => Err TypeError
      | _ => match all_some l with
             | Some l' => Ok (to_set [] l')
             | None => Err TypeError
             end
      end
  end.

(** set.union / set.difference *)
Definition set_union (a b : list var) : list var := to_set a b.
Definition set_diff (a b : list var) : list var :=
  filter (fun v => negb (mem v b)) a.

(** Constructors with their checks, in the order the code performs them:
    abstract_constraint.py 24-33 (label "", strength) then variables then n.
    [strength = None] stands for a non-number. *)
Definition mk_nhot (vs : option varsarg) (n : option Z) (label : option string)
    (strength : option Qc) : res constr :=
  match label with
  | None => Err TypeError
  | Some l => if String.eqb l "" then Err ValueError else
    match strength with
    | None => Err TypeError
    | Some s =>
      match (match vs with None => Ok [] | Some a => check_variables_and_to_set a end) with
      | Err e => Err e
      | Ok set => match n with
                  | None => Err TypeError
                  | Some n => if (n <=? 0)%Z then Err ValueError else Ok (NHot set n l s)
                  end
      end
    end
  end.
Definition mk_zero_or_one (vs : option varsarg) (label : option string)
    (strength : option Qc) : res constr :=
  match label with
  | None => Err TypeError
  | Some l => if String.eqb l "" then Err ValueError else
    match strength with
    | None => Err TypeError
    | Some s =>
      match (match vs with None => Ok [] | Some a => check_variables_and_to_set a end) with
      | Err e => Err e
      | Ok set => Ok (ZeroOrOne set l s)
      end
    end
  end.
Definition mk_equality (vs1 vs2 : option varsarg) (label : option string)
    (strength : option Qc) : res constr :=
  match label with
  | None => Err TypeError
  | Some l => if String.eqb l "" then Err ValueError else
    match strength with
    | None => Err TypeError
    | Some s =>
      match (match vs1 with None => Ok [] | Some a => check_variables_and_to_set a end) with
      | Err e => Err e
      | Ok s1 =>
        match (match vs2 with None => Ok [] | Some a => check_variables_and_to_set a end) with
        | Err e => Err e
        | Ok s2 => Ok (Equality s1 s2 l s)
        end
      end
    end
  end.

(** n_hot_constraint.py 36-38, zero_or_one_hot_constraint.py 36-38 add_variable.
    EqualityConstraint has no such method: AttributeError. *)
Definition c_add_variable (a : varsarg) : M constr unit := fun c =>
  match c with
  | Equality _ _ _ _ => (c, Err AttributeError)
  | NHot vs n l s =>
      match check_variables_and_to_set a with
      | Err e => (c, Err e)
      | Ok set => (NHot (set_union vs set) n l s, Ok tt)
      end
  | ZeroOrOne vs l s =>
      match check_variables_and_to_set a with
      | Err e => (c, Err e)
      | Ok set => (ZeroOrOne (set_union vs set) l s, Ok tt)
      end
  end.

(** n_hot_constraint.py 40-45, zero_or_one_hot_constraint.py 40-45 remove_variable. *)
Definition c_remove_variable (a : varsarg) : M constr unit := fun c =>
  match c with
  | Equality _ _ _ _ => (c, Err AttributeError)
  | NHot vs n l s =>
      match check_variables_and_to_set a with
      | Err e => (c, Err e)
      | Ok set => if forallb (fun v => mem v vs) set
                  then (NHot (set_diff vs set) n l s, Ok tt) else (c, Err ValueError)
      end
  | ZeroOrOne vs l s =>
      match check_variables_and_to_set a with
      | Err e => (c, Err e)
      | Ok set => if forallb (fun v => mem v vs) set
                  then (ZeroOrOne (set_diff vs set) l s, Ok tt) else (c, Err ValueError)
      end
  end.

(** equality_constraint.py 35-41 add_variable_to_1/2 ([side1 = true] for 1). *)
Definition c_eq_add (side1 : bool) (a : varsarg) : M constr unit := fun c =>
  match c with
  | Equality v1 v2 l s =>
      match check_variables_and_to_set a with
      | Err e => (c, Err e)
      | Ok set => (if side1 then Equality (set_union v1 set) v2 l s
                   else Equality v1 (set_union v2 set) l s, Ok tt)
      end
  | _ => (c, Err AttributeError)
  end.

(** equality_constraint.py 43-55 remove_variable_from_1/2. *)
Definition c_eq_remove (side1 : bool) (a : varsarg) : M constr unit := fun c =>
  match c with
  | Equality v1 v2 l s =>
      match check_variables_and_to_set a with
      | Err e => (c, Err e)
      | Ok set =>
          if forallb (fun v => mem v (if side1 then v1 else v2)) set
          then (if side1 then Equality (set_diff v1 set) v2 l s
                else Equality v1 (set_diff v2 set) l s, Ok tt)
          else (c, Err ValueError)
      end
  | _ => (c, Err AttributeError)
  end.
