(** * LogicalModel: sawatabi/model/logical_model.py, method by method.

    Line numbers refer to /repo/sawatabi/model/logical_model.py unless another
    file is named. *)
From Verif Require Import PyBase Constraint.
Open Scope string_scope.
Open Scope list_scope.

(** ** Values *)

(** constants.py MODEL_ISING / MODEL_QUBO; abstract_model.py 20-24. *)
Inductive mtype := Ising | Qubo.
Definition mtype_eqb (a b : mtype) : bool :=
  match a, b with Ising, Ising | Qubo, Qubo => true | _, _ => false end.

(** Coefficients, scales and offsets: numbers, or PyQUBO expressions over
    numbers and placeholders (pyqubo Express / Coefficient, external).
    Simplification: expressions that mention variables are not represented. *)
Inductive coef :=
| CNum (q : Qc)
| CPh (p : string)
| CAdd (a b : coef)
| CMul (a b : coef).

Definition is_num (c : coef) : bool := match c with CNum _ => true | _ => false end.
(** Python [a + b], [a * b]: numbers compute, anything else builds an expression. *)
Definition cadd (a b : coef) : coef :=
  match a, b with CNum x, CNum y => CNum (x + y)%Qc | _, _ => CAdd a b end.
Definition cmul (a b : coef) : coef :=
  match a, b with CNum x, CNum y => CNum (x * y)%Qc | _, _ => CMul a b end.

(** Resolution of placeholders (lines 527-538 and 552-559, PyQUBO's
    evaluate/compile/to_qubo(feed_dict)): a missing value raises. *)
Definition feed := dict string Qc.
Fixpoint ceval (fd : feed) (c : coef) : option Qc :=
  match c with
  | CNum q => Some q
  | CPh p => dget p fd
  | CAdd a b => match ceval fd a, ceval fd b with
                | Some x, Some y => Some (x + y)%Qc | _, _ => None end
  | CMul a b => match ceval fd a, ceval fd b with
                | Some x, Some y => Some (x * y)%Qc | _, _ => None end
  end.

(** Interaction keys (columns body, key, key_0, key_1) and the variable
    objects of the column [interacts]. *)
Inductive ikey := K1 (l : string) | K2 (l0 l1 : string).
Inductive inter := I1 (v : var) | I2 (v0 v1 : var).
Definition inter_key (i : inter) : ikey :=
  match i with I1 v => K1 (v_label v) | I2 v w => K2 (v_label v) (v_label w) end.
(** [(key_0 == label) | (key_1 == label)], line 120 (key_1 is NaN for 1-body). *)
Definition key_touches (l : string) (k : ikey) : bool :=
  match k with K1 a => String.eqb a l | K2 a b => String.eqb a l || String.eqb b l end.

(** One position of the eleven default columns (line 44). Simplification: the
    columns body, key, key_0, key_1 are one field; the default columns are
    always appended to and popped from together (170-182, 600-601, 638-639). *)
Record row := mkRow {
  r_name : string; r_key : ikey; r_inter : inter;
  r_coef : coef; r_scale : coef; r_ts : option Qc;
  r_dirty : bool; r_removed : bool }.

(** Attribute values. *)
Inductive aval := ANan | ANum (q : Qc) | AStr (s : string).

(** pyqubo.Array (external): shape and row-major flattened elements. *)
Record array := mkArray { a_shape : list Z; a_bits : list var }.

(** physical_model.py 24-33. The python set _variables_set is a list used
    through membership only. *)
Record physical := mkPhysical {
  p_mtype : mtype;
  p_linear : dict string Qc;
  p_quad : dict (string * string) Qc;
  p_offset : Qc;
  p_varset : list string;
  p_l2i : dict string nat;
  p_i2l : dict nat string }.

(** Lines 34-48. [m_cols] are the entries of _interactions_array other than the
    default keys; [m_attrs] is _interactions_attrs; [m_len] is _interactions_length. *)
Record lmodel := mkModel {
  m_mtype : mtype;
  m_vars : dict string array;
  m_offset : coef;
  m_deleted : dict string bool;
  m_fixed : dict string bool;
  m_constrs : dict string constr;
  m_rows : list row;
  m_cols : dict string (list aval);
  m_attrs : list string;
  m_len : nat;
  m_prev : option physical }.

(** __init__ (34-48) for a valid mtype. *)
Definition new_model (t : mtype) : lmodel :=
  mkModel t [] (CNum 0%Qc) [] [] [] [] [] [] 0 None.
(** empty (50-54). *)
Definition empty_of (m : lmodel) : lmodel := new_model (m_mtype m).

Definition with_mtype t m := mkModel t (m_vars m) (m_offset m) (m_deleted m) (m_fixed m) (m_constrs m) (m_rows m) (m_cols m) (m_attrs m) (m_len m) (m_prev m).
Definition with_vars x m := mkModel (m_mtype m) x (m_offset m) (m_deleted m) (m_fixed m) (m_constrs m) (m_rows m) (m_cols m) (m_attrs m) (m_len m) (m_prev m).
Definition with_offset x m := mkModel (m_mtype m) (m_vars m) x (m_deleted m) (m_fixed m) (m_constrs m) (m_rows m) (m_cols m) (m_attrs m) (m_len m) (m_prev m).
Definition with_deleted x m := mkModel (m_mtype m) (m_vars m) (m_offset m) x (m_fixed m) (m_constrs m) (m_rows m) (m_cols m) (m_attrs m) (m_len m) (m_prev m).
Definition with_fixed x m := mkModel (m_mtype m) (m_vars m) (m_offset m) (m_deleted m) x (m_constrs m) (m_rows m) (m_cols m) (m_attrs m) (m_len m) (m_prev m).
Definition with_constrs x m := mkModel (m_mtype m) (m_vars m) (m_offset m) (m_deleted m) (m_fixed m) x (m_rows m) (m_cols m) (m_attrs m) (m_len m) (m_prev m).
Definition with_rows x m := mkModel (m_mtype m) (m_vars m) (m_offset m) (m_deleted m) (m_fixed m) (m_constrs m) x (m_cols m) (m_attrs m) (m_len m) (m_prev m).
Definition with_cols x m := mkModel (m_mtype m) (m_vars m) (m_offset m) (m_deleted m) (m_fixed m) (m_constrs m) (m_rows m) x (m_attrs m) (m_len m) (m_prev m).
Definition with_attrs x m := mkModel (m_mtype m) (m_vars m) (m_offset m) (m_deleted m) (m_fixed m) (m_constrs m) (m_rows m) (m_cols m) x (m_len m) (m_prev m).
Definition with_len x m := mkModel (m_mtype m) (m_vars m) (m_offset m) (m_deleted m) (m_fixed m) (m_constrs m) (m_rows m) (m_cols m) (m_attrs m) x (m_prev m).
Definition with_prev x m := mkModel (m_mtype m) (m_vars m) (m_offset m) (m_deleted m) (m_fixed m) (m_constrs m) (m_rows m) (m_cols m) (m_attrs m) (m_len m) x.

Definition LM := M lmodel.

(** Everything the methods read from outside: the clock at the time of the
    call (current_time(), utils/time.py 18-19; [e_clock k] is the k-th reading
    and [e_clock_str k] how an f-string renders it), the clock at import time
    (the default argument of line 209 is evaluated once), and id(). *)
Record env := mkEnv {
  e_now : Qc; e_import : Qc; e_clock_str : nat -> string;
  e_id_self : string; e_id_other : nat -> string }.

(** ** Arguments *)

(** The [target] argument: None, a variable, a tuple (with elements that may be
    of a wrong type), or any other object (with its truth value). *)
Inductive telem := EVar (v : var) | EOther.
Inductive target :=
| TNone | TVar (v : var) | TTuple (l : list telem) | TOther (truthy : bool).
Definition t_truthy (t : target) : bool :=
  match t with
  | TNone => false | TVar _ => true
  | TTuple [] => false | TTuple (_ :: _) => true
  | TOther b => b
  end.
Definition t_is_none (t : target) : bool := match t with TNone => true | _ => false end.

(** The [name] argument: a string, a non-empty tuple, another object. *)
Inductive narg := NStr (s : string) | NTuple | NOther (truthy : bool).
Definition n_truthy (n : narg) : bool :=
  match n with NStr s => negb (String.eqb s "") | NTuple => true | NOther b => b end.

(** Numeric / attribute / timestamp arguments. *)
Inductive carg := AC (c : coef) | ABad.
Inductive attrarg := AtNone | AtDict (d : dict string aval) | AtBad.
Inductive tsarg := TsNone | TsNum (q : Qc) | TsBad.

(** _check_argument_type("coefficient", ..., (Number, Express, Coefficient)). *)
Definition check_coef (a : carg) : res coef :=
  match a with AC c => Ok c | ABad => Err TypeError end.
(** _check_argument_type(..., numbers.Number). *)
Definition check_num (a : carg) : res coef :=
  match a with AC (CNum q) => Ok (CNum q) | _ => Err TypeError end.

(** ** Lookup helpers *)

Definition names (m : lmodel) : list string := map r_name (m_rows m).

(** _has_name (337-338). A tuple or foreign object never equals a string. *)
Definition has_name (m : lmodel) (n : string) : bool := mem n (names m).

(** list.index on the name column; ValueError when absent. *)
Definition name_index (m : lmodel) (n : string) : res nat :=
  match index_of n (names m) with Some i => Ok i | None => Err ValueError end.

(** _is_removed (340-342). *)
Definition is_removed (m : lmodel) (n : string) : res bool :=
  match name_index m n with
  | Err e => Err e
  | Ok i => match nth_error (m_rows m) i with
            | Some r => Ok (r_removed r) | None => Err IndexError end
  end.

(** _get_interaction_info_from_target (284-313): interacts, key, default name.  The label comparison of
    line 303 is python's str <, on byte strings here. *)
Record info := mkInfo { in_inter : inter; in_key : ikey; in_name : string }.
Definition interaction_info (t : target) : res info :=
  match t with
  | TVar v => Ok (mkInfo (I1 v) (K1 (v_label v)) (v_label v))
  | TTuple [a; b] =>
      match a, b with
      | EVar x, EVar y =>
          if String.eqb (v_label x) (v_label y) then Err ValueError
          else if String.ltb (v_label x) (v_label y)
               then Ok (mkInfo (I2 x y) (K2 (v_label x) (v_label y))
                          (v_label x +++ "*" +++ v_label y))
               else Ok (mkInfo (I2 y x) (K2 (v_label y) (v_label x))
                          (v_label y +++ "*" +++ v_label x))
      | _, _ => Err TypeError
      end
  | TTuple _ => Err TypeError
  | TNone | TOther _ => Err TypeError
  end.

(** ** Variables *)

(** Multi-indices of an array in row-major order, and "name[i][j]...". *)
Fixpoint indices (sh : list nat) : list (list nat) :=
  match sh with
  | [] => [[]]
  | n :: r => flat_map (fun i => map (cons i) (indices r)) (seq 0 n)
  end.
Fixpoint brackets (idx : list nat) : string :=
  match idx with
  | [] => ""
  | i :: r => "[" +++ str_of_nat i +++ "]" +++ brackets r
  end.

(** pyqubo.Array.create(name, shape, vartype) (external): labels are
    name[i][j]..., '*' in a label is an assertion failure, a shape that is not
    positive is a ValueError. *)
Definition array_create (name : string) (shape : list Z) (vt : vtype) : res array :=
  if has_char "*"%char name then Err AssertionError
  else if match shape with [] => true | _ => false end then Err ValueError
  else if forallb (fun z => (0 <? z)%Z) shape
  then Ok (mkArray shape
             (map (fun idx => mkVar (name +++ brackets idx) vt)
                  (indices (map Z.to_nat shape))))
  else Err ValueError.

(** base_mixin.py 73-81 _modeltype_to_vartype on a valid model type. *)
Definition vt_of (t : mtype) : vtype := match t with Ising => Spin | Qubo => Binary end.

(** The arguments of variables/append. *)
Inductive nameorarray := VName (s : string) | VArray (a : array) | VNameBad.
Inductive shelem := ShInt (z : Z) | ShNpInt (z : Z) | ShBadElem.
Inductive sharg := ShTuple (l : list shelem) | ShBad.

(** base_mixin.py 42-55 _check_argument_type_in_tuple. *)
Fixpoint sh_ints (np_ok : bool) (l : list shelem) : option (list Z) :=
  match l with
  | [] => Some []
  | ShInt z :: r => match sh_ints np_ok r with Some r' => Some (z :: r') | None => None end
  | ShNpInt z :: r => if np_ok then
        match sh_ints np_ok r with Some r' => Some (z :: r') | None => None end else None
  | ShBadElem :: _ => None
  end.
Definition check_shape (np_ok : bool) (s : sharg) : res (list Z) :=
  match s with
  | ShBad => Err TypeError
  | ShTuple [] => Err TypeError
  | ShTuple l => match sh_ints np_ok l with Some z => Ok z | None => Err TypeError end
  end.

(** variables (60-81). *)
Definition variables (n : nameorarray) (sh : sharg) : LM unit := fun m =>
  match n with
  | VArray a =>
      match a_bits a with
      | [] => (m, Err IndexError)
      | v :: _ =>
          if negb (vtype_eqb (v_type v) (vt_of (m_mtype m))) then (m, Err TypeError)
          else match before_char "["%char (v_label v) with
               | None => (m, Err ValueError)
               | Some nm => (with_vars (dset nm a (m_vars m)) m, Ok tt)
               end
      end
  | VNameBad => (m, Err TypeError)
  | VName nm =>
      match check_shape false sh with
      | Err e => (m, Err e)
      | Ok shape =>
          match array_create nm shape (vt_of (m_mtype m)) with
          | Err e => (m, Err e)
          | Ok a => (with_vars (dset nm a (m_vars m)) m, Ok tt)
          end
      end
  end.

(** utils/functions.py 30-59: elementwise_add/sub/max (map over zip: truncates
    to the shorter tuple; elementwise_max goes through numpy and needs equal
    lengths, which merge has checked). *)
Fixpoint zipwith {A} (f : A -> A -> A) (a b : list A) : list A :=
  match a, b with x :: r, y :: s => f x y :: zipwith f r s | _, _ => [] end.
Definition elementwise_add := zipwith Z.add.
Definition elementwise_sub := zipwith Z.sub.
Definition elementwise_max := zipwith Z.max.

(** append (83-98). *)
Definition append (n : nameorarray) (sh : sharg) : LM unit := fun m =>
  match n with
  | VName nm =>
      match check_shape true sh with
      | Err e => (m, Err e)
      | Ok shape =>
          match dget nm (m_vars m) with
          | None => variables (VName nm) sh m
          | Some a =>
              match array_create nm (elementwise_add (a_shape a) shape) (vt_of (m_mtype m)) with
              | Err e => (m, Err e)
              | Ok a' => (with_vars (dset nm a' (m_vars m)) m, Ok tt)
              end
          end
      end
  | _ => (m, Err TypeError)
  end.

(** ** DataFrame *)

(** _update_interactions_dataframe_from_arrays (344-348): pd.DataFrame raises
    ValueError unless all columns have the same length. *)
Definition df_ok (m : lmodel) : bool :=
  forallb (fun c => (length (snd c) =? length (m_rows m))%nat) (m_cols m).
Definition dataframe : LM (list row) := fun m =>
  if df_ok m then (m, Ok (m_rows m)) else (m, Err ValueError).

(** select_interactions_by_variable (115-120), target already a variable. *)
Definition select_by_variable (l : string) : LM (list string) :=
  rows <- dataframe ;;
  ret (map r_name (filter (fun r => key_touches l (r_key r)) rows)).

(** ** add_interaction (126-196) *)

Definition attr_key (k : string) : string := "attributes." +++ k.

(** l[-1] = v *)
Definition set_last {A} (v : A) (l : list A) : option (list A) :=
  match l with [] => None | _ => Some (removelast l ++ [v]) end.

(** Lines 185-186: for attr in attrs: array[attr].append(nan). *)
Definition expand_attrs : LM unit := fun m =>
  mfor (m_attrs m) (fun a => fun m =>
    match dget a (m_cols m) with
    | None => (m, Err KeyError)
    | Some col => (with_cols (dset a (col ++ [ANan]) (m_cols m)) m, Ok tt)
    end) m.

(** Lines 189-194, one attribute. *)
Definition set_new_attr (kv : string * aval) : LM unit := fun m =>
  let k := attr_key (fst kv) in
  let m1 := if dmem k (m_cols m) then m
            else with_attrs (m_attrs m ++ [k])
                   (with_cols (dset k (repeat ANan (S (m_len m))) (m_cols m)) m) in
  match dget k (m_cols m1) with
  | None => (m1, Err KeyError)
  | Some col =>
      match set_last (snd kv) col with
      | None => (m1, Err IndexError)
      | Some col' => (with_cols (dset k col' (m_cols m1)) m1, Ok tt)
      end
  end.

(** Lines 150-156. *)
Definition add_name (n : narg) (dflt : string) : res string :=
  if n_truthy n then match n with NStr s => Ok s | _ => Err TypeError end
  else Ok dflt.

Definition check_ts (ts : tsarg) : res Qc :=
  match ts with TsNum q => Ok q | _ => Err TypeError end.
Definition check_attrs (a : attrarg) : res (dict string aval) :=
  match a with AtNone => Ok [] | AtDict d => Ok d | AtBad => Err TypeError end.

Definition add_interaction (ev : env) (t : target) (name : narg) (co sc : carg)
    (at_ : attrarg) (ts : tsarg) : LM unit :=
  guard (t_truthy t) ValueError ;;;                         (* 137-138 *)
  let ts := match ts with TsNone => TsNum (e_now ev) | _ => ts end in  (* 139-140 *)
  c <- lift (check_coef co) ;;                              (* 142 *)
  s <- lift (check_coef sc) ;;                              (* 143 *)
  attrs <- lift (check_attrs at_) ;;                        (* 135-136, 144 *)
  q <- lift (check_ts ts) ;;                                (* 145 *)
  inf <- lift (interaction_info t) ;;                       (* 147 *)
  nm <- lift (add_name name (in_name inf)) ;;               (* 150-156 *)
  m <- get ;;
  guard (negb (has_name m nm)) ValueError ;;;               (* 158-161 *)
  modify (fun m => with_rows                                (* 163-182 *)
    (m_rows m ++ [mkRow nm (in_key inf) (in_inter inf) c s (Some q) true false]) m) ;;;
  expand_attrs ;;;                                          (* 185-186 *)
  mfor attrs set_new_attr ;;;                               (* 189-194 *)
  modify (fun m => with_len (S (m_len m)) m).               (* 196 *)

(** ** update_interaction (202-260) *)

Definition set_coef c r := mkRow (r_name r) (r_key r) (r_inter r) c (r_scale r) (r_ts r) (r_dirty r) (r_removed r).
Definition set_scale s r := mkRow (r_name r) (r_key r) (r_inter r) (r_coef r) s (r_ts r) (r_dirty r) (r_removed r).
Definition set_ts t r := mkRow (r_name r) (r_key r) (r_inter r) (r_coef r) (r_scale r) t (r_dirty r) (r_removed r).
Definition set_dirty b r := mkRow (r_name r) (r_key r) (r_inter r) (r_coef r) (r_scale r) (r_ts r) b (r_removed r).
Definition set_removed b r := mkRow (r_name r) (r_key r) (r_inter r) (r_coef r) (r_scale r) (r_ts r) (r_dirty r) b.
Definition set_inter i r := mkRow (r_name r) (r_key r) i (r_coef r) (r_scale r) (r_ts r) (r_dirty r) (r_removed r).
Definition set_name n r := mkRow n (r_key r) (r_inter r) (r_coef r) (r_scale r) (r_ts r) (r_dirty r) (r_removed r).

(** column[idx] = v with an index obtained from list.index (always valid). *)
Definition upd_row (i : nat) (f : row -> row) : LM unit :=
  modify (fun m => with_rows (upd_nth i f (m_rows m)) m).

(** Lines 254-258, one attribute: a new key creates a column of
    _interactions_length NaNs and is not recorded in _interactions_attrs. *)
Definition update_attr (i : nat) (kv : string * aval) : LM unit := fun m =>
  let k := attr_key (fst kv) in
  let m1 := if dmem k (m_cols m) then m
            else with_cols (dset k (repeat ANan (m_len m)) (m_cols m)) m in
  match dget k (m_cols m1) with
  | None => (m1, Err KeyError)
  | Some col =>
      match set_nth i (snd kv) col with
      | None => (m1, Err IndexError)
      | Some col' => (with_cols (dset k col' (m_cols m1)) m1, Ok tt)
      end
  end.

(** [coefficient], [scale]: [None] when not given. [ts]: the value of the
    parameter, i.e. [TsNum (e_import ev)] when the caller omits it (see
    [update_default_ts]); [TsNone] when None is passed. *)
Definition check_opt_num (a : option carg) : res (option coef) :=
  match a with
  | None => Ok None
  | Some a => match check_num a with Ok c => Ok (Some c) | Err e => Err e end
  end.
Definition check_opt_attrs (a : attrarg) : res (option (dict string aval)) :=
  match a with AtNone => Ok None | AtDict d => Ok (Some d) | AtBad => Err TypeError end.
Definition check_opt_ts (ts : tsarg) : res (option Qc) :=
  match ts with TsNone => Ok None | TsNum q => Ok (Some q) | TsBad => Err TypeError end.

Definition opt_info (t : target) : res (option info) :=
  if t_is_none t then Ok None
  else match interaction_info t with Ok i => Ok (Some i) | Err e => Err e end.

(** [if x is not None: ...] *)
Definition opt_do {A} (o : option A) (f : A -> LM unit) : LM unit :=
  match o with Some a => f a | None => ret tt end.

(** Lines 246-260. *)
Definition update_at (nm : string) (c s : option coef) (at_ : option (dict string aval))
    (q : option Qc) : LM unit :=
  m <- get ;;
  i <- lift (name_index m nm) ;;                                       (* 246 *)
  opt_do c (fun c => upd_row i (set_coef c)) ;;;                       (* 249-250 *)
  opt_do s (fun s => upd_row i (set_scale s)) ;;;                      (* 251-252 *)
  opt_do at_ (fun d => mfor d (update_attr i)) ;;;                     (* 253-258 *)
  upd_row i (set_ts q) ;;;                                             (* 259 *)
  upd_row i (set_dirty true).                                          (* 260 *)

Definition update_interaction (ev : env) (t : target) (name : narg)
    (co sc : option carg) (at_ : attrarg) (ts : tsarg) : LM unit :=
  guard (t_truthy t || n_truthy name) ValueError ;;;                   (* 211-212 *)
  guard (negb (t_truthy t && n_truthy name)) ValueError ;;;            (* 213-214 *)
  c <- lift (check_opt_num co) ;;                                      (* 216-217 *)
  s <- lift (check_opt_num sc) ;;                                      (* 218-219 *)
  a <- lift (check_opt_attrs at_) ;;                                   (* 220-221 *)
  q <- lift (check_opt_ts ts) ;;                                       (* 222-223 *)
  inf <- lift (opt_info t) ;;                                          (* 225-226 *)
  m <- get ;;
  if n_truthy name then
    match name with
    | NStr nm =>
        guard (has_name m nm) KeyError ;;;                             (* 230-231 *)
        rem <- lift (is_removed m nm) ;;
        guard (negb rem) ValueError ;;;                                (* 243-244 *)
        update_at nm c s a q
    | _ => raise KeyError                                              (* 230: never in the list *)
    end
  else
    match inf with
    | None => raise UnboundLocalError
    | Some inf =>
        if has_name m (in_name inf) then
          rem <- lift (is_removed m (in_name inf)) ;;
          guard (negb rem) ValueError ;;;
          update_at (in_name inf) c s a q
        else                                                           (* 237-241 *)
          add_interaction ev t (NStr "")
            (AC (match c with Some c => c | None => CNum 0%Qc end))
            (AC (match s with Some s => s | None => CNum 1%Qc end))
            AtNone (match q with Some q => TsNum q | None => TsNone end)
    end.

(** The value the timestamp parameter of update_interaction has when the
    caller does not pass one: the default is evaluated when the function is
    defined, i.e. at import (line 209). *)
Definition update_default_ts (ev : env) : tsarg := TsNum (e_import ev).

(** ** remove_interaction (266-278) *)

(** _get_internal_name_from_target_and_name (315-335). *)
Definition internal_name (t : target) (name : narg) : LM string :=
  guard (t_truthy t || n_truthy name) ValueError ;;;
  guard (negb (t_truthy t && n_truthy name)) ValueError ;;;
  inf <- lift (opt_info t) ;;
  m <- get ;;
  if n_truthy name then
    match name with
    | NStr nm => guard (has_name m nm) KeyError ;;; ret nm
    | NTuple => raise KeyError
    | NOther _ => raise TypeError
    end
  else
    match inf with
    | None => raise UnboundLocalError
    | Some inf => guard (has_name m (in_name inf)) KeyError ;;; ret (in_name inf)
    end.

Definition remove_interaction (t : target) (name : narg) : LM unit :=
  nm <- internal_name t name ;;
  m <- get ;;
  i <- lift (name_index m nm) ;;
  upd_row i (set_removed true) ;;;
  upd_row i (set_dirty true).

(** ** delete_variable (354-369) *)

(** v.remove_variable(variables=target) on the stored constraint [k]. *)
Definition constr_remove (k : string) (v : var) : LM unit := fun m =>
  match dget k (m_constrs m) with
  | None => (m, Ok tt)
  | Some c =>
      match c_remove_variable (VA_one v) c with
      | (c', r) => (with_constrs (dset k c' (m_constrs m)) m, r)
      end
  end.

Definition delete_variable (t : target) : LM unit :=
  guard (t_truthy t) ValueError ;;;
  match t with
  | TVar v =>
      modify (fun m => with_deleted (dset (v_label v) true (m_deleted m)) m) ;;;
      m <- get ;;
      mfor (dkeys (m_constrs m)) (fun k => constr_remove k v) ;;;
      sel <- select_by_variable (v_label v) ;;
      mfor sel (fun n => remove_interaction TNone (NStr n))
  | _ => raise TypeError
  end.

(** ** fix_variable (375-420) *)

Definition legal_value (t : mtype) (q : Qc) : bool :=
  match t with
  | Ising => Qc_eqb q 1 || Qc_eqb q (- (1))%Qc
  | Qubo => Qc_eqb q 1 || Qc_eqb q 0
  end.

(** Lines 402-420, one selected interaction. *)
Definition fix_one (ev : env) (l : string) (value : Qc) (n : string) : LM unit :=
  m <- get ;;
  i <- lift (name_index m n) ;;
  match nth_error (m_rows m) i with
  | None => raise IndexError
  | Some r =>
      match r_key r with
      | K1 _ =>
          modify (fun m => with_offset
            (cadd (m_offset m) (cmul (cmul (CNum (- value)%Qc) (r_coef r)) (r_scale r))) m) ;;;
          remove_interaction TNone (NStr n)
      | K2 _ _ =>
          to <- lift (match r_inter r with
                      | I1 _ => Err TypeError
                      | I2 a b => if String.eqb (v_label a) l then Ok b
                                  else if String.eqb (v_label b) l then Ok a
                                  else Err UnboundLocalError
                      end) ;;
          add_interaction ev (TVar to)
            (NStr (v_label to +++ " (before fixed: " +++ n +++ ")"))
            (AC (cmul (cmul (CNum value) (r_coef r)) (r_scale r)))
            (AC (CNum 1%Qc)) AtNone TsNone ;;;
          remove_interaction TNone (NStr n)
      end
  end.

Definition fix_variable (ev : env) (t : target) (value : Qc) : LM unit :=
  guard (t_truthy t) ValueError ;;;
  match t with
  | TVar v =>
      m <- get ;;
      guard (legal_value (m_mtype m) value) ValueError ;;;
      modify (fun m => with_fixed (dset (v_label v) true (m_fixed m)) m) ;;;
      sel <- select_by_variable (v_label v) ;;
      if Qc_eqb value 0
      then mfor sel (fun n => remove_interaction TNone (NStr n))
      else mfor sel (fix_one ev (v_label v) value)
  | _ => raise TypeError
  end.

(** ** Constraints and offset (426-449) *)

(** add_constraint: [None] is an object that is not a constraint. *)
Definition add_constraint (c : option constr) : LM unit :=
  match c with
  | None => raise TypeError
  | Some c => modify (fun m => with_constrs (dset (c_label c) c (m_constrs m)) m)
  end.
Definition remove_constraint (l : option string) : LM unit := fun m =>
  match l with
  | None => (m, Err TypeError)
  | Some l => if dmem l (m_constrs m)
              then (with_constrs (ddel l (m_constrs m)) m, Ok tt) else (m, Err KeyError)
  end.
(** offset (439-443): no type check. *)
Definition set_offset (c : coef) : LM unit := modify (with_offset c).

(** ** from_pyqubo (455-492) *)

(** pyqubo compiled model (external): terms ((label, label), coefficient) --
    [is_coefficient] coefficients are mutable pyqubo.Coefficient objects --,
    the structure table label -> (array name, index), and the offset. *)
Record pqmodel := mkPq {
  pq_terms : list ((string * string) * coef);
  pq_struct : dict string (string * list nat);
  pq_offset : coef }.

(** Row-major position of an index in an array; [None] = IndexError.
    Simplification: a partial index (sub-array) is treated as IndexError. *)
Fixpoint flat_pos (sh : list nat) (idx : list nat) : option nat :=
  match sh, idx with
  | [], [] => Some 0
  | n :: sh', i :: idx' =>
      if (i <? n)%nat then
        match flat_pos sh' idx' with
        | Some p => Some (i * fold_right Nat.mul 1 sh' + p)%nat
        | None => None
        end
      else None
  | _, _ => None
  end.
Definition array_get (a : array) (idx : list nat) : res var :=
  match flat_pos (map Z.to_nat (a_shape a)) idx with
  | None => Err IndexError
  | Some p => match nth_error (a_bits a) p with Some v => Ok v | None => Err IndexError end
  end.
Definition pq_lookup (m : lmodel) (pq : pqmodel) (l : string) : res var :=
  match dget l (pq_struct pq) with
  | None => Err KeyError
  | Some (nm, idx) =>
      match dget nm (m_vars m) with
      | None => Err KeyError
      | Some a => array_get a idx
      end
  end.

(** -1 * coefficient. For a pyqubo.Coefficient this is done in place (481). *)
Definition cneg (c : coef) : coef := cmul (CNum (- (1))%Qc) c.

(** One loop iteration (466-490). The state is the logical model and the
    compiled model with the terms already visited ([done], in order). *)
Definition pq_step (ev : env) (m : lmodel) (pq : pqmodel) (term : (string * string) * coef)
  : lmodel * coef * res unit :=
  let '((k0, k1), c) := term in
  match pq_lookup m pq k0 with
  | Err e => (m, c, Err e)
  | Ok t0 =>
      match pq_lookup m pq k1 with
      | Err e => (m, c, Err e)
      | Ok t1 =>
          let c' := cneg c in
          let kept := if is_num c then c else c' in
          let tgt := if String.eqb k0 k1 then TVar t0 else TTuple [EVar t0; EVar t1] in
          match add_interaction ev tgt (NStr "") (AC c') (AC (CNum 1%Qc)) AtNone TsNone m with
          | (m', r) => (m', kept, r)
          end
      end
  end.
Fixpoint pq_loop (ev : env) (m : lmodel) (pq : pqmodel) (l : list ((string * string) * coef))
  : lmodel * list ((string * string) * coef) * res unit :=
  match l with
  | [] => (m, [], Ok tt)
  | (k, c) :: r =>
      match pq_step ev m pq (k, c) with
      | (m', c', Err e) => (m', (k, c') :: r, Err e)
      | (m', c', Ok _) =>
          match pq_loop ev m' pq r with
          | (m'', r', x) => (m'', (k, c') :: r', x)
          end
      end
  end.
(** Returns the logical model, the (possibly modified) compiled model and the
    result. [None] is an argument of a wrong type. *)
Definition from_pyqubo (ev : env) (m : lmodel) (pq : pqmodel) : lmodel * pqmodel * res unit :=
  match pq_loop ev m pq (pq_terms pq) with
  | (m', l', Err e) => (m', mkPq l' (pq_struct pq) (pq_offset pq), Err e)
  | (m', l', Ok _) =>
      (with_offset (pq_offset pq) m', mkPq l' (pq_struct pq) (pq_offset pq), Ok tt)
  end.

(** ** Type conversion (673-774) *)

Definition retype_var (t : mtype) (v : var) : var := mkVar (v_label v) (vt_of t).
Definition retype_inter (t : mtype) (i : inter) : inter :=
  match i with
  | I1 v => I1 (retype_var t v)
  | I2 v w => I2 (retype_var t v) (retype_var t w)
  end.

(** _update_variables_type (682-704). *)
Fixpoint recreate (vt : vtype) (done todo : dict string array) : dict string array * res unit :=
  match todo with
  | [] => (done, Ok tt)
  | (n, a) :: r =>
      match array_create n (a_shape a) vt with
      | Err e => (done ++ (n, a) :: r, Err e)
      | Ok a' => recreate vt (done ++ [(n, a')]) r
      end
  end.
Definition update_variables_type : LM unit := fun m =>
  match recreate (vt_of (m_mtype m)) [] (m_vars m) with
  | (vs, Err e) => (with_vars vs m, Err e)
  | (vs, Ok _) =>
      let m1 := with_vars vs m in
      if df_ok m1 then
        (with_rows (map (fun r => if r_removed r then r
                                  else set_inter (retype_inter (m_mtype m1) (r_inter r)) r)
                        (m_rows m1)) m1, Ok tt)
      else (m1, Err ValueError)
  end.

Definition body1_active (r : row) : bool :=
  negb (r_removed r) && match r_key r with K1 _ => true | K2 _ _ => false end.
Definition body2_active (r : row) : bool :=
  negb (r_removed r) && match r_key r with K1 _ => false | K2 _ _ => true end.

(** Lines 721-724 and 756-759: coefficient * [a], offset += coefficient * [b]. *)
Definition conv_h (ev : env) (a b : Qc) (r : row) : LM unit :=
  update_interaction ev TNone (NStr (r_name r))
    (Some (AC (cmul (r_coef r) (CNum a)))) None AtNone (update_default_ts ev) ;;;
  modify (fun m => with_offset (cadd (m_offset m) (cmul (r_coef r) (CNum b))) m).

Definition mtype_add_name (ev : env) (k : nat) (key name : string) : string :=
  key +++ " from " +++ name +++ " (mtype additional " +++ e_clock_str ev k +++ ")".

(** Lines 728-737 and 763-772: coefficient * [a], two 1-body interactions with
    coefficient * [b], offset += coefficient * [c]. [k] counts clock readings. *)
Definition conv_J (ev : env) (a b c : Qc) (k : nat) (r : row) : LM unit :=
  update_interaction ev TNone (NStr (r_name r))
    (Some (AC (cmul (r_coef r) (CNum a)))) None AtNone (update_default_ts ev) ;;;
  match r_inter r, r_key r with
  | I2 v0 v1, K2 l0 l1 =>
      add_interaction ev (TVar v0) (NStr (mtype_add_name ev (2 * k) l0 (r_name r)))
        (AC (cmul (r_coef r) (CNum b))) (AC (CNum 1%Qc)) AtNone TsNone ;;;
      add_interaction ev (TVar v1) (NStr (mtype_add_name ev (2 * k + 1) l1 (r_name r)))
        (AC (cmul (r_coef r) (CNum b))) (AC (CNum 1%Qc)) AtNone TsNone ;;;
      modify (fun m => with_offset (cadd (m_offset m) (cmul (r_coef r) (CNum c))) m)
  | _, _ => raise TypeError
  end.
Fixpoint conv_Js (ev : env) (a b c : Qc) (k : nat) (l : list row) : LM unit :=
  match l with
  | [] => ret tt
  | r :: rest => conv_J ev a b c k r ;;; conv_Js ev a b c (S k) rest
  end.

(** to_ising (706-739), to_qubo (741-774). *)
Definition convert (ev : env) (t : mtype) (ha hb ja jb jc : Qc) : LM unit :=
  m <- get ;;
  if mtype_eqb (m_mtype m) t then ret tt
  else
    modify (with_mtype t) ;;;
    update_variables_type ;;;
    h_df <- dataframe ;;
    mfor (filter body1_active h_df) (conv_h ev ha hb) ;;;
    j_df <- dataframe ;;
    conv_Js ev ja jb jc 0 (filter body2_active j_df).
Definition to_ising (ev : env) : LM unit :=
  convert ev Ising (qfrac 1 2) (qfrac 1 2) (qfrac 1 4) (qfrac 1 4) (qfrac 1 4).
Definition to_qubo (ev : env) : LM unit :=
  convert ev Qubo (qz 2) (qz (-1)) (qz 4) (qz (-2)) (qz 1).
(** _convert_mtype (673-680). *)
Definition convert_mtype (ev : env) : LM unit :=
  m <- get ;;
  match m_mtype m with Qubo => to_ising ev | Ising => to_qubo ev end.

(** ** merge (612-671) *)

(** Lines 620-623. *)
Definition dims_ok (m o : lmodel) : bool :=
  forallb (fun kv => match dget (fst kv) (m_vars o) with
                     | None => true
                     | Some a => (length (a_shape (snd kv)) =? length (a_shape a))%nat
                     end) (m_vars m).

(** Lines 626-633, one variable of [other]. *)
Definition merge_var (kv : string * array) : LM unit := fun m =>
  match dget (fst kv) (m_vars m) with
  | None => (with_vars (dset (fst kv) (snd kv) (m_vars m)) m, Ok tt)
  | Some cur =>
      let mx := elementwise_max (a_shape (snd kv)) (a_shape cur) in
      let df := elementwise_sub mx (a_shape cur) in
      append (VName (fst kv)) (ShTuple (map ShInt df)) m
  end.

(** Lines 640-646. [None]: KeyError. The iteration order of list(set | set) is
    not specified; here self's attributes come first. *)
Definition merge_attrs_list (m o : lmodel) : list string :=
  m_attrs m ++ filter (fun a => negb (mem a (m_attrs m))) (m_attrs o).
Definition merge_col (m o : lmodel) (a : string) : option (list aval) :=
  if mem a (m_attrs m) then
    match dget a (m_cols m) with
    | None => None
    | Some c =>
        match dget a (m_cols o) with
        | Some c' => Some (c ++ c')
        | None => Some (c ++ repeat ANan (m_len o))
        end
    end
  else match dget a (m_cols o) with
       | Some c' => Some (repeat ANan (m_len m) ++ c')
       | None => None
       end.
Fixpoint merge_cols (m o : lmodel) (l : list string) : option (dict string (list aval)) :=
  match l with
  | [] => Some []
  | a :: r => match merge_col m o a, merge_cols m o r with
              | Some c, Some d => Some ((a, c) :: d)
              | _, _ => None
              end
  end.

(** Lines 647-656: names occurring in both models get a suffix, by position
    relative to self's _interactions_length. *)
Fixpoint rename_rows (dup : list string) (idself idother : string) (len : nat) (idx : nat)
    (l : list row) : list row :=
  match l with
  | [] => []
  | r :: rest =>
      (if mem (r_name r) dup
       then set_name (r_name r +++ " (" +++ (if (idx <? len)%nat then idself else idother) +++ ")") r
       else r) :: rename_rows dup idself idother len (S idx) rest
  end.
Definition dup_names (m o : lmodel) : list string :=
  filter (fun n => mem n (names o)) (names m).

(** Lines 619-671 once the model types agree; [k] selects id(other). *)
Definition merge_same (ev : env) (k : nat) (o : lmodel) : LM unit :=
  m0 <- get ;;
  guard (dims_ok m0 o) ValueError ;;;
  mfor (m_vars o) merge_var ;;;
  m <- get ;;
  match merge_cols m o (merge_attrs_list m o) with
  | None => raise KeyError
  | Some cols =>
      modify (fun m1 =>
        with_len (m_len m + m_len o)
       (with_attrs (merge_attrs_list m o)
       (with_cols cols
       (with_rows (rename_rows (dup_names m o) (e_id_self ev) (e_id_other ev k) (m_len m) 0
                     (m_rows m ++ m_rows o)) m1)))) ;;;
      guard (negb (existsb (fun l => dmem l (m_constrs o)) (dkeys (m_constrs m)))) ValueError ;;;
      modify (fun m1 =>
        with_fixed (dupdate (m_fixed m1) (m_fixed o))
       (with_deleted (dupdate (m_deleted m1) (m_deleted o))
       (with_offset (cadd (m_offset m1) (m_offset o))
       (with_constrs (dupdate (m_constrs m1) (m_constrs o)) m1))))
  end.

(** merge: returns self, other and the result (other is converted in place
    when the types differ). [evo] is the environment of that conversion. *)
Definition merge (ev evo : env) (k : nat) (m o : lmodel) : lmodel * lmodel * res unit :=
  if mtype_eqb (m_mtype m) (m_mtype o) then
    match merge_same ev k o m with (m', r) => (m', o, r) end
  else
    match convert_mtype evo o with
    | (o', Err e) => (m, o', Err e)
    | (o', Ok _) => match merge_same ev k o' m with (m', r) => (m', o', r) end
    end.

(** ** Constraint.to_model *)

(** One model.add_interaction call of to_model. *)
Definition cadd1 (ev : env) (label : string) (q : Qc) (v : var) : LM unit :=
  add_interaction ev (TVar v) (NStr (v_label v +++ " (" +++ label +++ ")"))
    (AC (CNum q)) (AC (CNum 1%Qc)) AtNone TsNone.
Definition cadd2 (ev : env) (label : string) (q : Qc) (v w : var) : LM unit :=
  add_interaction ev (TTuple [EVar v; EVar w])
    (NStr (v_label v +++ "*" +++ v_label w +++ " (" +++ label +++ ")"))
    (AC (CNum q)) (AC (CNum 1%Qc)) AtNone TsNone.
(** for var in A: for adj in A: if var.label < adj.label: add pair *)
Definition cadd_pairs_of (ev : env) (label : string) (q : Qc) (vs : list var) (v : var) : LM unit :=
  mfor vs (fun w => if String.ltb (v_label v) (v_label w) then cadd2 ev label q v w else ret tt).

(** n_hot_constraint.py 53-66; zero_or_one_hot_constraint.py 50-61;
    equality_constraint.py 63-86. *)
Definition to_model (ev : env) (c : constr) : lmodel * res unit :=
  match c with
  | NHot vs n l s =>
      mfor vs (fun v =>
        cadd1 ev l (- (1) * s * (1 - qz 2 * qz n))%Qc v ;;;
        cadd_pairs_of ev l (- qz 2 * s)%Qc vs v) (new_model Qubo)
  | ZeroOrOne vs l s =>
      mfor vs (fun v => cadd_pairs_of ev l (- qz 2 * s)%Qc vs v) (new_model Qubo)
  | Equality v1 v2 l s =>
      (mfor (set_union v1 v2) (fun v => cadd1 ev l (- (1) * s)%Qc v) ;;;
       mfor v1 (fun v => cadd_pairs_of ev l (- qz 2 * s)%Qc v1 v) ;;;
       mfor v2 (fun v => cadd_pairs_of ev l (- qz 2 * s)%Qc v2 v) ;;;
       mfor v1 (fun v => mfor v2 (fun w => cadd2 ev l (qz 2 * s)%Qc v w))) (new_model Qubo)
  end.

(** ** to_physical (498-610) *)

(** Lines 517-519: merge every constraint's model into self. [evs k] is the
    environment of the k-th constraint's to_model / conversion. *)
Fixpoint merge_constrs (ev : env) (evs : nat -> env) (k : nat) (cs : list constr) : LM unit :=
  match cs with
  | [] => ret tt
  | c :: r =>
      fun m =>
        match to_model (evs k) c with
        | (_, Err e) => (m, Err e)
        | (cm, Ok _) =>
            match merge ev (evs k) k m cm with
            | (m', _, Err e) => (m', Err e)
            | (m', _, Ok _) => merge_constrs ev evs (S k) r m'
            end
        end
  end.

(** linear[key] += coeff *)
Definition dadd {K} `{Eqb K} (k : K) (q : Qc) (d : dict K Qc) : dict K Qc :=
  match dget k d with
  | Some x => dset k (x + q)%Qc d
  | None => dset k q d
  end.

(** Lines 522-550. *)
Record agg := mkAgg { g_lin : dict string Qc; g_quad : dict (string * string) Qc;
                      g_remove : list string }.
Definition agg_row (fd : feed) (g : agg) (r : row) : res agg :=
  if r_removed r then Ok (mkAgg (g_lin g) (g_quad g) (g_remove g ++ [r_name r]))
  else match ceval fd (cmul (r_coef r) (r_scale r)) with
       | None => Err PlaceholderError
       | Some q =>
           match r_key r with
           | K1 l => Ok (mkAgg (dadd l q (g_lin g)) (g_quad g) (g_remove g))
           | K2 a b => Ok (mkAgg (g_lin g) (dadd (a, b) q (g_quad g)) (g_remove g))
           end
       end.
Fixpoint agg_rows (fd : feed) (g : agg) (l : list row) : res agg :=
  match l with
  | [] => Ok g
  | r :: rest => match agg_row fd g r with Ok g' => agg_rows fd g' rest | Err e => Err e end
  end.

Definition nonzero {K} (kv : K * Qc) : bool := negb (Qc_eqb (snd kv) 0).

(** Lines 574-581. *)
Fixpoint index_labels (deleted : dict string bool) (varset : list string) (i : nat)
    (l : list string) (l2i : dict string nat) (i2l : dict nat string)
  : dict string nat * dict nat string :=
  match l with
  | [] => (l2i, i2l)
  | x :: r =>
      if negb (dmem x deleted) && mem x varset
      then index_labels deleted varset (S i) r (dset x i l2i) (dset i x i2l)
      else index_labels deleted varset i r l2i i2l
  end.
Definition all_labels (vs : dict string array) : list string :=
  flat_map (fun kv => map v_label (a_bits (snd kv))) vs.

(** Lines 562-581: the physical model from the aggregated dictionaries. *)
Definition build_physical (t : mtype) (vs : dict string array) (deleted : dict string bool)
    (lin : dict string Qc) (quad : dict (string * string) Qc) (off : Qc) : physical :=
  let lin' := filter nonzero lin in
  let quad' := filter nonzero quad in
  let varset := map fst lin' ++ flat_map (fun kv => [fst (fst kv); snd (fst kv)]) quad' in
  match index_labels deleted varset 0 (all_labels vs) [] [] with
  | (l2i, i2l) => mkPhysical t lin' quad' off varset l2i i2l
  end.

(** Lines 600-601: pop position [i] of every column. The default columns come
    first in the dictionary. *)
Fixpoint pop_cols (i : nat) (done todo : dict string (list aval))
  : dict string (list aval) * res unit :=
  match todo with
  | [] => (done, Ok tt)
  | (k, c) :: r =>
      match pop_nth i c with
      | None => (done ++ (k, c) :: r, Err IndexError)
      | Some c' => pop_cols i (done ++ [(k, c')]) r
      end
  end.
(** Lines 598-602, one name. *)
Definition purge_one (n : string) : LM unit :=
  m <- get ;;
  i <- lift (name_index m n) ;;
  match pop_nth i (m_rows m) with
  | None => raise IndexError
  | Some rows' =>
      match pop_cols i [] (m_cols m) with
      | (cols', Err e) => put (with_cols cols' (with_rows rows' m)) ;;; raise e
      | (cols', Ok _) => put (with_len (Nat.pred (m_len m)) (with_cols cols' (with_rows rows' m)))
      end
  end.

(** rows visited by [for i in range(self._interactions_length)]. *)
Definition visited (m : lmodel) : res (list row) :=
  if (m_len m <=? length (m_rows m))%nat then Ok (firstn (m_len m) (m_rows m))
  else Err IndexError.

(** Line 605-608. *)
Definition clear_dirty (len : nat) (l : list row) : list row :=
  map (set_dirty false) (firstn len l) ++ skipn len l.

Definition to_physical (ev : env) (evs : nat -> env) (fd : feed) : LM physical := fun m0 =>
  match merge_constrs ev evs 0 (dvals (m_constrs m0)) m0 with
  | (m1, Err e) => (m1, Err e)
  | (m1, Ok _) =>
      match visited m1 with
      | Err e => (m1, Err e)
      | Ok rows =>
          match agg_rows fd (mkAgg [] [] []) rows with
          | Err e => (m1, Err e)
          | Ok g =>
              match ceval fd (m_offset m1) with
              | None => (m1, Err PlaceholderError)
              | Some off =>
                  let p := build_physical (m_mtype m0) (m_vars m1) (m_deleted m1)
                             (g_lin g) (g_quad g) off in
                  (* 584, 588-594: restore *)
                  let m2 := mkModel (m_mtype m1) (m_vars m1) (m_offset m0) (m_deleted m0)
                              (m_fixed m0) (m_constrs m1) (m_rows m0) (m_cols m0)
                              (m_attrs m0) (m_len m0) (Some p) in
                  match mfor (g_remove g) purge_one m2 with
                  | (m3, Err e) => (m3, Err e)
                  | (m3, Ok _) =>
                      (with_rows (clear_dirty (m_len m3) (m_rows m3)) m3, Ok p)
                  end
              end
          end
      end
  end.

(** ** Getters (780-863) *)

Definition get_all_size (m : lmodel) : Z :=
  fold_left (fun acc kv => acc + fold_left Z.mul (a_shape (snd kv)) 1)%Z (m_vars m) 0%Z.
Definition get_deleted_size (m : lmodel) : Z := Z.of_nat (length (m_deleted m)).
Definition get_fixed_size (m : lmodel) : Z := Z.of_nat (length (m_fixed m)).
Definition get_size (m : lmodel) : Z :=
  (get_all_size m - get_deleted_size m - get_fixed_size m)%Z.

(** get_attributes (834-843). *)
Fixpoint read_attrs (m : lmodel) (i : nat) (l : list string) : res (dict string aval) :=
  match l with
  | [] => Ok []
  | a :: r =>
      match dget a (m_cols m) with
      | None => Err KeyError
      | Some c =>
          match nth_error c i with
          | None => Err IndexError
          | Some v => match read_attrs m i r with Ok d => Ok ((a, v) :: d) | Err e => Err e end
          end
      end
  end.
Definition get_attributes (t : target) (name : narg) : LM (dict string aval) :=
  nm <- internal_name t name ;;
  m <- get ;;
  i <- lift (name_index m nm) ;;
  lift (read_attrs m i (m_attrs m)).
(** get_attribute (845-851). *)
Definition get_attribute (t : target) (name : narg) (key : option string) : LM aval :=
  match key with
  | None => raise TypeError
  | Some k =>
      d <- get_attributes t name ;;
      match dget k d with Some v => ret v | None => raise KeyError end
  end.
