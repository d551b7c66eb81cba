(** * Select: LogicalModel.select_interaction (logical_model.py 104-113).

    The query is given as its parse tree. Of pandas' query language: comparisons
    of a column with a literal by ==, !=, <, <=, > and >=, combined with and, or, not. *)
From Verif Require Import PyBase PyLemmas LogicalModel.
Local Open Scope string_scope.
Local Open Scope list_scope.

(** What a cell of the DataFrame holds: nan, a number, a string, a bool, the key
    of a 2-body interaction, or an object compared by identity (the pyqubo
    variables in "interacts", a coefficient with a placeholder). *)
Inductive cell := CNan | CNumb (q : Qc) | CText (s : string) | CBool (b : bool) | CPair (a b : string) | CObject.

Definition of_coef (c : coef) : cell := match c with CNum q => CNumb q | _ => CObject end.
Definition of_aval (a : aval) : cell := match a with ANan => CNan | ANum q => CNumb q | AStr s => CText s end.

(** The eleven default columns of one interaction (44, 163-182). *)
Definition record_of (r : row) : dict string cell :=
  [("body", CNumb (match r_key r with K1 _ => 1%Qc | K2 _ _ => qz 2 end));
   ("name", CText (r_name r));
   ("key", match r_key r with K1 l => CText l | K2 a b => CPair a b end);
   ("key_0", match r_key r with K1 l => CText l | K2 a _ => CText a end);
   ("key_1", match r_key r with K1 _ => CNan | K2 _ b => CText b end);
   ("interacts", CObject);
   ("coefficient", of_coef (r_coef r));
   ("scale", of_coef (r_scale r));
   ("timestamp", match r_ts r with Some q => CNumb q | None => CNan end);
   ("dirty", CBool (r_dirty r));
   ("removed", CBool (r_removed r))].
Definition default_columns : list string :=
  ["body"; "name"; "key"; "key_0"; "key_1"; "interacts"; "coefficient"; "scale"; "timestamp"; "dirty"; "removed"].

(** One row of the DataFrame: the default columns, then the attribute columns. *)
Definition frame_row (cols : dict string (list aval)) (i : nat) (r : row) : dict string cell :=
  record_of r ++ map (fun kc => (fst kc, of_aval (nth i (snd kc) ANan))) cols.
Fixpoint frame_from (cols : dict string (list aval)) (i : nat) (l : list row) : list (nat * dict string cell) :=
  match l with [] => [] | r :: rest => (i, frame_row cols i r) :: frame_from cols (S i) rest end.
(** _update_interactions_dataframe_from_arrays (344-348), with all columns. *)
Definition whole_frame : LM (list (nat * dict string cell)) := fun m =>
  if df_ok m then (m, Ok (frame_from (m_cols m) 0 (m_rows m))) else (m, Err ValueError).

Inductive literal := LNum (q : Qc) | LText (s : string) | LBool (b : bool).
(** cell == literal: True == 1 and False == 0; nan and objects equal no literal. *)
Definition bool_num (b : bool) : Qc := if b then 1%Qc else 0%Qc.
Definition cell_eqb (c : cell) (l : literal) : bool :=
  match c, l with
  | CNumb x, LNum y => Qc_eqb x y
  | CNumb x, LBool b => Qc_eqb x (bool_num b)
  | CBool b, LNum y => Qc_eqb (bool_num b) y
  | CBool a, LBool b => Bool.eqb a b
  | CText a, LText b => String.eqb a b
  | _, _ => false
  end.

(** cell < literal and the like: numbers and bools by value, strings as Python
    orders them (by code point). The inner None: nan, whose order with anything is
    False. The outer None: TypeError. Simplified: pandas also raises for a column
    of numbers that has no cell, or nan in every cell, next to a string literal. *)
Definition cell_cmp (c : cell) (l : literal) : option (option comparison) :=
  match c, l with
  | CNan, _ => Some None
  | CNumb x, LNum y => Some (Some (Qccompare x y))
  | CNumb x, LBool b => Some (Some (Qccompare x (bool_num b)))
  | CBool b, LNum y => Some (Some (Qccompare (bool_num b) y))
  | CBool a, LBool b => Some (Some (Qccompare (bool_num a) (bool_num b)))
  | CText a, LText b => Some (Some (String.compare a b))
  | _, _ => None
  end.
Inductive order := OLt | OLe | OGt | OGe.
Definition order_holds (o : order) (c : comparison) : bool :=
  match o, c with
  | OLt, Lt | OLe, Lt | OLe, Eq | OGt, Gt | OGe, Gt | OGe, Eq => true
  | _, _ => false
  end.

Inductive query :=
| QEq (col : string) (l : literal) | QNe (col : string) (l : literal)
| QOrd (o : order) (col : string) (l : literal)
| QAnd (a b : query) | QOr (a b : query) | QNot (a : query).
Fixpoint columns_in (q : query) : list string :=
  match q with QEq c _ | QNe c _ | QOrd _ c _ => [c] | QAnd a b | QOr a b => columns_in a ++ columns_in b | QNot a => columns_in a end.
Fixpoint query_row (q : query) (rec : dict string cell) : bool :=
  match q with
  | QEq c l => match dget c rec with Some x => cell_eqb x l | None => false end
  | QNe c l => match dget c rec with Some x => negb (cell_eqb x l) | None => false end
  | QOrd o c l =>
    match dget c rec with
    | Some x => match cell_cmp x l with Some (Some r) => order_holds o r | _ => false end
    | None => false end
  | QAnd a b => query_row a rec && query_row b rec
  | QOr a b => query_row a rec || query_row b rec
  | QNot a => negb (query_row a rec)
  end.
(** No comparison in the query raises TypeError on this row. Each comparison is
    evaluated on the whole column, whatever the rest of the query. *)
Fixpoint query_ok (q : query) (rec : dict string cell) : bool :=
  match q with
  | QEq _ _ | QNe _ _ => true
  | QOrd _ c l => match dget c rec with Some x => match cell_cmp x l with Some _ => true | None => false end | None => true end
  | QAnd a b | QOr a b => query_ok a rec && query_ok b rec
  | QNot a => query_ok a rec
  end.

Inductive format := FSeries | FDict | FOther.
(** The DataFrame of the selected rows with their positions, or
    to_dict(orient="index"): position to {column: value}. *)
Inductive selection := Frame (l : list (nat * dict string cell)) | Indexed (d : dict nat (dict string cell)).

(** Lines 104-113. A name in the query that is no column is an error whether or
    not there are rows (pandas resolves names before it evaluates). *)
Definition select_interaction (q : query) (fmt : format) : LM selection :=
  rows <- whole_frame ;;
  m <- get ;;
  guard (forallb (fun c => mem c (default_columns ++ dkeys (m_cols m))) (columns_in q)) NameError ;;;
  guard (forallb (fun ir => query_ok q (snd ir)) rows) TypeError ;;;
  let searched := filter (fun ir => query_row q (snd ir)) rows in
  match fmt with
  | FSeries => ret (Frame searched)
  | FDict => ret (Indexed (fold_left (fun d ir => dset (fst ir) (snd ir) d) searched []))
  | FOther => raise ValueError
  end.
