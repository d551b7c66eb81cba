(** * Text: printing models (sawatabi/model/abstract_model.py, logical_model.py, physical_model.py), the utilities
    sawatabi/utils/time.py and sawatabi/utils/profile.py, and the publisher sample/pubsub/publish_pubsub.py. *)
From Verif Require Import PyBase Constraint LogicalModel Services.
From Coq Require Import Qround.
Open Scope string_scope.
Open Scope list_scope.

(** ** Lines *)

(** [s.split("\n")] (external: Python's str). *)
Fixpoint split_lines (s : string) : list string :=
  match s with
  | "" => [""]
  | String c r =>
      if Ascii.eqb c newline then "" :: split_lines r
      else match split_lines r with h :: t => String c h :: t | [] => [String c ""] end
  end.
(** ["\n".join(ls)] (external). *)
Definition join_lines (ls : list string) : string := String.concat (String newline "") ls.
Fixpoint spaces (n : nat) : string := match n with O => "" | S k => String " " (spaces k) end.
Fixpoint repeated (n : nat) (s : string) : string := match n with O => "" | S k => s +++ repeated k s end.

(** AbstractModel.remove_leading_spaces, abstract_model.py 39-42. [lstrip] (external) removes white space on the left;
    simplification: of the white space outside ASCII it knows nothing. *)
Definition remove_leading_spaces (lines : string) : string := String.concat " " (map lstrip (split_lines lines)).
(** AbstractModel.append_prefix, abstract_model.py 44-47. *)
Definition append_prefix (lines : string) (length : nat) : string :=
  join_lines (map (fun ln => "┃" +++ spaces length +++ ln) (split_lines lines)).

(** ** Rendering of the parts (external: str, pprint.pformat and DataFrame.to_json; arbitrary functions) *)
Record renderer := mkRenderer {
  sh_keys : list string -> string;                            (* str(list(...)) *)
  sh_array : array -> string;                                 (* str of a pyqubo array *)
  sh_table : list row -> dict string (list aval) -> string;   (* pprint.pformat of the DataFrame *)
  sh_json : list row -> dict string (list aval) -> string;    (* DataFrame.to_json(orient="values") *)
  sh_offset : coef -> string;                                 (* str of the offset *)
  sh_constraints : dict string constr -> string;              (* pprint.pformat *)
  sh_constraints_str : dict string constr -> string;          (* str *)
  sh_variables : dict string array -> string;                 (* str of the dictionary of variables *)
  sh_linear : dict string Qc -> string;
  sh_quadratic : dict (string * string) Qc -> string;
  sh_number : Qc -> string }.

(** str(self._mtype), constants.py. *)
Definition type_name (t : mtype) : string := match t with Ising => "ising" | Qubo => "qubo" end.
Definition bar : string := repeated 64 "━".

(** LogicalModel.__str__, logical_model.py 901-922. The DataFrame is empty when it has no rows. *)
Definition str_logical (rd : renderer) : LM string :=
  rows <- dataframe ;;
  m <- get ;;
  ret (join_lines
    (["┏" +++ bar; "┃ LOGICAL MODEL"; "┣" +++ bar; "┣━ mtype: " +++ type_name (m_mtype m);
      "┣━ variables: " +++ sh_keys rd (dkeys (m_vars m))]
     ++ flat_map (fun na => ["┃  name: " +++ fst na; append_prefix (sh_array rd (snd na)) 4]) (m_vars m)
     ++ ["┣━ interactions:"; append_prefix (match rows with [] => "Empty" | _ => sh_table rd rows (m_cols m) end) 4;
         "┣━ offset: " +++ sh_offset rd (m_offset m); "┣━ constraints:";
         append_prefix (sh_constraints rd (m_constrs m)) 4; "┗" +++ bar])).
(** LogicalModel.__repr__, logical_model.py 886-899. *)
Definition repr_logical (rd : renderer) : LM string :=
  rows <- dataframe ;;
  m <- get ;;
  ret ("LogicalModel({" +++ "'mtype': '" +++ type_name (m_mtype m) +++ "', "
    +++ "'variables': " +++ remove_leading_spaces (sh_variables rd (m_vars m)) +++ ", "
    +++ (match rows with [] => "'interactions': 'Empty', " | _ => "'interactions': " +++ sh_json rd rows (m_cols m) +++ ", " end)
    +++ "'offset': " +++ sh_offset rd (m_offset m) +++ ", "
    +++ "'constraints': " +++ sh_constraints_str rd (m_constrs m) +++ "})").
(** PhysicalModel.__str__, physical_model.py 115-128. *)
Definition str_physical (rd : renderer) (p : physical) : string :=
  join_lines ["┏" +++ bar; "┃ PHYSICAL MODEL"; "┣" +++ bar; "┣━ mtype: " +++ type_name (p_mtype p); "┣━ raw_interactions:"; "┃  linear:";
    append_prefix (sh_linear rd (p_linear p)) 4; "┃  quadratic:"; append_prefix (sh_quadratic rd (p_quad p)) 4;
    "┣━ offset: " +++ sh_number rd (p_offset p); "┗" +++ bar].

(** ** sawatabi/utils/time.py

    [t]: what time.time() returns (seconds, exact). int() truncates towards zero. *)
Definition to_int (q : Qc) : Z := if Qclt_bool q 0 then (- Qfloor (this (- q)%Qc))%Z else Qfloor (this q).
(** Lines 18-19, 26-27, 34-35, 42-43 (floats), 22-23, 30-31, 38-39, 46-47 (integers). *)
Inductive tunit := Sec | Ms | Us | Ns.
Definition per_second (u : tunit) : Z := match u with Sec => 1 | Ms => 1000 | Us => 1000000 | Ns => 1000000000 end%Z.
Definition current_time (u : tunit) (t : Qc) : Qc := (t * qz (per_second u))%Qc.
Definition current_time_as_int (u : tunit) (t : Qc) : Z := to_int (current_time u t).

(** ** sawatabi/utils/profile.py (20-36)

    [clock k]: the k-th reading of perf_counter. The decorated function works on a state [S]; when it raises, so does the
    wrapper. The result: the value, the name and the time. *)
Definition profile {S A R} (name : string) (f : A -> M S R) (clock : nat -> Qc) (a : A) : M S (R * (string * Qc)) :=
  fun s => match f a s with
           | (s', Ok r) => (s', Ok (r, (name, (clock 1%nat - clock 0%nat)%Qc)))
           | (s', Err e) => (s', Err e)
           end.

(** ** sample/pubsub/publish_pubsub.py *)
Record pubflags := mkFlags { fl_text : bool; fl_number : bool; fl_city : bool; fl_inc_text : bool; fl_inc_number : bool }.
(** What the outside world contributes in each round: the random text, number (random.randint(1, 99)), city and letters, and the time. *)
Record pubworld := mkPubWorld { pw_text : nat -> string; pw_number : nat -> nat; pw_city : nat -> string; pw_letter : nat -> nat -> ascii; pw_now : nat -> string }.
Fixpoint letters (f : nat -> ascii) (from n : nat) : string := match n with O => "" | S k => String (f from) (letters f (S from) k) end.
(** Lines 127-147: the message of round [i]. *)
Definition message (fl : pubflags) (w : pubworld) (i : nat) : string :=
  if fl_text fl then pw_text w i
  else if fl_number fl then str_of_nat (pw_number w i)
  else if fl_city fl then pw_city w i
  else if fl_inc_text fl then letters (pw_letter w i) 0 i
  else if fl_inc_number fl then str_of_nat i
  else "This is a test message at " +++ pw_now w i +++ ".".
(** Lines 125-155: the loop; [fuel] bounds the number of rounds observed. The messages published
    so far and whether the program has ended. *)
Fixpoint publish (fl : pubflags) (w : pubworld) (finish : Z) (fuel i : nat) : list string * bool :=
  match fuel with
  | O => ([], false)
  | S k => if Z.eqb (Z.of_nat i) finish then ([message fl w i], true)
           else let '(l, b) := publish fl w finish k (S i) in (message fl w i :: l, b)
  end.
Definition published (fl : pubflags) (w : pubworld) (finish : Z) (rounds : nat) : list string * bool := publish fl w finish rounds 1.
