(** * Layout: the texts of the samples (npp_window.py 69-97, tsp_window.py 112-144), the messages of SolveDoFn.process
    (abstract_algorithm.py 101-104, 155, 180, 191), the text file they are written to, and repr of physical models. *)
From Verif Require Import PyBase Numbers Constraint LogicalModel Physical Solver Services Stream NppStream Tsp Text.
Open Scope string_scope.
Open Scope list_scope.

(** [str] of an int (external). *)
Definition str_of_int (z : Z) : string :=
  if Z.ltb z 0 then "-" +++ str_of_nat (Z.to_nat (- z)) else str_of_nat (Z.to_nat z).
(** The numbers of the samples are ints (io.py 30-33); simplification: of a value that is not an integer, the numerator. *)
Definition show_num (q : Qc) : string := str_of_int (Qnum (this q)).
(** [str] of a list whose elements are rendered as [l] (external). *)
Definition show_list (l : list string) : string := "[" +++ String.concat ", " l +++ "]".

(** npp_unmapping, npp_window.py 74-97. [n_set_p] and [n_set_n] are the sums of the sets (84-92). *)
Definition npp_text (a : npp_answer) : string :=
  join_lines
    [""; "INPUT -->"; "  " +++ show_list (map show_num (an_input a)); "  (length: " +++ str_of_nat (length (an_input a)) +++ ")"; "SOLUTION ==>";
     "  Set(+) : sum=" +++ show_num (qsum (an_plus a)) +++ ", elements=" +++ show_list (map show_num (an_plus a));
     "  Set(-) : sum=" +++ show_num (qsum (an_minus a)) +++ ", elements=" +++ show_list (map show_num (an_minus a));
     "  diff   : " +++ show_num (an_diff a)].
(** tsp_unmapping, tsp_window.py 132-144. [show]: [str] of the list of the dictionaries (external). *)
Definition tsp_text (show : list city_el -> string) (elements : list city_el) (order : list string) : string :=
  join_lines [""; "INPUT -->"; "  " +++ show elements; "SOLUTION ==>"] +++ String newline "" +++ "  " +++ String.concat " -> " order.

(** SolveDoFn.process, abstract_algorithm.py 101-104, 155, 180, 188-191. [show]: what unmap_fn makes of the answer; [why]: the
    exception, a line break and the traceback (external); [utc]: [str] of a timestamp as a datetime (external). *)
Definition output_text {R} (show : R -> string) (why : exn -> string) (utc : Qc -> string) (o : output R) : string :=
  match o with
  | Solved r => show r
  | MapFailed e => "Failed to map: " +++ why e
  | SolveFailed e => "Failed to solve: " +++ why e
  | UnmapFailed e => "Failed to unmap: " +++ why e
  | Outdated received processed =>
      "The received event is outdated: Timestamp is " +++ utc received +++ ", while an event with timestamp of " +++ utc processed +++ " has been already processed."
  end.
(** The options of the output, the same in all samples: npp_window.py 165-167, npp_delta.py 35-37, npp_incremental.py 35-37,
    npp_partial.py 45-47, npp_attenuation.py 38-40, tsp_window.py 212-214. *)
Definition sample_output : doptions := mkDo true (Some ("<<<" +++ String newline "")) (Some (String newline "" +++ ">>>" +++ String newline "")).
(** IO.write_to_text, io.py 93-95 (external: WriteToText ends every element with a line break; simplification: one file, in the
    order of the list). *)
Definition file_text (ls : list string) : string := String.concat "" (map (fun s => s +++ String newline "") ls).

(** PhysicalModel.__repr__, physical_model.py 108-113. [raw]: [str] of the dictionary of the interactions (external). *)
Definition repr_physical (rd : renderer) (raw : physical -> string) (p : physical) : string :=
  "PhysicalModel({" +++ "'mtype': '" +++ type_name (p_mtype p) +++ "', " +++ "'raw_interactions': " +++ raw p +++ "}), " +++ "'offset': " +++ sh_number rd (p_offset p).
