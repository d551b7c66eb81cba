(** * NppStream: sample/algorithm/npp_window.py, number partitioning on a stream.

    Line numbers refer to /repo/sample/algorithm/npp_window.py. The same three
    functions are used by npp_delta.py, npp_incremental.py, npp_partial.py and
    npp_attenuation.py with the other algorithms. *)
From Verif Require Import PyBase Constraint LogicalModel Solver Services Stream.
Open Scope string_scope.
Open Scope list_scope.

(** An element (timestamp, (index, number)). *)
Notation num_el := (element Qc).

(** max([i[1][0] for i in incoming]) (38); [incoming] is not empty there. *)
Definition max_index (l : list num_el) : Z :=
  fold_right (fun e acc => Z.max (Z.of_nat (el_idx e)) acc) 0%Z l.

(** model.get_variables_by_name(name) (logical_model.py 786-790). *)
Definition get_variables_by_name (n : string) : LM array :=
  m <- get ;; lift (match dget n (m_vars m) with Some a => Ok a | None => Err KeyError end).

(** Lines 36-44. append returns the array it stored (logical_model.py 81, 99). *)
Definition npp_variables (incoming : list num_el) : LM array :=
  match incoming with
  | _ :: _ =>
      m <- get ;;
      append (VName "x") (ShTuple [ShInt (max_index incoming - get_all_size m + 1)]) ;;;
      get_variables_by_name "x"
  | [] => get_variables_by_name "x"
  end.

(** Lines 52-60, one pair. [text] is str(j); [clock] is the environment of the
    add_interaction call. *)
Definition npp_add (text : num_el -> string) (clock : num_el -> num_el -> env) (x : array)
    (i j : num_el) : LM unit :=
  if Qclt_bool (el_ts j) (el_ts i) then
    a <- lift (array_get x [el_idx i]) ;;
    b <- lift (array_get x [el_idx j]) ;;
    add_interaction (clock i j) (TTuple [EVar a; EVar b]) (NStr "")
      (AC (CNum (- (1) * el_val i * el_val j)%Qc)) (AC (CNum 1%Qc))
      (AtDict [("n", AStr (text j)); ("attn_ts", ANum (el_ts j))]) TsNone
  else ret tt.

(** npp_mapping (28-66). *)
Definition npp_mapping (text : num_el -> string) (clock : num_el -> num_el -> env)
    (elements incoming outgoing : list num_el) : LM unit :=
  x <- npp_variables incoming ;;
  mfor incoming (fun i => mfor elements (npp_add text clock x i)) ;;;
  mfor outgoing (fun o => v <- lift (array_get x [el_idx o]) ;; delete_variable (TVar v)).

(** npp_solving (100-125). [solver] is solver.solve with the options of 113-117. *)
Definition npp_solving {SS} (ev : env) (evs : nat -> env) (solver : physical -> res SS) (m : lmodel)
  : lmodel * res SS :=
  match to_physical ev evs [] m with
  | (m', Ok p) => (m', solver p)
  | (m', Err e) => (m', Err e)
  end.

(** sampleset.samples()[0] (82): dimod sorts the samples by energy. *)
Definition first_sample (rows : list srow) : res (dict string Z) :=
  match rows with
  | [] => Err IndexError
  | r :: rest =>
      Ok (fst (fst (fold_left (fun best r => if Qclt_bool (snd (fst r)) (snd (fst best)) then r else best) rest r)))
  end.

(** The output of npp_unmapping (69-97): the numbers, Set(+), Set(-) and their
    difference. The text is npp_text in Layout.v. *)
Record npp_answer := mkAns { an_input : list Qc; an_plus : list Qc; an_minus : list Qc; an_diff : Qc }.
Definition qabs (q : Qc) : Qc := if Qclt_bool q 0%Qc then (- q)%Qc else q.
(** Lines 84-92. *)
Fixpoint npp_split (spins : dict string Z) (l : list num_el) : res (list Qc * list Qc) :=
  match l with
  | [] => Ok ([], [])
  | e :: r =>
      match dget ("x[" +++ str_of_nat (el_idx e) +++ "]") spins with
      | None => Err KeyError
      | Some z =>
          rbind (npp_split spins r) (fun pn =>
            Ok (if Z.eqb z 1 then (el_val e :: fst pn, snd pn)
                else if Z.eqb z (-1) then (fst pn, el_val e :: snd pn) else pn))
      end
  end.
Definition npp_unmapping (rows : list srow) (elements : list num_el) : res npp_answer :=
  rbind (first_sample rows) (fun spins =>
  rbind (npp_split spins elements) (fun pn =>
    Ok (mkAns (map el_val elements) (fst pn) (snd pn) (qabs (qsum (fst pn) - qsum (snd pn))%Qc)))).

(** The three functions handed to create_pipeline (186-196), in one window. *)
Record surroundings := mkSur {
  su_text : num_el -> string; su_clock : num_el -> num_el -> env;
  su_env : env; su_envs : nat -> env; su_solver : physical -> res (list srow) }.
Definition npp_callbacks (u : surroundings) : callbacks Qc (list srow) npp_answer :=
  mkCb (fun m _ els inc out =>
          match npp_mapping (su_text u) (su_clock u) els inc out m with
          | (m', Ok _) => (m', Ok m') | (m', Err e) => (m', Err e) end)
       (fun m _ _ _ _ => npp_solving (su_env u) (su_envs u) (su_solver u) m)
       (fun ss els _ _ => npp_unmapping ss els).

(** The windows of a stream one after the other, each with its surroundings. *)
Fixpoint npp_stream (a : algorithm) (o : aoptions Qc) (ws : list (win Qc * surroundings))
  : M (bags Qc (list srow)) (list (list (output npp_answer))) :=
  match ws with
  | [] => ret []
  | (w, u) :: r => x <- process a o (npp_callbacks u) Ising w ;; y <- npp_stream a o r ;; ret (x :: y)
  end.

(** The input side of the samples on a text file (npp_window.py 174-176,
    abstract_algorithm.py 226-238): every number gets the next index, which with
    "input.reassign_timestamp" is its timestamp too. [handed]: the numbers of the file
    in the order in which Beam hands them to the index assignment. *)
Definition npp_elements (handed : list Z) : res (list num_el) :=
  rbind (snd (assign_indices handed 0)) (fun r =>
    Ok (map (fun x => timestamped true (fun _ => 0%Qc) (fst x, qz (snd x))) r)).
