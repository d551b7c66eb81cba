(** * Services: number input (sawatabi/algorithm/io.py), the container helpers
    of sawatabi/utils/functions.py and the solvers that call other programs:
    OptiganSolver, LocalSolver and DWaveSolver. *)
From Verif Require Import PyBase Constraint LogicalModel Physical Solver.
Open Scope string_scope.
Open Scope list_scope.

(** ** algorithm/io.py *)

(** Strings are sequences of 8-bit characters: the other Unicode characters are
    not digits for the pattern, so that lines containing them are dropped like
    lines containing any other character. *)
Definition digit_of (c : ascii) : option Z :=
  let n := N_of_ascii c in
  if (48 <=? n)%N && (n <=? 57)%N then Some (Z.of_N n - 48)%Z else None.
Definition is_digit (c : ascii) : bool := match digit_of c with Some _ => true | None => false end.
Definition newline : ascii := ascii_of_N 10.

(** re.compile(r"^[0-9]+$").match: [$] also matches just before a newline that
    ends the string (external: Python's re). *)
Fixpoint digits_to_end (s : string) : bool :=
  match s with
  | "" => true
  | String c r => if is_digit c then digits_to_end r else Ascii.eqb c newline && String.eqb r ""
  end.
Definition number_match (s : string) : bool :=
  match s with "" => false | String c r => is_digit c && digits_to_end r end.

(** int(s) (external: Python's int on str): white space around the number, a
    sign and single underscores between digits are accepted. [limit] is the
    largest number of digits the interpreter accepts
    (sys.set_int_max_str_digits), if it has one. *)
Definition is_space (c : ascii) : bool :=
  let n := N_of_ascii c in ((9 <=? n)%N && (n <=? 13)%N) || ((28 <=? n)%N && (n <=? 32)%N).
Fixpoint lstrip (s : string) : string :=
  match s with "" => "" | String c r => if is_space c then lstrip r else s end.
Fixpoint rstrip (s : string) : string :=
  match s with
  | "" => ""
  | String c r => match rstrip r with
                  | "" => if is_space c then "" else String c ""
                  | r' => String c r' end
  end.
(** [acc]: value so far, [k]: number of digits so far, [prev]: the previous
    character is a digit. *)
Fixpoint int_digits (acc : Z) (k : nat) (prev : bool) (s : string) : res (Z * nat) :=
  match s with
  | "" => if prev then Ok (acc, k) else Err ValueError
  | String c r =>
      match digit_of c with
      | Some d => int_digits (10 * acc + d)%Z (S k) true r
      | None => if Ascii.eqb c "_"%char && prev then int_digits acc k false r else Err ValueError
      end
  end.
Definition py_int (limit : option nat) (s : string) : res Z :=
  let t := lstrip (rstrip s) in
  let '(sg, u) := match t with
                  | String c r => if Ascii.eqb c "-"%char then ((-1)%Z, r)
                                  else if Ascii.eqb c "+"%char then (1%Z, r) else (1%Z, t)
                  | "" => (1%Z, t) end in
  rbind (int_digits 0 0 false u) (fun vk =>
    match limit with
    | Some n => if Nat.ltb n (snd vk) then Err ValueError else Ok (sg * fst vk)%Z
    | None => Ok (sg * fst vk)%Z
    end).
Fixpoint rmap {A B} (f : A -> res B) (l : list A) : res (list B) :=
  match l with
  | [] => Ok []
  | a :: r => rbind (f a) (fun b => rbind (rmap f r) (fun t => Ok (b :: t)))
  end.
(** io.py 28-34. A Beam collection is the list of its elements; the runner may
    process them in any order. *)
Definition read_as_number (limit : option nat) (lines : list string) : res (list Z) :=
  rmap (py_int limit) (filter number_match lines).

(** Beam's check of a resource path (external: apache_beam/io/gcp/pubsub.py,
    parse_topic and parse_subscription): re.match of projects/([^/]+)/topics/(.+)
    or projects/([^/]+)/subscriptions/(.+); the tests rely on it (tests/algorithm/test_io.py
    25-32, 92-99). [.] does not match a line break. *)
Fixpoint strip_prefix (p s : string) : option string :=
  match p, s with
  | "", _ => Some s
  | String c p', String d s' => if Ascii.eqb c d then strip_prefix p' s' else None
  | String _ _, "" => None
  end.
Fixpoint from_slash (s : string) : string :=
  match s with "" => "" | String c r => if Ascii.eqb c "/"%char then s else from_slash r end.
Definition path_ok (kind path : string) : bool :=
  match strip_prefix "projects/" path with
  | Some (String c r) =>
      negb (Ascii.eqb c "/"%char) &&
      match strip_prefix ("/" ++ kind ++ "/")%string (from_slash r) with
      | Some (String d _) => negb (Ascii.eqb d newline)
      | _ => false
      end
  | _ => false
  end.
(** io.py 44-52: the resource the messages are read from. *)
Inductive source := Topic (path : string) | Subscription (path : string).
Definition pubsub_source (project : string) (topic subscription : option string) : res source :=
  match topic, subscription with
  | Some t, _ =>
      let path := ("projects/" ++ project ++ "/topics/" ++ t)%string in
      if path_ok "topics" path then Ok (Topic path) else Err ValueError
  | None, Some s =>
      let path := ("projects/" ++ project ++ "/subscriptions/" ++ s)%string in
      if path_ok "subscriptions" path then Ok (Subscription path) else Err ValueError
  | None, None => Err UnboundLocalError
  end.
(** io.py 87-91: the topic written to. *)
Definition pubsub_sink (project topic : string) : res string :=
  let path := ("projects/" ++ project ++ "/topics/" ++ topic)%string in
  if path_ok "topics" path then Ok path else Err ValueError.

(** ** utils/functions.py *)

(** A list whose elements may be lists; everything else, tuples included, is a leaf. *)
Inductive nested (A : Type) := Leaf (a : A) | Nest (l : list (nested A)).
Arguments Leaf {A} a.
Arguments Nest {A} l.
(** Lines 22-27. *)
Fixpoint flatten1 {A} (x : nested A) : list A :=
  match x with
  | Leaf a => [a]
  | Nest l => flat_map flatten1 l
  end.
Definition flatten {A} (l : list (nested A)) : list A := flat_map flatten1 l.

Inductive seqval := TupleV (l : list Qc) | ListV (l : list Qc) | OtherV.
Definition on_sequences (f : list Qc -> list Qc -> res (list Qc)) (a b : seqval) : res seqval :=
  match a, b with
  | TupleV x, TupleV y => rbind (f x y) (fun z => Ok (TupleV z))
  | ListV x, ListV y => rbind (f x y) (fun z => Ok (ListV z))
  | _, _ => Err TypeError
  end.
(** map(op, a, b): stops with the shorter one. *)
Definition map2 (op : Qc -> Qc -> Qc) (x y : list Qc) : list Qc :=
  map (fun p => op (fst p) (snd p)) (combine x y).
(** np.maximum, np.minimum on two sequences (external): a sequence of one
    element is repeated; any other difference of lengths is an error. *)
Definition broadcast (op : Qc -> Qc -> Qc) (x y : list Qc) : res (list Qc) :=
  if Nat.eqb (length x) (length y) then Ok (map2 op x y)
  else match x, y with
       | [a], _ => Ok (map (op a) y)
       | _, [b] => Ok (map (fun a => op a b) x)
       | _, _ => Err ValueError
       end.
Definition qmax (a b : Qc) : Qc := if Qclt_bool a b then b else a.
Definition qmin (a b : Qc) : Qc := if Qclt_bool b a then b else a.
(** Lines 30-35, 38-43, 46-51, 54-59. *)
Definition elementwise_add := on_sequences (fun x y => Ok (map2 Qcplus x y)).
Definition elementwise_sub := on_sequences (fun x y => Ok (map2 Qcminus x y)).
Definition elementwise_max := on_sequences (broadcast qmax).
Definition elementwise_min := on_sequences (broadcast qmin).

(** ** solver/optigan_solver.py *)

(** Lines 30-40: what the constructor stores. [home]: ~/.optigan.yml exists.
    [if config:] and [if self._endpoint and self._token:] are tests for a
    non-empty string. *)
Definition truthy (s : option string) : bool :=
  match s with Some t => negb (String.eqb t "") | None => false end.
Record optigan := mkOptigan { g_config : option string; g_endpoint : option string; g_token : option string }.
Definition optigan_new (home_file : string) (home : bool) (config endpoint token : option string) : optigan :=
  mkOptigan (if truthy config then config else if home then Some home_file else None) endpoint token.

(** A request as the service receives it, and its answer. Compression of the
    two bodies is transparent. *)
Record request := mkRequest {
  q_endpoint : string; q_token : string; q_steps : Z; q_timeout : Z;
  q_polynomial : list term; q_duplicate : bool }.
Record response := mkResponse { a_status : Z; a_spins : list (list Z); a_energies : list Qc }.
(** [n_file]: endpoint and token of a configuration file (get_config, lines
    42-45, and the subscripts of lines 63-65), [n_post]: requests.post. *)
Record network := mkNetwork {
  n_file : string -> res (string * string);
  n_post : request -> res response }.

Definition is_empty (p : physical) : bool :=
  Nat.eqb (length (p_linear p)) 0 && Nat.eqb (length (p_quad p)) 0.

(** SampleSet.from_samples(..., aggregate_samples=True) on a list of
    dictionaries (external): the labels are those of the first one, a missing
    one is an error; there is one energy per sample; equal samples are merged. *)
Fixpoint row_of (ls : list string) (d : dict string Z) : res (dict string Z) :=
  match ls with
  | [] => Ok []
  | l :: r => match dget l d with
              | Some z => rbind (row_of r d) (fun t => Ok ((l, z) :: t))
              | None => Err ValueError end
  end.
Definition from_samples (ds : list (dict string Z)) (es : list Qc) : res (list srow) :=
  let ls := match ds with [] => [] | d :: _ => dkeys d end in
  rbind (rmap (row_of ls) ds) (fun rows =>
    if Nat.eqb (length rows) (length es)
    then Ok (fold_left (fun acc r => aggregate_add (fst r) (snd r) acc) (combine rows es) [])
    else Err ValueError).

(** Lines 47-112: the requests sent, and the result. The model argument is
    [None] when it is not a PhysicalModel. *)
Definition optigan_solve (n : network) (g : optigan) (steps timeout : Z) (dup : bool)
    (mo : option physical) : list request * res (list srow) :=
  match mo with
  | None => ([], Err TypeError)
  | Some p =>
      if is_empty p then ([], Err ValueError)
      else match p_mtype p with
      | Ising => ([], Err ValueError)
      | Qubo =>
          match to_polynomial p with
          | Err e => ([], Err e)
          | Ok t =>
              match (if truthy (g_endpoint g) && truthy (g_token g)
                     then match g_endpoint g, g_token g with
                          | Some e, Some k => Ok (e, k) | _, _ => Err UnboundLocalError end
                     else if truthy (g_config g)
                     then match g_config g with Some f => n_file n f | None => Err UnboundLocalError end
                     else Err UnboundLocalError) with
              | Err e => ([], Err e)
              | Ok ek =>
                  let q := mkRequest (fst ek) (snd ek) steps timeout t dup in
                  ([q],
                   rbind (n_post n q) (fun a =>
                     if negb (Z.eqb (a_status a) 200) then Err ValueError
                     else from_samples (map (make_sample p) (a_spins a)) (a_energies a)))
              end
          end
      end
  end.

(** ** solver/local_solver.py and solver/dwave_solver.py *)

(** A sampler of another library: what it returns for a BQM. The keyword
    arguments of solve are part of it. *)
Definition sampler := bqm -> res (list srow).

(** dimod.ExactSolver().sample (external): every assignment of the variables,
    with its energy. dimod lists them in Gray-code order, which is not modelled. *)
Fixpoint vectors (lo hi : Z) (n : nat) : list (list Z) :=
  match n with
  | 0 => [[]]
  | S n' => map (cons lo) (vectors lo hi n') ++ map (cons hi) (vectors lo hi n')
  end.
Definition exact_sampler : sampler := fun b =>
  rmap (fun x => let s := combine (bqm_variables b) x in
                 rbind (bqm_energy b s) (fun e => Ok (s, e, 1)))
       (vectors (if b_spin b then (-1)%Z else 0%Z) 1 (length (bqm_variables b))).

(** local_solver.py 37-59. The timing added to the sample set is not modelled. *)
Definition local_solve (exact : bool) (neal : sampler) (mo : option physical) : res (list srow) :=
  match mo with
  | None => Err TypeError
  | Some p =>
      if is_empty p then Err ValueError
      else rbind (to_bqm (- (1))%Qc p) (fun b => if exact then exact_sampler b else neal b)
  end.
(** local_solver.py 61-67: [f] is neal.default_beta_range. *)
Definition default_beta_range {A} (f : bqm -> A) (mo : option physical) : res A :=
  match mo with
  | None => Err TypeError
  | Some p => if is_empty p then Err ValueError else rbind (to_bqm (- (1))%Qc p) (fun b => Ok (f b))
  end.
(** dwave_solver.py 45-56: [composite] is the embedding composite. *)
Definition dwave_solve (composite : sampler) (mo : option physical) : res (list srow) :=
  match mo with
  | None => Err TypeError
  | Some p => if is_empty p then Err ValueError else rbind (to_bqm (- (1))%Qc p) composite
  end.
