(** * Stream: sawatabi/algorithm/abstract_algorithm.py, the stateful solving of
    windows of a stream.

    Line numbers refer to /repo/sawatabi/algorithm/abstract_algorithm.py.
    Apache Beam is external: it calls [process] once per window, sequentially
    (one key), and keeps the state bags. *)
From Verif Require Import PyBase Constraint LogicalModel.
Open Scope string_scope.
Open Scope list_scope.

(** ** Elements

    An element of a window is the tuple (timestamp, (index, data)) made by
    WithTimestampTupleFn (37-39) and IndexAssigningStatefulDoFn (28-35). *)
Record element (V : Type) := mkEl { el_ts : Qc; el_idx : nat; el_val : V }.
Arguments mkEl {V}.  Arguments el_ts {V}.  Arguments el_idx {V}.  Arguments el_val {V}.

(** The order of tuples: timestamp, then index. Simplification: data are never
    compared (two elements with the same timestamp and index keep their order;
    the pipeline gives every element its own index). *)
Definition el_leb {V} (a b : element V) : bool :=
  if Qclt_bool (el_ts a) (el_ts b) then true
  else if Qclt_bool (el_ts b) (el_ts a) then false
  else (el_idx a <=? el_idx b)%nat.
(** sorted(l) *)
Fixpoint insert {V} (x : element V) (l : list (element V)) : list (element V) :=
  match l with
  | [] => [x]
  | y :: r => if el_leb x y then x :: y :: r else y :: insert x r
  end.
Fixpoint sorted {V} (l : list (element V)) : list (element V) :=
  match l with [] => [] | x :: r => insert x (sorted r) end.

(** ** The state bags (46-49)

    A bag is the list of its values. *)
Record bags (V SS : Type) := mkBags {
  b_ts : list Qc; b_els : list (list (element V)); b_model : list lmodel; b_ss : list SS }.
Arguments mkBags {V SS}.  Arguments b_ts {V SS}.  Arguments b_els {V SS}.
Arguments b_model {V SS}.  Arguments b_ss {V SS}.
Definition no_bags {V SS} : bags V SS := mkBags [] [] [] [].
(** bag[-1] with a default for the empty bag (81-96). *)
Definition last_or {A} (d : A) (l : list A) : A := last l d.

(** ** User callbacks

    map_fn receives prev_model and may modify it in place: [cb_map] gives the
    argument as the call leaves it, and what the call returns or raises. In the
    same way [cb_solve] gives the model after solve_fn. Simplification: they do
    not modify the lists of elements or sample sets they receive. *)
Record callbacks (V SS R : Type) := mkCb {
  cb_map : lmodel -> option SS -> list (element V) -> list (element V) -> list (element V) ->
           lmodel * res lmodel;
  cb_solve : lmodel -> option SS -> list (element V) -> list (element V) -> list (element V) ->
             lmodel * res SS;
  cb_unmap : SS -> list (element V) -> list (element V) -> list (element V) -> res R }.
Arguments mkCb {V SS R}.  Arguments cb_map {V SS R}.  Arguments cb_solve {V SS R}.
Arguments cb_unmap {V SS R}.

(** constants.py 36-40. *)
Inductive algorithm := Attenuation | Delta | Incremental | Partial | Window.
(** algorithm_options: "filter_fn", "attenuation.key", "attenuation.min_scale". *)
Record aoptions (V : Type) := mkAo {
  ao_filter : option (element V -> res bool);
  ao_key : option string;
  ao_min_scale : option Qc }.
Arguments mkAo {V}.  Arguments ao_filter {V}.  Arguments ao_key {V}.  Arguments ao_min_scale {V}.

(** One call of process: the window's timestamp and elements; whether the state
    was written earlier in the same bundle (then reading a bag gives the very
    objects that were added; otherwise it decodes a copy of what the bundle
    left); and the environment of the to_physical call of line 166. *)
Record win (V : Type) := mkWin {
  wn_ts : Qc; wn_els : list (element V); wn_same : bool; wn_env : env; wn_envs : nat -> env }.
Arguments mkWin {V}.  Arguments wn_ts {V}.  Arguments wn_els {V}.  Arguments wn_same {V}.
Arguments wn_env {V}.  Arguments wn_envs {V}.

(** What a window yields. The outdated message (101-104) shows two timestamps. *)
Inductive output (R : Type) :=
| Solved (r : R)
| MapFailed (e : exn) | SolveFailed (e : exn) | UnmapFailed (e : exn)
| Outdated (received processed : Qc).
Arguments Solved {R}.  Arguments MapFailed {R}.  Arguments SolveFailed {R}.
Arguments UnmapFailed {R}.  Arguments Outdated {R}.

(** ** Incoming and outgoing elements *)

(** Lines 120-126. *)
Fixpoint resolve_outgoing {V} (prev cur : list (element V)) : res (list (element V)) :=
  match prev with
  | [] => Ok []
  | p :: r =>
      match cur with
      | [] => Err IndexError
      | c :: _ => if Qcle_bool (el_ts c) (el_ts p) then Ok []
                  else rbind (resolve_outgoing r cur) (fun o => Ok (p :: o))
      end
  end.
(** Lines 131-140: [rcur] is reversed(sorted_elements). *)
Fixpoint later {V} (t : Qc) (rcur acc : list (element V)) : list (element V) :=
  match rcur with
  | [] => acc
  | v :: r => if Qcle_bool (el_ts v) t then acc else later t r (v :: acc)
  end.
Definition resolve_incoming {V} (prev cur : list (element V)) : list (element V) :=
  match rev prev with
  | [] => cur
  | p :: _ => later (el_ts p) (rev cur) []
  end.

(** filter(filter_fn, prev_elements) (115-116) *)
Fixpoint rfilter {A} (f : A -> res bool) (l : list A) : res (list A) :=
  match l with
  | [] => Ok []
  | x :: r => rbind (f x) (fun b => rbind (rfilter f r) (fun r' => Ok (if b then x :: r' else r')))
  end.

(** Lines 72, 109-117. *)
Definition window_elements {V} (a : algorithm) (o : aoptions V) (prev els : list (element V))
  : res (list (element V)) :=
  match a with
  | Incremental => Ok (sorted (sorted els ++ prev))
  | Partial =>
      match ao_filter o with
      | None => Err KeyError
      | Some f => rbind (rfilter f prev) (fun kept => Ok (sorted (kept ++ sorted els)))
      end
  | _ => Ok (sorted els)
  end.

(** ** Attenuation (165-174) *)

(** model._interactions_array[key]: an attribute column, or the timestamps.
    Simplifications: the other default columns are not represented (KeyError);
    a reference that is not a number (NaN, None, a string) is a TypeError. *)
Fixpoint all_nums (l : list aval) : res (list Qc) :=
  match l with
  | [] => Ok []
  | ANum q :: r => rbind (all_nums r) (fun t => Ok (q :: t))
  | _ :: _ => Err TypeError
  end.
Definition ref_column (m : lmodel) (key : string) : res (list Qc) :=
  if String.eqb key "timestamp"
  then all_nums (map (fun r => match r_ts r with Some q => ANum q | None => ANan end) (m_rows m))
  else match dget key (m_cols m) with None => Err KeyError | Some c => all_nums c end.
(** min(l), max(l); ValueError on an empty list. *)
Definition qmin (a b : Qc) : Qc := if Qclt_bool b a then b else a.
Definition qmax (a b : Qc) : Qc := if Qclt_bool a b then b else a.
Definition list_min (l : list Qc) : res Qc :=
  match l with [] => Err ValueError | x :: r => Ok (fold_left qmin r x) end.
Definition list_max (l : list Qc) : res Qc :=
  match l with [] => Err ValueError | x :: r => Ok (fold_left qmax r x) end.
(** Line 173. *)
Definition new_scale (lo hi ms t : Qc) : Qc := ((1 - ms) / (hi - lo) * (t - lo) + ms)%Qc.
(** Lines 172-174. *)
Fixpoint rescale (f : Qc -> Qc) (ts : list Qc) (rows : list row) : list row * res unit :=
  match ts, rows with
  | [], _ => (rows, Ok tt)
  | t :: ts', [] => ([], Err IndexError)
  | t :: ts', r :: rows' =>
      match rescale f ts' rows' with
      | (rows'', x) => (set_scale (CNum (f t)) r :: rows'', x)
      end
  end.
Definition attenuate (ev : env) (evs : nat -> env) (key : option string) (ms : option Qc) : LM unit :=
  to_physical ev evs [] ;;;
  m <- get ;;
  k <- lift (match key with Some k => Ok k | None => Err KeyError end) ;;
  ref <- lift (ref_column m k) ;;
  lo <- lift (list_min ref) ;;
  hi <- lift (list_max ref) ;;
  s <- lift (match ms with Some s => Ok s | None => Err KeyError end) ;;
  if Qclt_bool lo hi
  then fun m => match rescale (new_scale lo hi s) ref (m_rows m) with
                | (rows, x) => (with_rows rows m, x) end
  else ret tt.

(** ** process (51-191)

    An exception that process does not catch ends the bundle: the bags are
    given as they stand, but Beam does not keep them. *)
Definition process {V SS R} (a : algorithm) (o : aoptions V) (cb : callbacks V SS R) (t0 : mtype)
    (w : win V) : M (bags V SS) (list (output R)) := fun b =>
  let prev_ts := last_or (- (1))%Qc (b_ts b) in
  let prev_els := last_or [] (b_els b) in
  let prev_model := last_or (new_model t0) (b_model b) in
  let prev_ss := last_or None (map Some (b_ss b)) in
  if Qclt_bool (wn_ts w) prev_ts                                                   (* 100-105 *)
  then (b, Ok [Outdated (wn_ts w) (wn_ts w)])
  else
  match window_elements a o prev_els (wn_els w) with
  | Err e => (b, Err e)
  | Ok els =>
  match resolve_outgoing prev_els els with
  | Err e => (b, Err e)
  | Ok outgoing =>
  let incoming := resolve_incoming prev_els els in
  let b1 := mkBags [wn_ts w] [els] (b_model b) (b_ss b) in                          (* 146-149 *)
  match cb_map cb prev_model prev_ss els incoming outgoing with
  | (pm, Err e) =>                                                                 (* 154-156 *)
      (if wn_same w && negb (Nat.eqb (length (b_model b)) 0)
       then mkBags [wn_ts w] [els] (removelast (b_model b) ++ [pm]) (b_ss b) else b1,
       Ok [MapFailed e])
  | (_, Ok model) =>
  let b2 m := mkBags [wn_ts w] [els] [m] (b_ss b) in                                (* 160-161 *)
  match (match a with
         | Attenuation => attenuate (wn_env w) (wn_envs w) (ao_key o) (ao_min_scale o) model
         | _ => (model, Ok tt)
         end) with
  | (model1, Err e) => (b2 model1, Err e)
  | (model1, Ok _) =>
  match cb_solve cb model1 prev_ss els incoming outgoing with
  | (model2, Err e) => (b2 model2, Ok [SolveFailed e])                              (* 179-181 *)
  | (model2, Ok ss) =>
      (mkBags [wn_ts w] [els] [model2] [ss],                                        (* 185-186 *)
       Ok [match cb_unmap cb ss els incoming outgoing with                          (* 188-191 *)
           | Ok r => Solved r | Err e => UnmapFailed e end])
  end end end end end.

(** A history of windows; it stops at the first uncaught exception. *)
Fixpoint run {V SS R} (a : algorithm) (o : aoptions V) (cb : callbacks V SS R) (t0 : mtype)
    (ws : list (win V)) : M (bags V SS) (list (list (output R))) :=
  match ws with
  | [] => ret []
  | w :: r => x <- process a o cb t0 w ;; y <- run a o cb t0 r ;; ret (x :: y)
  end.

(** ** Input side (226-236) *)

(** IndexAssigningStatefulDoFn (28-35): the state is the sum of what was added. *)
Definition assign_index {V} (v : V) : M nat (nat * V) :=
  i <- get ;; put (i + 1) ;;; ret (i, v).
Fixpoint assign_indices {V} (l : list V) : M nat (list (nat * V)) :=
  match l with
  | [] => ret []
  | v :: r => x <- assign_index v ;; y <- assign_indices r ;; ret (x :: y)
  end.
(** Lines 233-238 and 37-39: the timestamp of an element is its index with
    "input.reassign_timestamp", its event time otherwise ([time]). *)
Definition timestamped {V} (reassign : bool) (time : nat * V -> Qc) (x : nat * V) : element V :=
  mkEl (if reassign then qz (Z.of_nat (fst x)) else time x) (fst x) (snd x).

(** ** Output side (267-276), on results that are strings

    [stamp] renders the timestamp of the output's window. *)
Record doptions := mkDo { do_stamp : bool; do_prefix : option string; do_suffix : option string }.
Definition decorate (o : doptions) (stamp result : string) : string :=
  let s1 := if do_stamp o then "[" +++ stamp +++ "] " +++ result else result in
  let s2 := match do_prefix o with Some p => p +++ s1 | None => s1 end in
  match do_suffix o with Some x => s2 +++ x | None => s2 end.
Definition decorated (o : doptions) (outs : list (string * string)) : list string :=
  map (fun so => decorate o (fst so) (snd so)) outs.

(** Lines 209-213: the initial model type; [None] is not a string. *)
Definition check_initial_mtype (s : option string) : res mtype :=
  match s with
  | None => Err TypeError
  | Some s => if String.eqb s "ising" then Ok Ising
              else if String.eqb s "qubo" then Ok Qubo else Err ValueError
  end.
