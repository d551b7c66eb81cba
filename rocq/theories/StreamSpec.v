(** * StreamSpec: notions used to state properties of the stream processing. *)
From Coq Require Import Sorted.
From Verif Require Import PyBase LogicalModel Spec Stream.
Open Scope list_scope.

(** Chronological order: by timestamp, elements with the same one by index. *)
Definition before {V} (a b : element V) : Prop :=
  (el_ts a < el_ts b)%Qc \/ (el_ts a = el_ts b /\ el_idx a <= el_idx b).
Definition chronological {V} (l : list (element V)) : Prop := StronglySorted before l.

(** The elements of a stream whose timestamp lies in [lo, hi). *)
Definition in_range {V} (lo hi : Qc) (e : element V) : bool :=
  Qcle_bool lo (el_ts e) && Qclt_bool (el_ts e) hi.
Definition range {V} (stream : list (element V)) (lo hi : Qc) : list (element V) :=
  filter (in_range lo hi) stream.

(** The model and the sample set left by earlier windows. *)
Definition stored_model {V SS} (t0 : mtype) (b : bags V SS) : lmodel := last (b_model b) (new_model t0).
Definition stored_ss {V SS} (b : bags V SS) : option SS := last (map Some (b_ss b)) None.

(** Processing window [w] in state [b] hands to the user's functions, whatever
    they are, the elements [els], the incoming elements [inc] and the outgoing
    elements [out], together with the stored model and sample set, and yields
    what they produce. (With attenuation the model is changed between map_fn
    and solve_fn.) *)
Definition presents {V SS} (a : algorithm) (o : aoptions V) (t0 : mtype) (w : win V) (b : bags V SS)
    (els inc out : list (element V)) : Prop :=
  forall (R : Type) (cb : callbacks V SS R),
    let yields x := snd (process a o cb t0 w b) = Ok [x] in
    match snd (cb_map cb (stored_model t0 b) (stored_ss b) els inc out) with
    | Err e => yields (MapFailed e)
    | Ok m =>
        a <> Attenuation ->
        match snd (cb_solve cb m (stored_ss b) els inc out) with
        | Err e => yields (SolveFailed e)
        | Ok ss => yields (match cb_unmap cb ss els inc out with
                           | Ok r => Solved r | Err e => UnmapFailed e end)
        end
    end.

(** The latest processed timestamp in the state. *)
Definition processed {V SS} (b : bags V SS) (t : Qc) : Prop := b_ts b = [t].
(** Every bag holds at most one value. *)
Definition single {V SS} (b : bags V SS) : Prop :=
  length (b_ts b) <= 1 /\ length (b_els b) <= 1 /\ length (b_model b) <= 1 /\ length (b_ss b) <= 1.
(** The window is not older than what the state has seen. *)
Definition current {V SS} (w : win V) (b : bags V SS) : Prop :=
  forall t, last (b_ts b) (- (1))%Qc = t -> (t <= wn_ts w)%Qc.

(** What the windows [ws], processed one after the other from state [b] with
    the user's functions [cb], present: one triple (elements, incoming,
    outgoing) per window. *)
Fixpoint presented {V SS R} (a : algorithm) (o : aoptions V) (cb : callbacks V SS R) (t0 : mtype)
    (b : bags V SS) (ws : list (win V))
    (log : list (list (element V) * list (element V) * list (element V))) : Prop :=
  match ws, log with
  | [], [] => True
  | w :: ws', (els, inc, out) :: log' =>
      presents a o t0 w b els inc out /\
      presented a o cb t0 (fst (process a o cb t0 w b)) ws' log'
  | _, _ => False
  end.
Definition incoming_of {V} (log : list (list (element V) * list (element V) * list (element V))) :=
  map (fun x => snd (fst x)) log.
Definition outgoing_of {V} (log : list (list (element V) * list (element V) * list (element V))) :=
  map snd log.
Definition elements_of {V} (log : list (list (element V) * list (element V) * list (element V))) :=
  map (fun x => fst (fst x)) log.

(** Window timestamps that start at -1 or later and never go back. *)
Fixpoint in_time {V} (t : Qc) (ws : list (win V)) : Prop :=
  match ws with [] => True | w :: r => (t <= wn_ts w)%Qc /\ in_time (wn_ts w) r end.

(** Time ranges that move forward without skipping an element of the stream. *)
Fixpoint moving {V} (stream : list (element V)) (lo hi : Qc) (rs : list (Qc * Qc)) : Prop :=
  match rs with
  | [] => True
  | (lo', hi') :: r =>
      (lo <= lo')%Qc /\ (hi <= hi')%Qc /\ (lo' <= hi')%Qc /\
      (forall e, In e stream -> ~ ((hi <= el_ts e)%Qc /\ (el_ts e < lo')%Qc)) /\
      moving stream lo' hi' r
  end.
(** The end of the last range. *)
Definition end_of (hi : Qc) (rs : list (Qc * Qc)) : Qc := last (map snd rs) hi.

(** The algorithms whose window is what was received. *)
Definition windowed (a : algorithm) : Prop := a = Window \/ a = Delta \/ a = Attenuation.

(** Elements arrive in order: those of a window are later than all earlier ones. *)
Fixpoint arriving {V} (seen : list (element V)) (ws : list (win V)) : Prop :=
  match ws with
  | [] => True
  | w :: r => (forall p e, In p seen -> In e (wn_els w) -> (el_ts p < el_ts e)%Qc) /\
              arriving (seen ++ wn_els w) r
  end.

(** Beam's windows (beam.window.SlidingWindows and FixedWindows): the k-th window
    of size [size] and period [period] is [k period, k period + size); fixed
    windows have the same size and period. An empty window is not delivered. *)
Definition sliding (size period : Qc) (k : Z) : Qc * Qc := (qz k * period, qz k * period + size)%Qc.
Definition delivered {V} (stream : list (element V)) (size period : Qc) (k0 : Z) (n : nat) : list (Qc * Qc) :=
  filter (fun r => existsb (in_range (fst r) (snd r)) stream)
         (map (fun i => sliding size period (k0 + Z.of_nat i)) (seq 0 n)).

(** The reference value of an interaction for the attenuation: its timestamp, or
    one of its attributes ("attributes.xxx"). *)
Definition reference (m : lmodel) (key : string) (r : row) : aval :=
  if String.eqb key "timestamp" then match r_ts r with Some q => ANum q | None => ANan end
  else attr_of m (r_name r) key.
(** The interactions of a model that are not removed. *)
Definition live (m : lmodel) : list row := filter (fun r => negb (r_removed r)) (m_rows m).

(** ** What a history of windows yields, without any state but the model and the
    sample set: map_fn receives the model as solve_fn left it in the window
    before (as map_fn returned it, if nothing else), and the sample set of the
    last window that was solved. [log]: the elements, incoming and outgoing
    elements of each window. *)
Fixpoint outcomes {V SS R} (cb : callbacks V SS R) (m : lmodel) (ss : option SS)
    (log : list (list (element V) * list (element V) * list (element V))) : list (list (output R)) :=
  match log with
  | [] => []
  | (els, inc, out) :: r =>
      match cb_map cb m ss els inc out with
      | (_, Err e) => [MapFailed e] :: outcomes cb m ss r
      | (_, Ok mapped) =>
          match cb_solve cb mapped ss els inc out with
          | (left_, Err e) => [SolveFailed e] :: outcomes cb left_ ss r
          | (left_, Ok s) =>
              [match cb_unmap cb s els inc out with Ok x => Solved x | Err e => UnmapFailed e end]
              :: outcomes cb left_ (Some s) r
          end
      end
  end.
(** Between the windows the state is written out and read back, or map_fn never
    changes a model it fails on. *)
Definition map_fn_safe {V SS R} (cb : callbacks V SS R) (ws : list (win V)) : Prop :=
  (forall w, In w ws -> wn_same w = false) \/
  (forall m ss els inc out e, snd (cb_map cb m ss els inc out) = Err e -> fst (cb_map cb m ss els inc out) = m).
