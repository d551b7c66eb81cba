(** * NppStreamSpec: number partitioning on a stream, in the words of the problem. *)
From Verif Require Import PyBase LogicalModel Spec Stream StreamSpec Solver SolverSpec Services NppStream.
Open Scope string_scope.
Open Scope list_scope.

(** The variable of the element with index i. *)
Definition spin_of (e : num_el) : string := "x[" +++ str_of_nat (el_idx e) +++ "]".

(** The unordered pairs of a list. *)
Fixpoint pairs {A} (l : list A) : list (A * A) :=
  match l with [] => [] | x :: r => map (fun y => (y, x)) r ++ pairs r end.

(** sum over pairs of n_i n_j s_i s_j *)
Definition pair_energy (s : assignment) (els : list num_el) : Qc :=
  qsum (map (fun p => el_val (fst p) * el_val (snd p) * (s (spin_of (fst p)) * s (spin_of (snd p))))%Qc (pairs els)).
(** sum of n_i s_i: the sum of Set(+) minus the sum of Set(-). *)
Definition imbalance (s : assignment) (els : list num_el) : Qc :=
  qsum (map (fun e => el_val e * s (spin_of e))%Qc els).

(** The elements of the stream are indexed in the order of their timestamps,
    which differ. *)
Definition in_order (stream : list num_el) : Prop :=
  NoDup (map el_idx stream) /\
  forall a b, In a stream -> In b stream -> ((el_ts a < el_ts b)%Qc <-> el_idx a < el_idx b).

(** Time ranges whose two ends never go back. *)
Fixpoint forward (lo hi : Qc) (rs : list (Qc * Qc)) : Prop :=
  match rs with
  | [] => True
  | (lo', hi') :: r => (lo <= lo')%Qc /\ (hi <= hi')%Qc /\ forward lo' hi' r
  end.

(** The physical model has no linear term, and its quadratic terms are between
    two different numbers of [els], none of them zero. *)
Definition only_pairs (els : list num_el) (p : physical) : Prop :=
  p_linear p = [] /\
  forall a b, In (a, b) (dkeys (p_quad p)) ->
    exists x y, In x els /\ In y els /\ el_idx x <> el_idx y /\ el_val x <> 0%Qc /\ el_val y <> 0%Qc /\
      a = spin_of x /\ b = spin_of y.

(** What a window whose elements are [els] puts out: the solver received a
    physical model of exactly these numbers, and its answer is decoded. *)
Definition answers (u : surroundings) (els : list num_el) (out : list (output npp_answer)) : Prop :=
  exists p els',
    chronological els' /\ Permutation els' els /\ p_mtype p = Ising /\
    (forall s, energy_physical s p = pair_energy s els) /\
    only_pairs els p /\
    out = [match su_solver u p with
           | Err e => SolveFailed e
           | Ok ss => match npp_unmapping ss els' with Ok r => Solved r | Err e => UnmapFailed e end
           end].

(** The same, where the elements accumulate. *)
Fixpoint answers_all (seen : list num_el) (ws : list (win Qc * surroundings)) (outs : list (list (output npp_answer))) : Prop :=
  match ws, outs with
  | [], [] => True
  | (w, u) :: r, o :: os => answers u (seen ++ wn_els w) o /\ answers_all (seen ++ wn_els w) r os
  | _, _ => False
  end.

(** [l1] and [l2] are the two sides of a partition of the numbers. *)
Definition partition_of (l1 l2 : list Qc) (els : list num_el) : Prop :=
  Permutation (l1 ++ l2) (map el_val els).
(** The answer is a partition of the numbers, with its difference. *)
Definition a_partition (els : list num_el) (ans : npp_answer) : Prop :=
  Permutation (an_input ans) (map el_val els) /\ partition_of (an_plus ans) (an_minus ans) els /\
  an_diff ans = qabs (qsum (an_plus ans) - qsum (an_minus ans))%Qc.
(** There is none with a smaller difference. *)
Definition best_partition (els : list num_el) (ans : npp_answer) : Prop :=
  a_partition els ans /\ forall l1 l2, partition_of l1 l2 els -> (an_diff ans <= qabs (qsum l1 - qsum l2))%Qc.

Definition nonzero (e : num_el) : bool := if Qc_eq_dec (el_val e) 0 then false else true.

(** ** The numbers of a file *)
(** Those at the positions i (from 0) with lo <= i < hi. *)
Definition at_positions (l : list Z) (lo hi : Qc) : list Z :=
  map snd (filter (fun p => Qcle_bool lo (qz (Z.of_nat (fst p))) && Qclt_bool (qz (Z.of_nat (fst p))) hi)
                  (combine (seq 0 (length l)) l)).
(** The windows numbered k0 .. k0+n-1 that hold some number. *)
Definition file_windows (l : list Z) (size period : Qc) (k0 : Z) (n : nat) : list (Qc * Qc) :=
  filter (fun r => negb (Nat.eqb (length (at_positions l (fst r) (snd r))) 0))
         (map (fun i => sliding size period (k0 + Z.of_nat i)) (seq 0 n)).
Definition zsum (l : list Z) : Z := fold_right Z.add 0%Z l.
(** A partition of the integers [ns] with the smallest difference of the sums. *)
Definition best_split (ns : list Z) (ans : npp_answer) : Prop :=
  exists plus minus,
    Permutation (an_input ans) (map qz ns) /\ an_plus ans = map qz plus /\ an_minus ans = map qz minus /\
    Permutation (plus ++ minus) ns /\ an_diff ans = qz (Z.abs (zsum plus - zsum minus)) /\
    forall l1 l2, Permutation (l1 ++ l2) ns -> (Z.abs (zsum plus - zsum minus) <= Z.abs (zsum l1 - zsum l2))%Z.
(** What a window with the numbers [ns] puts out. *)
Definition outcome_of (ns : list Z) (out : list (output npp_answer)) : Prop :=
  (length (filter (fun z => negb (Z.eqb z 0)) ns) < 2 -> out = [SolveFailed ValueError]) /\
  (2 <= length (filter (fun z => negb (Z.eqb z 0)) ns) -> In 0%Z ns -> out = [UnmapFailed KeyError]) /\
  (2 <= length ns -> ~ In 0%Z ns -> exists ans, out = [Solved ans] /\ best_split ns ans).

(** With Attenuation a pair counts for less the longer ago its earlier number
    arrived: [min_scale] for the pairs of the oldest number, 1 for the pair of the
    two newest, and on a line between. [els] is in the order of time and [t] is
    when the earlier number of the pair arrived. *)
Definition fade (min_scale : Qc) (els : list num_el) (t : Qc) : Qc :=
  let oldest := hd 0%Qc (map el_ts els) in
  let last_but_one := last (removelast (map el_ts els)) 0%Qc in
  if Qclt_bool oldest last_but_one
  then (min_scale + (1 - min_scale) * ((t - oldest) / (last_but_one - oldest)))%Qc
  else 1%Qc.
Definition faded_energy (min_scale : Qc) (s : assignment) (els : list num_el) : Qc :=
  qsum (map (fun p => fade min_scale els (el_ts (snd p)) *
                      (el_val (fst p) * el_val (snd p) * (s (spin_of (fst p)) * s (spin_of (snd p)))))%Qc (pairs els)).
(** What a window puts out: the solver received the faded model of its numbers. *)
Definition answers_faded (min_scale : Qc) (u : surroundings) (els : list num_el) (out : list (output npp_answer)) : Prop :=
  exists p els',
    chronological els' /\ Permutation els' els /\ p_mtype p = Ising /\
    (forall s, energy_physical s p = faded_energy min_scale s els') /\
    only_pairs els p /\
    out = [match su_solver u p with
           | Err e => SolveFailed e
           | Ok ss => match npp_unmapping ss els' with Ok r => Solved r | Err e => UnmapFailed e end
           end].
