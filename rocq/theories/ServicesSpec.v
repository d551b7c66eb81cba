(** * ServicesSpec: what number input, flattening and element-wise operations
    mean, independently of the code. *)
From Verif Require Import PyBase Constraint LogicalModel Physical Solver Services Spec SolverSpec BqmProofs.
Open Scope string_scope.
Open Scope list_scope.

(** ** Decimal numbers *)
Definition digits : list ascii := list_ascii_of_string "0123456789".
(** The value of a digit: its position among the ten digits. *)
Definition digit_value (c : ascii) (v : nat) : Prop := nth_error digits v = Some c.
(** [number s v]: [s] is a non-empty sequence of digits and denotes [v], the
    digit followed by k other ones counting for 10^k. *)
Inductive number : string -> Z -> Prop :=
| num_last c d : digit_value c d -> number (String c "") (Z.of_nat d)
| num_more c d s v : digit_value c d -> number s v ->
    number (String c s) (Z.of_nat d * 10 ^ Z.of_nat (String.length s) + v)%Z.
(** A line of input: a number, possibly with its end of line. *)
Definition number_line (s : string) (v : Z) : Prop :=
  exists t, number t v /\ (s = t \/ s = t ++ String newline "")%string.
(** The numbers of a list of lines, in order; the other lines count for nothing. *)
Inductive numbers : list string -> list Z -> Prop :=
| ns_nil : numbers [] []
| ns_keep s v r l : number_line s v -> numbers r l -> numbers (s :: r) (v :: l)
| ns_drop s r l : (forall v, ~ number_line s v) -> numbers r l -> numbers (s :: r) l.

(** ** Positions in a nested list *)
(** What is found by following the indices [path] from a nested list. *)
Fixpoint at_path {A} (x : nested A) (path : list nat) : option (nested A) :=
  match path with
  | [] => Some x
  | i :: r => match x with
              | Leaf _ => None
              | Nest l => match nth_error l i with Some y => at_path y r | None => None end
              end
  end.
(** Reading order of two positions: the first index that differs decides. *)
Inductive earlier : list nat -> list nat -> Prop :=
| e_here i j r q : i < j -> earlier (i :: r) (j :: q)
| e_next i r q : earlier r q -> earlier (i :: r) (i :: q).

(** ** Solvers of other libraries *)
(** The values a variable of a BQM may take. *)
Definition bqm_legal (b : bqm) (z : Z) : Prop := if b_spin b then z = 1%Z \/ z = (-1)%Z else z = 0%Z \/ z = 1%Z.
(** A sampler does what its documentation says: every sample of a BQM (with
    distinct variables) gives a legal value to exactly the variables of the BQM and comes with its energy. *)
Definition honest_sampler (f : sampler) : Prop :=
  forall b rows s e c, NoDup (bqm_variables b) -> f b = Ok rows -> In (s, e, c) rows ->
    e = energy_bqm (value_of s) b /\ NoDup (dkeys s) /\ (forall l, In l (dkeys s) <-> In l (bqm_variables b)) /\
    Forall (bqm_legal b) (dvals s).
(** The vector of the values of a sample of the service, by variable index. *)
Definition vec (x : list Z) : nat -> Qc := fun i => match nth_error x i with Some z => qz z | None => 0%Qc end.
