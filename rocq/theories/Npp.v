(** * Npp: sawatabi/utils/npp.py, the dynamic-programming reference solver.

    Line numbers refer to /repo/sawatabi/utils/npp.py. print_dp_table (65-75)
    only prints and is not modelled. *)
From Verif Require Import PyBase.
Open Scope list_scope.

(** The table: one cell per row 0..s and column 0..n. A cell is the flag
    ([None], [True] or [False]) and the solutions: one list of positions when
    enumerate_all is off, a list of such lists when it is on. [A] is the type
    of solutions. *)
Definition table (A : Type) := nat -> nat -> (option bool * A).
Definition cell_true {A} (c : option bool * A) : bool :=
  match fst c with Some b => b | None => false end.

(** dp[i][j] and dp[i][j] = c on a table of [s + 1] rows and [n + 1] columns
    (indices are never negative where the code uses them). *)
Definition in_table (s : Z) (n i j : nat) : bool := (Z.of_nat i <=? s)%Z && (j <=? n)%nat.
Definition cell {A} (s : Z) (n : nat) (t : table A) (i j : nat) : res (option bool * A) :=
  if in_table s n i j then Ok (t i j) else Err IndexError.
Definition put_cell {A} (s : Z) (n : nat) (t : table A) (i j : nat) (c : option bool * A) : res (table A) :=
  if in_table s n i j
  then Ok (fun i' j' => if Nat.eqb i' i && Nat.eqb j' j then c else t i' j')
  else Err IndexError.

(** for x in l: t = f(t, x) *)
Fixpoint rfold {S X} (f : S -> X -> res S) (t : S) (l : list X) : res S :=
  match l with [] => Ok t | x :: r => rbind (f t x) (fun t' => rfold f t' r) end.

Section fill.
  Context {A : Type}.
  (** [[]] as a solution, and lines 53-63: the new solutions of cell (i, j)
      from the current number, the left cell's and the sub-problem's. *)
  Variable none : A.
  Variable rule : nat -> Z -> nat -> A -> A -> A.

  (** Line 33. *)
  Definition blank : table A := fun _ _ => (None, none).

  (** Lines 36-41. *)
  Definition init_top (s : Z) (n : nat) (t : table A) : res (table A) :=
    rfold (fun t j => put_cell s n t 0 j (Some true, none)) t (seq 0 (S n)).
  Definition init_left (s : Z) (n : nat) (t : table A) : res (table A) :=
    rfold (fun t i => put_cell s n t i 0 (Some false, none)) t (seq 1 (Z.to_nat s)).

  (** Lines 47-63, one cell. *)
  Definition fill_cell (numbers : list Z) (s : Z) (n : nat) (i : nat) (t : table A) (j : nat) : res (table A) :=
    rbind (cell s n t i (j - 1)) (fun left =>
    rbind (put_cell s n t i j left) (fun t1 =>
    match nth_error numbers (j - 1) with
    | None => Err IndexError
    | Some v =>
        if (v <=? Z.of_nat i)%Z then
          rbind (cell s n t1 (Z.to_nat (Z.of_nat i - v)) (j - 1)) (fun sub =>
            if cell_true sub
            then put_cell s n t1 i j (Some true, rule i v j (snd left) (snd sub))
            else Ok t1)
        else Ok t1
    end)).
  (** Lines 44-63. *)
  Definition fill (numbers : list Z) (s : Z) (n : nat) (t : table A) : res (table A) :=
    rfold (fun t i => rfold (fill_cell numbers s n i) t (seq 1 n)) t (seq 1 (Z.to_nat s)).

  Definition fill_table (numbers : list Z) (s : Z) (n : nat) : res (table A) :=
    rbind (init_top s n blank) (fun t =>
    rbind (init_left s n t) (fun t => fill numbers s n t)).
End fill.

(** Line 53. *)
Definition rule_one (i : nat) (v : Z) (j : nat) (left sub : list nat) : list nat := sub ++ [j - 1].
(** Lines 55-63. *)
Definition rule_all (i : nat) (v : Z) (j : nat) (left sub : list (list nat)) : list (list nat) :=
  if (Z.of_nat i =? v)%Z then left ++ [[j - 1]]
  else map (fun prev => prev ++ [j - 1]) sub ++ left.

(** Lines 77-79. The order of list(set) is not specified by python. *)
Definition find_the_other_partition (p : list nat) (n : nat) : list nat :=
  filter (fun k => negb (existsb (Nat.eqb k) p)) (seq 0 n).

(** Lines 82-97. The result is (flag, partitions, other partitions); [None] is
    the python None returned when the loop ends. [wrap] is the list of
    partitions held by a cell (84, 92). *)
Definition answer := (bool * list (list nat) * list (list nat))%type.
Fixpoint scan {A} (wrap : A -> list (list nat)) (s : Z) (n : nat) (t : table A) (rows : list nat)
  : res (option answer) :=
  match rows with
  | [] => Ok None
  | i :: r =>
      rbind (cell s n t i n) (fun c =>
        if cell_true c
        then let ps := wrap (snd c) in
             Ok (Some (false, ps, map (fun p => find_the_other_partition p n) ps))
        else scan wrap s n t r)
  end.
Definition report {A} (wrap : A -> list (list nat)) (s2 s : Z) (n : nat) (t : table A) : res (option answer) :=
  rbind (if (s2 mod 2 =? 0)%Z then rbind (cell s n t (Z.to_nat s) n) (fun c => Ok (Some c)) else Ok None)
    (fun c =>
      match c with
      | Some c => if cell_true c
                  then let ps := wrap (snd c) in
                       Ok (Some (true, ps, map (fun p => find_the_other_partition p n) ps))
                  else scan wrap s n t (rev (seq 0 (Z.to_nat (s + 1))))
      | None => scan wrap s n t (rev (seq 0 (Z.to_nat (s + 1))))
      end).

(** Lines 24-27 and the whole function. Simplification: int(s2 / 2) is exact
    (the float division rounds for sums above 2^53). *)
Definition zsum (l : list Z) : Z := fold_right Z.add 0%Z l.
Definition solve_npp_with_dp (numbers : list Z) (enumerate_all : bool) : res (option answer) :=
  let n := length numbers in
  let s2 := zsum numbers in
  let s := Z.quot s2 2 in
  if enumerate_all
  then rbind (fill_table [] rule_all numbers s n) (report (fun ps => ps) s2 s n)
  else rbind (fill_table [] rule_one numbers s n) (report (fun p => [p]) s2 s n).
