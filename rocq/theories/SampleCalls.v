(** * SampleCalls: sample/utils/profile.py and sample/solver/sawatabi_solver.py, the eight calls of SawatabiSolver
    on the models of sample/solver/_solver_helper.py; printing is not modelled. *)
From Verif Require Import PyBase Numbers Constraint LogicalModel Solver NppStream SampleModels Text.
Local Open Scope string_scope.
Local Open Scope list_scope.

(** The model a function builds, its type, and the arguments of solve. *)
Record sample_call := mkCall { sc_build : (target -> env) -> LM unit; sc_type : mtype; sc_options : options }.
(** num_sweeps=100, cooling_rate=0.9, initial_temperature=100.0, seed=12345 (lines 39, 50, 61, 71, 81, 91); 0.9 is the decimal number. *)
Definition seeded (reads : Z) : options := mkOptions reads 100 (qfrac 9 10) (qz 100) None RNone "random" (Some 12345%Z).
(** The twelve labels of lines 102-113 and 129-140. *)
Definition twelve : list string :=
  ["x[0]"; "x[1]"; "x[2]"; "x[3]"; "x[4]"; "x[5]"; "x[6]"; "x[7]"; "x[8]"; "x[9]"; "x[10]"; "x[11]"].
(** sawatabi_solver_simple_ising_with_only_1_body (34-42) *)
Definition call_1_body := mkCall (fun c => only_1_body c 12) Ising (seeded 10).
(** sawatabi_solver_simple_ising_with_only_2_body (45-53) *)
Definition call_2_body := mkCall (fun c => only_2_body c 12) Ising (seeded 10).
(** sawatabi_solver_simple_2x2_ising_without_active_var (56-63) *)
Definition call_2x2_ising := mkCall (fun c => helper_2x2 c "a") Ising (seeded 1).
(** sawatabi_solver_simple_2x2_qubo_without_active_var (66-73) *)
Definition call_2x2_qubo := mkCall (fun c => helper_2x2 c "b") Qubo (seeded 1).
(** sawatabi_solver_ising (76-83) *)
Definition call_ising := mkCall helper_ising Ising (seeded 1).
(** sawatabi_solver_qubo (86-93) *)
Definition call_qubo := mkCall (fun _ => helper_qubo) Qubo (seeded 1).
(** sawatabi_solver_with_initial_states (96-120): one sweep, in order, the other arguments at their defaults
    (sawatabi_solver.py 37-49). *)
Definition call_states := mkCall (fun c => only_1_body c 12) Ising
  (mkOptions 1 1 (qfrac 9 10) (qz 100) (Some [combine twelve (1 :: repeat (-1) 11)%Z]) RNone "sequential" None).
(** sawatabi_solver_with_initial_states_reverse_annealing (123-155) *)
Definition call_reverse := mkCall (fun c => only_1_body c 12) Ising
  (mkOptions 1 100 (qfrac 9 10) (qz 100) (Some [combine twelve [1; -1; 1; -1; 1; -1; 1; -1; 1; -1; 1; -1]%Z])
     (RDict [("reverse_period", qz 50); ("reverse_temperature", qz 10)]) "random" None).

(** sample/utils/profile.py, create_n_variable_random_model (20-31). [draw k]: the k-th value of random.random(), whatever the seed; the draws are
    numbered in the order of the loops, [draw_at n i j] is the one for the pair i < j. The model is the state; the function returns nothing. *)
Definition draw_at (n i j : nat) : nat := n + list_sum (map (fun r => n - 1 - r) (seq 0 i)) + (j - S i).
Definition random_model (clock : target -> env) (draw : nat -> Qc) (n : nat) : LM unit :=
  x <- declare "x" [Z.of_nat n] ;;
  mfor (seq 0 n) (fun i => put_lin clock x [i] (draw i)) ;;;
  mfor (seq 0 (n - 1)) (fun i => mfor (seq (S i) (n - 1 - i)) (fun j => put_quad clock x [i] [j] (draw (draw_at n i j)))).
(** The decorator (line 20). *)
Definition profiled_model (clock : target -> env) (draw : nat -> Qc) (counter : nat -> Qc) (n : nat) : LM (unit * (string * Qc)) :=
  profile "create_n_variable_random_model" (random_model clock draw) counter n.
