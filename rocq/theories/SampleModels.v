(** * SampleModels: the models of the samples that are written down interaction by
    interaction: sample/model/constraint/n_hot_from_scratch.py and
    sample/solver/_solver_helper.py. *)
From Verif Require Import PyBase Numbers Constraint LogicalModel NppStream.
Local Open Scope string_scope.
Local Open Scope list_scope.

(** x = model.variables(name, shape=shape) (logical_model.py 56-78; the array is
    returned, here read back from the model, where it has just been stored). *)
Definition declare (name : string) (shape : list Z) : LM array :=
  variables (VName name) (ShTuple (map ShInt shape)) ;;; get_variables_by_name name.
(** x = model.append(name, shape=shape) (logical_model.py 80-99). *)
Definition extend (name : string) (shape : list Z) : LM array :=
  append (VName name) (ShTuple (map ShInt shape)) ;;; get_variables_by_name name.

(** model.add_interaction(target, coefficient=c): all other arguments at their defaults
    (logical_model.py 152-165).  [clock] is the environment of the call. *)
Definition add_term (clock : target -> env) (t : target) (c : Qc) : LM unit :=
  add_interaction (clock t) t (NStr "") (AC (CNum c)) (AC (CNum 1%Qc)) AtNone TsNone.
(** model.add_interaction(x[i], coefficient=c) *)
Definition put_lin (clock : target -> env) (x : array) (i : list nat) (c : Qc) : LM unit :=
  v <- lift (array_get x i) ;; add_term clock (TVar v) c.
(** model.add_interaction((x[i], x[j]), coefficient=c) *)
Definition put_quad (clock : target -> env) (x : array) (i j : list nat) (c : Qc) : LM unit :=
  v <- lift (array_get x i) ;; w <- lift (array_get x j) ;; add_term clock (TTuple [EVar v; EVar w]) c.

(** The pairs i < j, in the order in which the samples write them. *)
Fixpoint lt_pairs {A} (l : list A) : list (A * A) :=
  match l with [] => [] | x :: r => map (fun y => (x, y)) r ++ lt_pairs r end.

(** n_hot_from_scratch.py, n_hot_from_scratch_N_of_n_qubo (33-145) and _ising
    (148-258): the file has one function for each of the ten cases
    (N, n) in {(2,1), (3,1), (3,2), (4,1), (4,2)}, qubo and ising, that differ only in
    the literals; [n_hot_scratch] is all of them, for any N and n. *)
Definition scratch_coeff (t : mtype) (N n : nat) : Qc :=
  match t with
  | Qubo => (1 - qz 2 * qz (Z.of_nat n))%Qc
  | Ising => (qz 2 * (qz (Z.of_nat N) - qz 2 * qz (Z.of_nat n)))%Qc
  end.
Definition n_hot_scratch (clock : target -> env) (t : mtype) (N n : nat) : LM unit :=
  x <- declare "x" [Z.of_nat N] ;;
  mfor (lt_pairs (seq 0 N)) (fun p => put_quad clock x [fst p] [snd p] (- qz 2)%Qc) ;;;
  mfor (seq 0 N) (fun i => put_lin clock x [i] (- scratch_coeff t N n)%Qc).

(** _solver_helper.py, _create_simple_ising_model_with_only_1_body (74-84), N = 12 there. *)
Definition only_1_body (clock : target -> env) (N : nat) : LM unit :=
  x <- declare "x" [Z.of_nat N] ;; mfor (seq 0 N) (fun i => put_lin clock x [i] (- (1))%Qc).
(** _create_simple_ising_model_with_only_2_body (87-97), N = 12 there. *)
Definition only_2_body (clock : target -> env) (N : nat) : LM unit :=
  x <- declare "x" [Z.of_nat N] ;; mfor (seq 0 (N - 1)) (fun i => put_quad clock x [i] [i + 1] 1%Qc).
(** _create_ising_model (18-47). *)
Definition helper_ising (clock : target -> env) : LM unit :=
  x <- declare "x" [1; 2]%Z ;;
  put_lin clock x [0; 0] 1%Qc ;;;
  put_quad clock x [0; 0] [0; 1] 1%Qc ;;;
  x <- extend "x" [1; 0]%Z ;;
  put_quad clock x [0; 1] [1; 0] (- qz 2)%Qc ;;;
  put_quad clock x [1; 0] [1; 1] (qz 3) ;;;
  x <- extend "x" [1; 0]%Z ;;
  put_quad clock x [1; 1] [2; 0] (- qz 4)%Qc ;;;
  put_quad clock x [2; 0] [2; 1] (qz 5) ;;;
  set_offset (CNum (qz 6)).
(** _create_simple_2x2_ising_model_without_active_var (100-113) and
    _create_simple_2x2_qubo_model_without_active_var (116-129): the array is named "a"
    in the first and "b" in the second. *)
Definition helper_2x2 (clock : target -> env) (name : string) : LM unit :=
  a <- declare name [2; 2]%Z ;;
  put_lin clock a [0; 1] (qz 2) ;;;
  put_lin clock a [1; 0] (qz 2) ;;;
  put_lin clock a [1; 1] (qz 2) ;;;
  set_offset (CNum (qz 6)).

(** sample/model/constraint/n_hot_constraint.py, n_hot_s_of_n_ising and n_hot_s_of_n_qubo
    (33-60): an array and one constraint over it; printing is not modelled. *)
Definition n_hot_model (name : string) (N : nat) (n : Z) (label : string) (strength : Qc) : LM unit :=
  x <- declare name [Z.of_nat N] ;;
  c <- lift (mk_nhot (Some (VA_array (a_bits x))) (Some n) (Some label) (Some strength)) ;;
  add_constraint (Some c).
Definition n_hot_s_of_n (s : nat) (n : Z) : LM unit := n_hot_model "x" s n "n-hot" 1%Qc.
(** _solver_helper.py, _create_qubo_model (50-71): the label is constants.py 24. *)
Definition helper_qubo : LM unit :=
  n_hot_model "a" 4 1%Z "Default N-hot Constraint" 1%Qc ;;; set_offset (CNum 1%Qc).
