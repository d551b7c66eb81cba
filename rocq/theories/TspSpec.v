(** * TspSpec: tours, and what is assumed of PyQUBO's compiler. *)
From Verif Require Import PyBase Numbers Constraint LogicalModel Spec Solver SolverSpec Services ServicesSpec Stream StreamSpec NppStream PropsPyqubo Tsp.
Open Scope string_scope.
Open Scope list_scope.

(** ** PyQUBO (external) *)

(** The number an expression stands for. *)
Fixpoint eval (fd : feed) (x : assignment) (e : expr) : Qc :=
  match e with
  | ENum q => q
  | EPlace p => value fd (CPh p)
  | EBit n idx => x (n +++ brackets idx)
  | EAdd a b => (eval fd x a + eval fd x b)%Qc
  | EMul a b => (eval fd x a * eval fd x b)%Qc
  | EConstr _ e => eval fd x e
  end.
(** Its degree in the variables, its placeholders and its variables. *)
Fixpoint degree (e : expr) : nat :=
  match e with
  | ENum _ | EPlace _ => 0
  | EBit _ _ => 1
  | EAdd a b => Nat.max (degree a) (degree b)
  | EMul a b => degree a + degree b
  | EConstr _ e => degree e
  end.
Fixpoint places (e : expr) : list string :=
  match e with
  | ENum _ | EBit _ _ => []
  | EPlace p => [p]
  | EAdd a b | EMul a b => places a ++ places b
  | EConstr _ e => places e
  end.
Fixpoint bits_of (e : expr) : list (string * list nat) :=
  match e with
  | ENum _ | EPlace _ => []
  | EBit n idx => [(n, idx)]
  | EAdd a b | EMul a b => bits_of a ++ bits_of b
  | EConstr _ e => bits_of e
  end.
(** Every placeholder of the expression has a value. *)
Definition all_given (fd : feed) (e : expr) : Prop := forall p, In p (places e) -> dget p fd <> None.

(** A compiled model of an expression: terms over its variables, one for each
    pair, the structure table of these variables, and the energy of the
    expression for all 0/1 values and placeholders. *)
Record compiled_from (e : expr) (pq : pqmodel) : Prop := {
  cf_struct : structured pq;
  cf_labels : forall a b c l, In ((a, b), c) (pq_terms pq) -> l = a \/ l = b ->
    exists n idx, In (n, idx) (bits_of e) /\ l = (n +++ brackets idx) /\ dget l (pq_struct pq) = Some (n, idx);
  cf_pairs : ForallOrdPairs (fun t u => ~ same_pair (fst t) (fst u)) (pq_terms pq);
  cf_resolves : forall fd, all_given fd e -> resolves fd (pq_offset pq) /\ forall k c, In (k, c) (pq_terms pq) -> resolves fd c;
  cf_energy : forall fd x, all_given fd e -> binary x -> qubo_energy fd x pq = eval fd x e }.
(** What is assumed of Express.compile(): expressions of degree two, over arrays
    whose names have no bracket, are compiled without additional variables. *)
Definition pyqubo_compiler (f : compiler) : Prop :=
  forall e, degree e <= 2 -> (forall n idx, In (n, idx) (bits_of e) -> has_char "["%char n = false) ->
  compiled_from e (f e).

(** ** Tours *)

(** The length of the closed tour through a list of places. *)
Fixpoint legs {A} (d : A -> A -> Qc) (here : A) (rest : list A) (home : A) : Qc :=
  match rest with
  | [] => d here home
  | next :: r => (d here next + legs d next r home)%Qc
  end.
Definition tour_length {A} (d : A -> A -> Qc) (tour : list A) : Qc :=
  match tour with [] => 0%Qc | a :: r => legs d a r a end.

(** The city of an element, and the distance of two cities in km. *)
Definition located (e : city_el) (lat lon : Qc) : Prop :=
  exists name more more', el_val e = (name, lon :: lat :: more) :: more'.
Definition km_between (geo : geodesic) (a b : city_el) (d : Qc) : Prop :=
  exists la oa lb ob, located a la oa /\ located b lb ob /\ geo (la, oa) (lb, ob) = Ok d.
(** [d] gives the distances of the cities of a window. *)
Definition distances (geo : geodesic) (d : city_el -> city_el -> Qc) (els : list city_el) : Prop :=
  forall a b, In a els -> In b els -> km_between geo a b (d a b) /\ (0 <= d a b)%Qc /\ d a a = 0%Qc.

(** The names of a list of cities. *)
Definition named (tour : list city_el) (answer : list string) : Prop :=
  Forall2 (fun e name => exists v more, el_val e = (name, v) :: more) tour answer.
(** The answer names the cities in the order of a shortest tour. *)
Definition shortest_tour (d : city_el -> city_el -> Qc) (els : list city_el) (answer : list string) : Prop :=
  exists tour, Permutation tour els /\
    named tour answer /\
    forall t, Permutation t els -> (tour_length d tour <= tour_length d t)%Qc.

(** ** The Hamiltonian *)

(** The variable "city number j of the window is the k-th to be visited". *)
Definition at_ (x : assignment) (k j : nat) : Qc := x ("city" +++ brackets [k; j]).
Definition sum_ (n : nat) (f : nat -> Qc) : Qc := qsum (map f (seq 0 n)).
Definition sq (q : Qc) : Qc := (q * q)%Qc.
(** Distances (in 100 km) between cities visited one after the other, [T] times
    the time slots without exactly one city, [C] times the cities without
    exactly one time slot. [D i j] is the distance of cities i and j in km. *)
Definition tsp_energy (D : nat -> nat -> Qc) (n : nat) (T C : Qc) (x : assignment) : Qc :=
  (sum_ n (fun k => sum_ n (fun i => sum_ n (fun j => D i j / qz 100 * (at_ x k i * at_ x ((k + 1) mod n) j))))
   + T * sum_ n (fun k => sq (sum_ n (fun j => at_ x k j) - 1))
   + C * sum_ n (fun j => sq (sum_ n (fun k => at_ x k j) - 1)))%Qc.
(** The assignment that visits city p_k at time k. *)
Definition visits (x : assignment) (p : list nat) : Prop :=
  forall k j i, nth_error p k = Some i -> j < length p -> at_ x k j = if Nat.eqb j i then 1%Qc else 0%Qc.
(** The cities in that order. *)
Definition in_that_order (els : list city_el) (p : list nat) (tour : list city_el) : Prop :=
  Forall2 (fun i e => nth_error els i = Some e) p tour.
(** The distance of the cities number i and j of a window. *)
Definition dist_at (d : city_el -> city_el -> Qc) (els : list city_el) (i j : nat) : Qc :=
  match nth_error els i, nth_error els j with Some a, Some b => d a b | _, _ => 0%Qc end.

(** What a window whose elements are [els] puts out: the solver received a
    physical model with the energy of these cities, and its answer is decoded. *)
Definition tsp_answers (u : tsp_surroundings) (d : city_el -> city_el -> Qc) (els : list city_el)
    (out : list (output (list string))) : Prop :=
  exists p els',
    Permutation els' els /\ p_mtype p = Qubo /\
    (forall x, binary x -> energy_physical x p =
       tsp_energy (dist_at d els') (length els') (qz 35 / qz 2) (qz 15) x) /\
    (forall l, ~ In (l, l) (dkeys (p_quad p))) /\
    out = [match ts_solver u p with
           | Err e => SolveFailed e
           | Ok ss => match tsp_unmapping ss els' with Ok r => Solved r | Err e => UnmapFailed e end
           end].
