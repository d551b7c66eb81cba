(** * SolverSpec: what simulated annealing is, independently of the solver's arrays. *)
From Verif Require Import PyBase Constraint LogicalModel Spec Physical Solver.
From Coq Require Import Permutation.
Open Scope string_scope.
Open Scope list_scope.

(** The labels [ls] of a physical model in index order: both index maps agree,
    and exactly the labels with a coefficient are indexed. *)
Definition well_indexed (p : physical) (ls : list string) : Prop :=
  NoDup ls /\ (forall l i, dget l (p_l2i p) = Some i <-> nth_error ls i = Some l) /\
  dvals (p_i2l p) = ls /\ (forall l, In l ls <-> occurs p l).

(** What a sample assigns to the labels. *)
Definition value_of (s : dict string Z) : assignment :=
  fun l => match dget l s with Some z => qz z | None => 0%Qc end.
(** The values a variable of the model may take. *)
Definition legal (t : mtype) (z : Z) : Prop :=
  match t with Ising => z = 1%Z \/ z = (-1)%Z | Qubo => z = 0%Z \/ z = 1%Z end.
(** Changing one variable to its other value. *)
Definition toggled (t : mtype) (v : Qc) : Qc := match t with Ising => (- v)%Qc | Qubo => (1 - v)%Qc end.

(** Energy of a spin assignment, in the terms of the physical model. *)
Definition spin_energy (p : physical) (s : assignment) : Qc :=
  match p_mtype p with Ising => energy_physical s p | Qubo => energy_physical (to_binary s) p end.
(** Energy of spins listed in index order. *)
Definition spins (p : physical) (x : list Z) : assignment :=
  fun l => match dget l (p_l2i p) with
           | Some i => match nth_error x i with Some z => qz z | None => 0%Qc end
           | None => 0%Qc end.
Definition vector_energy (p : physical) (x : list Z) : Qc := spin_energy p (spins p x).

(** ** Metropolis visits
    [visits E boltz temp rs x u a picks x' u' a']: starting from the spins [x], with [u] random numbers
    consumed and [a] flips accepted, visiting the spins [picks] leads to [x'], [u'], [a']. *)
Definition flipped (i : nat) (x : list Z) : list Z := upd_nth i Z.opp x.
Section Metropolis.
Variables (E : list Z -> Qc) (boltz : Qc -> Qc -> res Qc) (temp : Qc) (rs : list Qc).
Inductive visits : list Z -> nat -> nat -> list nat -> list Z -> nat -> nat -> Prop :=
| v_done x u a : visits x u a [] x u a
| v_down x u a i r x' u' a' :
    (E (flipped i x) <= E x)%Qc -> visits (flipped i x) u (S a) r x' u' a' -> visits x u a (i :: r) x' u' a'
| v_up x u a i r x' u' a' pr v :
    (E x < E (flipped i x))%Qc -> boltz (E (flipped i x) - E x)%Qc temp = Ok pr -> nth_error rs u = Some v -> (v < pr)%Qc ->
    visits (flipped i x) (S u) (S a) r x' u' a' -> visits x u a (i :: r) x' u' a'
| v_stay x u a i r x' u' a' pr v :
    (E x < E (flipped i x))%Qc -> boltz (E (flipped i x) - E x)%Qc temp = Ok pr -> nth_error rs u = Some v -> (pr <= v)%Qc ->
    visits x (S u) a r x' u' a' -> visits x u a (i :: r) x' u' a'.
End Metropolis.

(** ** Annealing
    [annealed E boltz rs x u plan es acc x' u']: one sweep per element of [plan] (temperature and picked spins);
    [es] lists the energies before each sweep, [acc] the numbers of accepted flips. *)
Inductive annealed (E : list Z -> Qc) (boltz : Qc -> Qc -> res Qc) (rs : list Qc) :
  list Z -> nat -> list (Qc * list nat) -> list Qc -> list nat -> list Z -> nat -> Prop :=
| a_done x u : annealed E boltz rs x u [] [] [] x u
| a_sweep x u t picks plan x1 u1 a es acc x' u' :
    visits E boltz t rs x u 0 picks x1 u1 a -> annealed E boltz rs x1 u1 plan es acc x' u' ->
    annealed E boltz rs x u ((t, picks) :: plan) (E x :: es) (a :: acc) x' u'.

(** ** The temperature of each sweep *)
Definition reverse_ok (r : revarg) : Prop :=
  match r with
  | RNone => True
  | RDict d => (exists v, dget "reverse_period" d = Some v) /\ (exists v, dget "reverse_temperature" d = Some v)
  | ROther _ => False
  end.
(** [rt]: reverse_temperature, [per]: reverse_period. *)
Fixpoint reverse_temp (rt per rate : Qc) (k : nat) : Qc :=
  match k with
  | 0 => qfrac 1 1000000000
  | S k' => if Qcle_bool per (qz (Z.of_nat k')) then (reverse_temp rt per rate k' * rate)%Qc else (rt * (1 - rate ^ k))%Qc
  end.
Definition temp_at (o : options) (k : nat) : Qc :=
  match o_reverse o with
  | RDict d => match dget "reverse_temperature" d, dget "reverse_period" d with
               | Some rt, Some per => reverse_temp rt per (o_rate o) k
               | _, _ => 0%Qc end
  | _ => (o_temp o * o_rate o ^ k)%Qc
  end.

(** ** What numpy promises *)
Record rng_ok (g : generator) : Prop := mkRngOk {
  rng_bits : forall n tr, length (g_bits g (RIntegers n :: tr)) = n;
  rng_floats : forall n tr, length (g_floats g (RRandom n :: tr)) = n /\
                            Forall (fun v => (0 <= v)%Qc /\ (v < 1)%Qc) (g_floats g (RRandom n :: tr));
  rng_perm : forall n tr, Permutation (g_perm g (RPermutation n :: tr)) (seq 0 n) }.
Definition world_ok (w : world) : Prop := rng_ok (w_fresh w) /\ (forall z, rng_ok (w_seeded w z)).
(** [math.exp(-d / t)] does not raise for a positive temperature. *)
Definition boltz_ok (w : world) : Prop := forall d t, (0 < d)%Qc -> (0 < t)%Qc -> exists pr, w_boltz w d t = Ok pr.
