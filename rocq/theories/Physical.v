(** * Physical: the conversions of sawatabi/model/physical_model.py, the BQMs
    of dimod it produces, and the type names of sawatabi/base_mixin.py. *)
From Verif Require Import PyBase Constraint LogicalModel.
Open Scope string_scope.
Open Scope list_scope.

(** ** dimod.BinaryQuadraticModel (external)

    Linear biases in insertion order, one bias per unordered pair, an offset
    and a variable type ([b_spin]: SPIN, else BINARY). *)
Record bqm := mkBqm {
  b_spin : bool;
  b_linear : dict string Qc;
  b_quad : dict (string * string) Qc;
  b_offset : Qc }.

(** add_variable: a bias for a known variable is added to its bias. *)
Definition bqm_add_variable (v : string) (c : Qc) (b : bqm) : bqm :=
  mkBqm (b_spin b)
    (dset v (match dget v (b_linear b) with Some d => d + c | None => c end)%Qc (b_linear b))
    (b_quad b) (b_offset b).
(** The orientation under which an unordered pair is stored. *)
Definition pair_key (u v : string) (d : dict (string * string) Qc) : string * string :=
  if dmem (v, u) d then (v, u) else (u, v).
(** add_interaction: no self-loops; both variables become known; biases of the
    same pair add up whatever the order in which the pair is given. *)
Definition bqm_add_interaction (u v : string) (c : Qc) (b : bqm) : res bqm :=
  if String.eqb u v then Err ValueError
  else
    let b1 := bqm_add_variable v 0 (bqm_add_variable u 0 b) in
    let k := pair_key u v (b_quad b1) in
    Ok (mkBqm (b_spin b1) (b_linear b1)
          (dset k (match dget k (b_quad b1) with Some d => d + c | None => c end)%Qc (b_quad b1))
          (b_offset b1)).
Fixpoint bqm_interactions (q : dict (string * string) Qc) (b : bqm) : res bqm :=
  match q with
  | [] => Ok b
  | ((u, v), c) :: r =>
      match bqm_add_interaction u v c b with Ok b' => bqm_interactions r b' | Err e => Err e end
  end.
Definition bqm_new (lin : dict string Qc) (quad : dict (string * string) Qc) (off : Qc)
    (sp : bool) : res bqm :=
  bqm_interactions quad
    (fold_left (fun b kv => bqm_add_variable (fst kv) (snd kv) b) lin (mkBqm sp [] [] off)).

(** BQM.adj[v], num_variables and variables. *)
Definition bqm_adj (b : bqm) (l : string) : list (string * Qc) :=
  flat_map (fun kv => match kv with
    ((u, v), c) => if String.eqb u l then [(v, c)] else if String.eqb v l then [(u, c)] else []
    end) (b_quad b).
Definition bqm_variables (b : bqm) : list string := dkeys (b_linear b).

(** change_vartype(SPIN): substitutes x = (s + 1) / 2. *)
Definition half : Qc := qfrac 1 2.
Definition quarter : Qc := qfrac 1 4.
Definition bqm_to_spin (b : bqm) : bqm :=
  if b_spin b then b
  else mkBqm true
    (map (fun kv => (fst kv, half * snd kv + quarter * qsum (map snd (bqm_adj b (fst kv)))))%Qc
       (b_linear b))
    (map (fun kv => (fst kv, quarter * snd kv))%Qc (b_quad b))
    (b_offset b + half * qsum (map snd (b_linear b)) + quarter * qsum (map snd (b_quad b)))%Qc.

(** ** physical_model.py *)

(** Lines 39-40: [body] is the INTERACTION_LINEAR or INTERACTION_QUADRATIC
    dictionary; [name] its key. *)
Definition phys_add_linear (k : string) (c : Qc) (p : physical) : physical :=
  mkPhysical (p_mtype p) (dset k c (p_linear p)) (p_quad p) (p_offset p) (p_varset p)
    (p_l2i p) (p_i2l p).
Definition phys_add_quad (k : string * string) (c : Qc) (p : physical) : physical :=
  mkPhysical (p_mtype p) (p_linear p) (dset k c (p_quad p)) (p_offset p) (p_varset p)
    (p_l2i p) (p_i2l p).

(** Lines 56-72. *)
Definition to_bqm (sign : Qc) (p : physical) : res bqm :=
  bqm_new (map (fun kv => (fst kv, sign * snd kv)%Qc) (p_linear p))
    (map (fun kv => (fst kv, sign * snd kv)%Qc) (p_quad p))
    (p_offset p)
    (match p_mtype p with Ising => true | Qubo => false end).

(** Lines 74-89. One entry [index0, index1, coefficient] of the polynomial. *)
Definition term := (nat * nat * Qc)%type.
Definition l2i (p : physical) (l : string) : res nat :=
  match dget l (p_l2i p) with Some i => Ok i | None => Err KeyError end.
Fixpoint poly_linear (p : physical) (d : dict string Qc) : res (list term) :=
  match d with
  | [] => Ok []
  | (k, v) :: r =>
      rbind (l2i p k) (fun i => rbind (poly_linear p r) (fun t => Ok ((i, i, - (1) * v)%Qc :: t)))
  end.
Fixpoint poly_quad (p : physical) (d : dict (string * string) Qc) : res (list term) :=
  match d with
  | [] => Ok []
  | ((k0, k1), v) :: r =>
      rbind (l2i p k0) (fun i => rbind (l2i p k1) (fun j =>
        rbind (poly_quad p r) (fun t => Ok ((i, j, - (1) * v)%Qc :: t))))
  end.
Definition to_polynomial (p : physical) : res (list term) :=
  rbind (poly_linear p (p_linear p)) (fun a =>
    rbind (poly_quad p (p_quad p)) (fun b => Ok (a ++ b))).

(** Lines 95-103, == of two dictionaries: same keys, same values. *)
Definition dict_eqb {K V} `{Eqb K} `{Eqb V} (a b : dict K V) : bool :=
  Nat.eqb (length a) (length b) &&
  forallb (fun kv => match dget (fst kv) b with Some w => eqb (snd kv) w | None => false end) a.
Definition physical_eqb (p q : physical) : bool :=
  mtype_eqb (p_mtype p) (p_mtype q) && dict_eqb (p_linear p) (p_linear q)
  && dict_eqb (p_quad p) (p_quad q) && Qc_eqb (p_offset p) (p_offset q)
  && dict_eqb (p_l2i p) (p_l2i q) && dict_eqb (p_i2l p) (p_i2l q).

(** ** base_mixin.py *)

(** Lines 73-80, 83-90; constants.py 16-17. *)
Definition modeltype_to_vartype (s : string) : res string :=
  if String.eqb s "ising" then Ok "SPIN"
  else if String.eqb s "qubo" then Ok "BINARY" else Err ValueError.
Definition vartype_to_modeltype (s : string) : res string :=
  if String.eqb s "SPIN" then Ok "ising"
  else if String.eqb s "BINARY" then Ok "qubo" else Err ValueError.
