(** * Spec: what the properties talk about, stated without the model's helpers.

    Energies, assignments, well-formedness of a logical model as a user would
    describe them. *)
From Verif Require Import PyBase Constraint LogicalModel.
Open Scope list_scope.

(** An assignment gives every variable label a number. *)
Definition assignment := string -> Qc.
(** 0/1 and -1/+1 assignments. *)
Definition binary (x : assignment) : Prop := forall l, x l = 0%Qc \/ x l = 1%Qc.
Definition spin (s : assignment) : Prop := forall l, s l = (- (1))%Qc \/ s l = 1%Qc.
(** The 0/1 assignment that corresponds to a -1/+1 assignment: x = (s+1)/2. *)
Definition to_binary (s : assignment) : assignment := fun l => ((s l + 1) / qz 2)%Qc.
Definition to_spin (x : assignment) : assignment := fun l => (qz 2 * x l - 1)%Qc.
(** s with label l set to v. *)
Definition assign (s : assignment) (l : string) (v : Qc) : assignment :=
  fun k => if String.eqb k l then v else s k.

(** The product of the variables of an interaction. *)
Definition monomial (s : assignment) (k : ikey) : Qc :=
  match k with K1 a => s a | K2 a b => (s a * s b)%Qc end.

(** The value of a coefficient once placeholders are substituted (0 when a
    placeholder is missing; theorems that use it assume or establish that none
    is, see [resolved]). *)
Definition value (fd : feed) (c : coef) : Qc :=
  match ceval fd c with Some q => q | None => 0%Qc end.
Definition resolves (fd : feed) (c : coef) : Prop := ceval fd c <> None.

Definition active (r : row) : Prop := r_removed r = false.

(** coefficient * scale * product of variables, nothing if removed. *)
Definition contribution (fd : feed) (s : assignment) (r : row) : Qc :=
  if r_removed r then 0%Qc
  else (value fd (r_coef r) * value fd (r_scale r) * monomial s (r_key r))%Qc.

(** Sawatabi's Hamiltonian (physical_model.py 57-59):
    H = - sum J x y - sum h x + offset, over the active interactions. *)
Definition energy (fd : feed) (s : assignment) (m : lmodel) : Qc :=
  (- qsum (map (contribution fd s) (m_rows m)) + value fd (m_offset m))%Qc.

(** The Hamiltonian of a physical model. *)
Definition energy_physical (s : assignment) (p : physical) : Qc :=
  (- qsum (map (fun kv => snd kv * s (fst kv)) (p_linear p))
   - qsum (map (fun kv => snd kv * (s (fst (fst kv)) * s (snd (fst kv)))) (p_quad p))
   + p_offset p)%Qc.

(** Every placeholder needed by the active interactions and the offset is given. *)
Definition resolved (fd : feed) (m : lmodel) : Prop :=
  (forall r, In r (m_rows m) -> active r -> resolves fd (r_coef r) /\ resolves fd (r_scale r))
  /\ resolves fd (m_offset m).

(** Number of hot variables of a set (as a rational), under an assignment. *)
Definition hot (x : assignment) (vs : list var) : Qc := qsum (map (fun v => x (v_label v)) vs).

(** What each constraint is meant to contribute on 0/1 assignments. *)
Definition penalty (x : assignment) (c : constr) : Qc :=
  match c with
  | NHot vs n _ st =>
      (st * ((hot x vs - qz n) * (hot x vs - qz n) - qz n * qz n))%Qc
  | ZeroOrOne vs _ st => (st * (hot x vs * (hot x vs - 1)))%Qc
  | Equality v1 v2 _ st =>
      (st * ((hot x v1 - hot x v2) * (hot x v1 - hot x v2)))%Qc
  end.
Definition penalties (x : assignment) (cs : list constr) : Qc :=
  qsum (map (penalty x) cs).
(** The constant by which the conversion of a constraint's own model to the Ising
    type raises its energy (to_ising adds coefficient/2 and coefficient/4 to the
    offset where it should subtract them, see C20): it depends on the number of
    variables and the strength only. *)
Definition count (vs : list var) : Qc := qz (Z.of_nat (length vs)).
Definition ising_shift (c : constr) : Qc :=
  match c with
  | NHot vs n _ st => (st * count vs * (qz 4 * qz n - 1 - count vs) / qz 2)%Qc
  | ZeroOrOne vs _ st => (- (st * count vs * (count vs - 1) / qz 2))%Qc
  | Equality v1 v2 _ st =>
      (- (st * ((count v1 - count v2) * (count v1 - count v2) + (count v1 + count v2)) / qz 2))%Qc
  end.

(** The kind of the variables of an Ising or a QUBO model. *)
Definition kind_of (t : mtype) : vtype := match t with Ising => Spin | Qubo => Binary end.

(** Attribute [k] of the interaction at position [i]; unset attributes are NaN. *)
Definition attr_val (m : lmodel) (i : nat) (k : string) : aval :=
  match dget k (m_cols m) with Some c => nth i c ANan | None => ANan end.

(** The name column has no repetitions; each interaction's key is that of its
    variables and pairs are over two different labels in label order. *)
Definition key_ok (r : row) : Prop :=
  r_key r = inter_key (r_inter r) /\
  match r_key r with K1 _ => True | K2 a b => String.ltb a b = true end.
Definition names_unique (m : lmodel) : Prop := NoDup (names m).
Definition well_formed (m : lmodel) : Prop :=
  names_unique m /\ Forall key_ok (m_rows m).

(** All attribute columns are registered and have one entry per interaction. *)
Definition aligned (m : lmodel) : Prop :=
  m_len m = length (m_rows m) /\
  dkeys (m_cols m) = m_attrs m /\ NoDup (m_attrs m) /\
  Forall (fun kc => length (snd kc) = m_len m) (m_cols m).

(** Attribute [a] of the interaction named [n] (NaN when unset). *)
Definition attr_of (m : lmodel) (n a : string) : aval :=
  match index_of n (names m) with Some i => attr_val m i a | None => ANan end.

(** Every active interaction has scale 1. *)
Definition unit_scales (m : lmodel) : Prop :=
  forall r, In r (m_rows m) -> active r -> r_scale r = CNum 1%Qc.

(** The interaction mentions label [l]. *)
Definition touches (l : string) (r : row) : bool := key_touches l (r_key r).

(** ** Variables *)

(** A proper declaration: '*'-free name, non-empty positive shape. *)
Definition regular (n : string) (a : array) : Prop :=
  has_char "*"%char n = false /\ a_shape a <> [] /\ Forall (fun z => (0 < z)%Z) (a_shape a).
(** Variables declared in both dictionaries have as many dimensions in each. *)
Definition same_dims (vs : dict string array) (l : dict string array) : Prop :=
  forall n a b, dget n vs = Some a -> In (n, b) l -> length (a_shape a) = length (a_shape b).
(** Every variable is an array created under its own, '['-free, name. *)
Definition declared_by_name (vs : dict string array) : Prop :=
  NoDup (dkeys vs) /\
  forall n a, In (n, a) vs -> has_char "["%char n = false /\ exists sh vt, array_create n sh vt = Ok a.

(** ** Constraints *)

(** Variable sets are sets; a zero-or-one-hot set has no two variables of the
    same label. *)
Definition constr_ok (c : constr) : Prop :=
  match c with
  | NHot vs _ _ _ => NoDup vs
  | ZeroOrOne vs _ _ => NoDup vs /\ NoDup (map v_label vs)
  | Equality v1 v2 _ _ => NoDup v1 /\ NoDup v2
  end.
Definition starfree (vs : list var) : Prop := Forall (fun v => has_char "*"%char (v_label v) = false) vs.
Definition all_labels_of (c : constr) : list string :=
  match c with
  | NHot vs _ _ _ | ZeroOrOne vs _ _ => map v_label vs
  | Equality v1 v2 _ _ => map v_label (v1 ++ v2)
  end.
(** A constraint's own model, in the model type of the model it belongs to. *)
Definition cmodel (ev : env) (t : mtype) (c : constr) : res lmodel :=
  match to_model ev c with
  | (_, Err e) => Err e
  | (cm, Ok _) => if mtype_eqb t Qubo then Ok cm
                  else match to_ising ev cm with (_, Err e) => Err e | (cm', Ok _) => Ok cm' end
  end.
Fixpoint cmodels (evs : nat -> env) (k : nat) (t : mtype) (cs : list constr) : res (list lmodel) :=
  match cs with
  | [] => Ok []
  | c :: r => match cmodel (evs k) t c with
              | Err e => Err e
              | Ok cm => match cmodels evs (S k) t r with Err e => Err e | Ok l => Ok (cm :: l) end
              end
  end.

(** ** Physical models *)

(** coefficient * scale *)
Definition coefv fd (r : row) : Qc := (value fd (r_coef r) * value fd (r_scale r))%Qc.
(** Sum of coefficient * scale over the active interactions with a given key. *)
Definition lin_total fd (l : list row) (a : string) : Qc :=
  qsum (map (fun r => if r_removed r then 0%Qc else
                      match r_key r with K1 b => if String.eqb a b then coefv fd r else 0%Qc | K2 _ _ => 0%Qc end) l).
Definition quad_total fd (l : list row) (a b : string) : Qc :=
  qsum (map (fun r => if r_removed r then 0%Qc else
                      match r_key r with K1 _ => 0%Qc | K2 c d => if String.eqb a c && String.eqb b d then coefv fd r else 0%Qc end) l).
(** A label occurs in a (non-zero) interaction of the physical model. *)
Definition occurs (p : physical) (l : string) : Prop :=
  In l (dkeys (p_linear p)) \/ exists a b, In (a, b) (dkeys (p_quad p)) /\ (l = a \/ l = b).
Definition indexed (p : physical) (l : string) : Prop := exists i, dget l (p_l2i p) = Some i.

(** ** Naming interactions *)

(** The interaction a target denotes, and its default name: a variable, or a
    pair of variables in label order. *)
Inductive denotes : target -> inter -> string -> Prop :=
| denotes_var v : denotes (TVar v) (I1 v) (v_label v)
| denotes_pair x y : String.ltb (v_label x) (v_label y) = true ->
    denotes (TTuple [EVar x; EVar y]) (I2 x y) (v_label x +++ "*" +++ v_label y)
| denotes_swap x y : String.ltb (v_label y) (v_label x) = true ->
    denotes (TTuple [EVar x; EVar y]) (I2 y x) (v_label y +++ "*" +++ v_label x).
(** The name under which add_interaction stores: the default name unless a
    non-empty string is passed. *)
Definition stored_name (n : narg) (dflt nm : string) : Prop :=
  (n_truthy n = false /\ nm = dflt) \/ (n = NStr nm /\ nm <> ""%string).
(** How update/remove/get refer to an existing interaction: by target or by name. *)
Definition refers (t : target) (n : narg) (nm : string) : Prop :=
  (n_truthy n = false /\ exists i, denotes t i nm) \/ (t = TNone /\ n = NStr nm /\ nm <> ""%string).
(** Python dictionaries have distinct keys. *)
Definition attrs_wf (a : attrarg) : Prop := forall d, a = AtDict d -> NoDup (dkeys d).
(** What an attribute argument says about attribute column [k]. *)
Definition given (a : attrarg) (k : string) : option aval :=
  match a with
  | AtDict d => match find (fun kv => String.eqb k ("attributes." +++ fst kv)) d with
                | Some kv => Some (snd kv) | None => None end
  | _ => None
  end.
(** The two models differ at most in their interactions, attributes and length. *)
Definition same_rest (m m' : lmodel) : Prop :=
  m_mtype m' = m_mtype m /\ m_vars m' = m_vars m /\ m_offset m' = m_offset m /\ m_deleted m' = m_deleted m /\
  m_fixed m' = m_fixed m /\ m_constrs m' = m_constrs m /\ m_prev m' = m_prev m.
