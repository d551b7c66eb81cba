(** * PropsDetermined: C105, the energies determine the physical model. *)
From Coq Require Import Permutation.
From Verif Require Import PyBase PyLemmas Numbers Constraint LogicalModel Spec PhysicalProofs ToPhysicalProofs Samples Physical BqmProofs History PropsHistory
  PropsPhysical PropsBqm PropsAlike Solver SolverSpec PropsSolver Services PropsSolvers PropsPenalty ReachProofs PropsReach PropsTsp.
Local Open Scope string_scope.
Local Open Scope list_scope.

(** ** Specification *)

(** An assignment of legal values for a model of type [t]. *)
Notation lawful := PropsSolvers.legal_assignment.
(** Two assignments that give all variables but [l] the same value. *)
Definition differ_in (l : string) (a b : assignment) : Prop := forall k, k <> l -> a k = b k.
(** The energy depends on the value of [l]. *)
Definition depends_on (p : physical) (l : string) : Prop :=
  exists a b, lawful (p_mtype p) a /\ lawful (p_mtype p) b /\ differ_in l a b /\ energy_physical a p <> energy_physical b p.
(** The same coefficients. *)
Definition same_coefficients (p q : physical) : Prop :=
  (forall l, dget l (p_linear p) = dget l (p_linear q)) /\ (forall a b, dget (a, b) (p_quad p) = dget (a, b) (p_quad q)).

(** ** Proofs *)
Lemma lawful_reach t a : PropsReach.legal_assignment t a <-> lawful t a.
Proof.
  split; intros H.
  - destruct t; intros l; destruct (H l) as (z & -> & [->| ->]); ((left; apply Qc_is_canon; reflexivity) || (right; apply Qc_is_canon; reflexivity)).
  - intros l. destruct (legal_values t a l H) as (z & H1 & H2). eauto.
Qed.
Lemma pt_lawful t S : lawful t (match t with Ising => pt 1 (- (1))%Qc S | Qubo => pt 0 1 S end).
Proof. destruct t; intros l; unfold pt; destruct (mem l S); auto. Qed.
Definition shift_offset (k : Qc) (p : physical) : physical :=
  mkPhysical (p_mtype p) (p_linear p) (p_quad p) (p_offset p + k)%Qc (p_varset p) (p_l2i p) (p_i2l p).
Lemma shift_energy k p s : energy_physical s (shift_offset k p) = (energy_physical s p + k)%Qc.
Proof. unfold energy_physical, shift_offset. cbn. ring. Qed.

(** A variable occurs in the physical model exactly when the energy depends on it. *)
Theorem C105_variables : forall ev evs fd m m' p l,
  reachable m -> m_len m = length (m_rows m) -> to_physical ev evs fd m = (m', Ok p) -> (occurs p l <-> depends_on p l).
Proof.
  intros ev evs fd m m' p l HR HL E. split.
  - intros OC. destruct (C98_variables_matter _ _ _ _ _ _ _ HR HL E OC) as (s & LS & NE).
    exists (changed (p_mtype p) s l), s. split; [apply lawful_reach, changed_legal, LS|]. split; [apply lawful_reach, LS|]. split; auto.
    intros k NK. unfold changed, assign. destruct (String.eqb_spec k l); congruence.
  - intros (a & b & _ & _ & D & NE). destruct (occurs_dec p l) as [OC|NO]; auto. exfalso. apply NE. apply energy_physical_ext.
    intros k OC. apply D. intros ->. contradiction.
Qed.

Lemma determined u w p q k : u <> w ->
  NoDup (dkeys (p_linear p)) -> NoDup (dkeys (p_linear q)) -> NoDup (dkeys (p_quad p)) -> NoDup (dkeys (p_quad q)) ->
  no_zeros (p_linear p) -> no_zeros (p_linear q) -> no_zeros (p_quad p) -> no_zeros (p_quad q) -> ordered_pairs p -> ordered_pairs q ->
  (forall S, energy_physical (pt u w S) p = (energy_physical (pt u w S) q + k)%Qc) ->
  same_coefficients p q /\ p_offset p = (p_offset q + k)%Qc.
Proof.
  intros NE N1 N1' N2 N2' Z1 Z1' Z2 Z2' O O' HE.
  destruct (energies_determine u w p (shift_offset k q) NE) as (H1 & H2 & H3); auto; [intros S; rewrite shift_energy; apply HE|].
  split; [split|]; [apply H1 | intros a b; apply H2 | apply H3].
Qed.

(** If the energies of two physical models of the same type differ by a constant, for
    all legal assignments, the models have the same coefficients, and their offsets
    differ by that constant. *)
Theorem C105_coefficients : forall ev evs ev' evs' fd fd' m m' n n' p q k,
  reachable m -> m_len m = length (m_rows m) -> to_physical ev evs fd m = (n, Ok p) ->
  reachable m' -> m_len m' = length (m_rows m') -> to_physical ev' evs' fd' m' = (n', Ok q) -> m_mtype m = m_mtype m' ->
  (forall a, lawful (m_mtype m) a -> energy_physical a p = (energy_physical a q + k)%Qc) ->
  same_coefficients p q /\ p_offset p = (p_offset q + k)%Qc.
Proof.
  intros ev evs ev' evs' fd fd' m m' n n' p q k HR HL E HR' HL' E' ET HE.
  destruct (phys_facts _ _ _ _ _ _ HR HL E) as (T & N1 & N2 & Z1 & Z2 & O). destruct (phys_facts _ _ _ _ _ _ HR' HL' E') as (T' & N1' & N2' & Z1' & Z2' & O').
  pose proof (pt_lawful (m_mtype m)) as PL. destruct (m_mtype m).
  - apply (determined 1 (- (1))); auto. discriminate.
  - apply (determined 0 1); auto. discriminate.
Qed.

(** The same from what the user has written down: if the objectives (energy of the
    interactions plus penalties of the constraints) of two models differ by a constant,
    the physical models have the same coefficients, whatever calls built the models,
    whether a term comes from interactions or from a constraint. *)
Theorem C105_objective : forall ev evs ev' evs' fd fd' m m' n n' p q k,
  reachable m -> m_len m = length (m_rows m) -> Forall constr_ok (dvals (m_constrs m)) -> to_physical ev evs fd m = (n, Ok p) ->
  reachable m' -> m_len m' = length (m_rows m') -> Forall constr_ok (dvals (m_constrs m')) -> to_physical ev' evs' fd' m' = (n', Ok q) -> m_mtype m = m_mtype m' ->
  (forall a, lawful (m_mtype m) a -> objective fd m a = (objective fd' m' a + k)%Qc) ->
  same_coefficients p q.
Proof.
  intros ev evs ev' evs' fd fd' m m' n n' p q k HR HL HC E HR' HL' HC' E' ET HO.
  set (a0 := match m_mtype m with Ising => pt 1 (- (1))%Qc [] | Qubo => pt 0 1 [] end).
  assert (L0 : lawful (m_mtype m) a0) by (apply pt_lawful).
  apply (C105_coefficients _ _ _ _ _ _ _ _ _ _ _ _ (energy_physical a0 p - energy_physical a0 q)%Qc HR HL E HR' HL' E' ET).
  intros a LA. pose proof (physical_objective _ _ _ _ _ _ a a0 HL HC E LA L0) as H1.
  assert (LA' : lawful (m_mtype m') a) by (rewrite <- ET; exact LA). assert (L0' : lawful (m_mtype m') a0) by (rewrite <- ET; exact L0).
  pose proof (physical_objective _ _ _ _ _ _ a a0 HL' HC' E' LA' L0') as H2.
  pose proof (HO a LA) as O1. pose proof (HO a0 L0) as O2. unfold objective in O1, O2. fold (as_binary (m_mtype m) a) (as_binary (m_mtype m) a0) in O1, O2.
  fold (as_binary (m_mtype m') a) (as_binary (m_mtype m') a0) in O1, O2. rewrite O1, O2 in H1.
  match type of H1 with (?x - ?y = ?r + k - (?r' + k))%Qc => replace (r + k - (r' + k))%Qc with (r - r')%Qc in H1 by ring end. rewrite <- H2 in H1. clear - H1.
  replace (energy_physical a p) with (energy_physical a p - energy_physical a0 p + energy_physical a0 p)%Qc by ring. rewrite H1. ring.
Qed.

(** ** Examples *)
(** One of two variables, once with interactions and once with a constraint. *)
Definition by_terms : lmodel := run_ops
  [OVariables (VName "q") (ShTuple [ShInt 2]); OAdd (TTuple [EVar (bin "q" 0); EVar (bin "q" 1)]) (NStr "") (num (-2)) (num 1) AtNone TsNone;
   OAdd (TVar (bin "q" 0)) (NStr "") (num 1) (num 1) AtNone TsNone; OAdd (TVar (bin "q" 1)) (NStr "") (num 1) (num 1) AtNone TsNone] (new_model Qubo).
Definition by_constraint : lmodel := run_ops
  [OVariables (VName "q") (ShTuple [ShInt 2]); OAddConstraint (Some (NHot [bin "q" 0; bin "q" 1] 1 "one" 1%Qc))] (new_model Qubo).
Example C105_hyps : reachable by_terms /\ reachable by_constraint /\ m_len by_terms = length (m_rows by_terms) /\ m_len by_constraint = length (m_rows by_constraint) /\
  (exists n p, to_physical env0 evs0 [] by_terms = (n, Ok p) /\ occurs p "q[1]") /\ (exists n p, to_physical env0 evs0 [] by_constraint = (n, Ok p)) /\
  Forall constr_ok (dvals (m_constrs by_constraint)) /\ m_mtype by_terms = m_mtype by_constraint /\
  (forall a, lawful (m_mtype by_terms) a -> objective [] by_terms a = (objective [] by_constraint a + 0)%Qc).
Proof.
  split; [apply history_reachable, run_history; constructor|]. split; [apply history_reachable, run_history; constructor|]. split; [reflexivity|]. split; [reflexivity|].
  split; [do 2 eexists; split; [vm_compute; reflexivity | left; right; left; reflexivity]|]. split; [do 2 eexists; vm_compute; reflexivity|].
  split; [repeat constructor; cbn; intuition discriminate|]. split; [reflexivity|].
  intros a LA. assert (E1 : objective [] by_terms a = (0 - ((- qz 2) * (a "q[0]" * a "q[1]") + (a "q[0]" + (a "q[1]" + 0))))%Qc).
  { assert (ER : map (fun r => (r_removed r, r_key r, value [] (r_coef r), value [] (r_scale r))) (m_rows by_terms) =
      [(false, K2 "q[0]" "q[1]", qz (-2), qz 1); (false, K1 "q[0]", qz 1, qz 1); (false, K1 "q[1]", qz 1, qz 1)]) by (vm_compute; reflexivity).
    unfold objective, energy. assert (EC : forall l, map (contribution [] a) l = map (fun x : bool * ikey * Qc * Qc => let '(d, k, c, s) := x in if d then 0%Qc else (c * s * monomial a k)%Qc)
      (map (fun r => (r_removed r, r_key r, value [] (r_coef r), value [] (r_scale r))) l)) by (intros l; rewrite map_map; reflexivity).
    rewrite EC, ER. change (penalties (match m_mtype by_terms with Ising => to_binary a | Qubo => a end) (dvals (m_constrs by_terms))) with 0%Qc. change (value [] (m_offset by_terms)) with 0%Qc.
    cbn [map qsum monomial]. replace (qz (-2)) with (- qz 2)%Qc by (apply Qc_is_canon; reflexivity). rewrite qz_1. ring. }
  assert (E2 : objective [] by_constraint a = (0 + (1 * ((a "q[0]" + (a "q[1]" + 0) - 1) * (a "q[0]" + (a "q[1]" + 0) - 1) - 1)))%Qc).
  { unfold objective, energy. change (m_rows by_constraint) with (@nil row). change (value [] (m_offset by_constraint)) with 0%Qc. change (dvals (m_constrs by_constraint)) with [NHot [bin "q" 0; bin "q" 1] 1 "one" 1%Qc].
    change (m_mtype by_constraint) with Qubo. unfold penalties. unfold penalty, hot; cbn [map qsum]. change (v_label (bin "q" 0)) with "q[0]". change (v_label (bin "q" 1)) with "q[1]". rewrite qz_1. ring. }
  rewrite E1, E2. replace (qz 2) with (1 + 1)%Qc by (apply Qc_is_canon; reflexivity). change (m_mtype by_terms) with Qubo in LA. destruct (LA "q[0]") as [->| ->], (LA "q[1]") as [->| ->]; ring.
Qed.
Print Assumptions C105_variables.
Print Assumptions C105_coefficients.
Print Assumptions C105_objective.
