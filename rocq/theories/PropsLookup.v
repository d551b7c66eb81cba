(** * PropsLookup: C160 - the array a name stands for after any sequence of declarations. *)
From Verif Require Import PyBase PyLemmas Numbers Constraint LogicalModel LogicalProofs PropsDeclare NppStream.
Local Open Scope string_scope.
Local Open Scope list_scope.

(** ** Specification *)
(** A call variables(name, shape); it raises unless [declarable]. *)
Definition declared (m : lmodel) (c : string * list Z) : lmodel := fst (variables (VName (fst c)) (ShTuple (map ShInt (snd c))) m).
Definition declarable (n : string) (d : list Z) : Prop := has_char "*"%char n = false /\ d <> [] /\ Forall (fun z => (0 < z)%Z) d.
(** [d] is the shape in the last of the calls about [n] that did not raise. *)
Definition last_shape (n : string) (d : list Z) (calls : list (string * list Z)) : Prop :=
  exists before after, calls = before ++ (n, d) :: after /\ declarable n d /\ forall d', In (n, d') after -> ~ declarable n d'.

(** ** Proofs *)
Lemma declared_yes m n d : declarable n d -> declared m (n, d) = with_vars (dset n (mkArray d (map (fun idx => mkVar (n +++ brackets idx) (vt_of (m_mtype m))) (indices (map Z.to_nat d)))) (m_vars m)) m.
Proof.
  intros (HS & HN & HP). unfold declared. cbn [fst snd variables check_shape]. rewrite (proj2 (sh_ints_plain _ d) eq_refl).
  destruct d as [|z d]; [congruence|]. cbn [map]. unfold array_create. rewrite HS.
  replace (forallb (fun z0 => (0 <? z0)%Z) (z :: d)) with true; [reflexivity|].
  symmetry. apply forallb_forall. intros x HI. apply Z.ltb_lt. rewrite Forall_forall in HP. auto.
Qed.
Lemma declared_no m n d : ~ declarable n d -> declared m (n, d) = m.
Proof.
  intros HD. unfold declared. cbn [fst snd variables check_shape]. rewrite (proj2 (sh_ints_plain _ d) eq_refl).
  destruct d as [|z d]; [reflexivity|]. cbn [map]. destruct (array_create n (z :: d) (vt_of (m_mtype m))) as [a|] eqn:E; [|reflexivity].
  exfalso. apply HD. apply (create_iff n (z :: d) (vt_of (m_mtype m))). eauto.
Qed.
Lemma declarable_dec n d : {declarable n d} + {~ declarable n d}.
Proof.
  destruct (array_create n d Spin) as [a|] eqn:E.
  - left. apply (create_iff n d Spin). eauto.
  - right. intros H. apply (create_iff n d Spin) in H. destruct H as [a H]. congruence.
Qed.
Lemma declared_type calls : forall m, m_mtype (fold_left declared calls m) = m_mtype m.
Proof.
  induction calls as [|[n d] calls IH]; intros m; [reflexivity|]. cbn [fold_left]. rewrite IH.
  destruct (declarable_dec n d); [rewrite declared_yes|rewrite declared_no]; auto.
Qed.
Lemma kept n calls : forall m, (forall d, In (n, d) calls -> ~ declarable n d) -> dget n (m_vars (fold_left declared calls m)) = dget n (m_vars m).
Proof.
  induction calls as [|[k d] calls IH]; intros m H; [reflexivity|]. cbn [fold_left]. rewrite IH by (intros d' HI; apply H; right; exact HI).
  destruct (declarable_dec k d) as [Y|N]; [|rewrite declared_no; auto]. rewrite declared_yes by auto. cbn [with_vars m_vars].
  apply dget_dset_other. intros ->. apply (H d); [left; reflexivity|exact Y].
Qed.

(** ** Theorems *)
Theorem C160_lookup : forall t calls n d, last_shape n d calls ->
  exists a, get_variables_by_name n (fold_left declared calls (new_model t)) = (fold_left declared calls (new_model t), Ok a) /\
    a_shape a = d /\ map v_label (a_bits a) = map (fun idx => n +++ brackets idx) (indices (map Z.to_nat d)) /\
    Forall (fun v => v_type v = match t with Ising => Spin | Qubo => Binary end) (a_bits a).
Proof.
  intros t calls n d (before & after & -> & HD & HA). rewrite fold_left_app. cbn [fold_left].
  set (m := fold_left declared before (new_model t)). assert (HT : m_mtype m = t) by apply declared_type.
  unfold get_variables_by_name, bind, get, lift. rewrite kept by exact HA. rewrite declared_yes by exact HD. cbn [with_vars m_vars]. rewrite dget_dset_same.
  eexists. split; [reflexivity|]. cbn [a_shape a_bits]. split; auto. split; [rewrite map_map; reflexivity|].
  apply Forall_forall. intros v HI. apply in_map_iff in HI. destruct HI as (idx & <- & _). cbn [v_type]. rewrite HT. reflexivity.
Qed.
Theorem C160_unknown : forall t calls n, (forall d, In (n, d) calls -> ~ declarable n d) ->
  get_variables_by_name n (fold_left declared calls (new_model t)) = (fold_left declared calls (new_model t), Err KeyError).
Proof. intros t calls n H. unfold get_variables_by_name, bind, get, lift. rewrite kept by exact H. reflexivity. Qed.
(** One of the two theorems applies to every name. *)
Theorem C160_total : forall calls n, (exists d, last_shape n d calls) \/ (forall d, In (n, d) calls -> ~ declarable n d).
Proof.
  induction calls as [|[k d] calls IH]; intros n; [right; intros d []|]. destruct (IH n) as [(d' & b & a & -> & H)|H].
  - left. exists d', ((k, d) :: b), a. split; auto.
  - destruct (string_dec k n) as [->|NE]; [destruct (declarable_dec n d) as [Y|N]|].
    + left. exists d, [], calls. auto.
    + right. intros d' [E|HI]; [injection E as <-; exact N|auto].
    + right. intros d' [E|HI]; [injection E as E _; congruence|auto].
Qed.

(** Non-trivial case: x declared twice, then a refused declaration of x; y is refused. *)
Example C160_hyps :
  last_shape "x" [2; 3]%Z [("x", [4]%Z); ("z", [1]%Z); ("x", [2; 3]%Z); ("y", [0]%Z); ("x", [-1]%Z)] /\
  (forall d, In ("y", d) [("x", [4]%Z); ("z", [1]%Z); ("x", [2; 3]%Z); ("y", [0]%Z); ("x", [-1]%Z)] -> ~ declarable "y" d).
Proof.
  split.
  - exists [("x", [4]%Z); ("z", [1]%Z)], [("y", [0]%Z); ("x", [-1]%Z)]. split; [reflexivity|]. split.
    + split; [reflexivity|]. split; [discriminate|]. repeat constructor.
    + intros d' [E|[E|[]]]; [discriminate|]. injection E as <-. intros (_ & _ & H). inversion H. discriminate.
  - intros d [E|[E|[E|[E|[E|[]]]]]]; try discriminate. injection E as <-. intros (_ & _ & H). inversion H. discriminate.
Qed.

Print Assumptions C160_lookup.
Print Assumptions C160_unknown.
Print Assumptions C160_total.
Print Assumptions C160_hyps.
