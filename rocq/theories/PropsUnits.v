(** * PropsUnits: C116, C117 and C118, SawatabiSolver works on the problem and not on the way it is written
    down: the unit of the coefficients, a constant offset and the labels of the variables do not matter. *)
From Verif Require Import PyBase PyLemmas Numbers Constraint LogicalModel Spec Physical Solver SolverSpec PropsSolver.
Local Open Scope string_scope.
Local Open Scope list_scope.

(** ** Specification *)
(** The same problem with all coefficients and the offset multiplied by [k]. *)
Definition in_units (k : Qc) (p : physical) : physical :=
  mkPhysical (p_mtype p) (map (fun e => (fst e, k * snd e)%Qc) (p_linear p)) (map (fun e => (fst e, k * snd e)%Qc) (p_quad p))
    (k * p_offset p)%Qc (p_varset p) (p_l2i p) (p_i2l p).
(** The same problem with [d] added to the offset. *)
Definition shifted_by (d : Qc) (p : physical) : physical :=
  mkPhysical (p_mtype p) (p_linear p) (p_quad p) (p_offset p + d)%Qc (p_varset p) (p_l2i p) (p_i2l p).
(** The same problem with every variable [l] called [f l]. *)
Definition relabelled (f : string -> string) (p : physical) : physical :=
  mkPhysical (p_mtype p) (map (fun e => (f (fst e), snd e)) (p_linear p))
    (map (fun e => ((f (fst (fst e)), f (snd (fst e))), snd e)) (p_quad p)) (p_offset p) (map f (p_varset p))
    (map (fun e => (f (fst e), snd e)) (p_l2i p)) (map (fun e => (fst e, f (snd e))) (p_i2l p)).
Definition renamed_sample (f : string -> string) (s : dict string Z) : dict string Z := map (fun e => (f (fst e), snd e)) s.
Definition with_temperature (t : Qc) (o : options) : options :=
  mkOptions (o_reads o) (o_sweeps o) (o_rate o) t (o_init o) (o_reverse o) (o_pickup o) (o_seed o).
Definition with_states (l : option (list (dict string Z))) (o : options) : options :=
  mkOptions (o_reads o) (o_sweeps o) (o_rate o) (o_temp o) l (o_reverse o) (o_pickup o) (o_seed o).
(** [math.exp(-diff / temperature)] depends on the quotient only (also when it raises). *)
Definition quotient_only (w : world) : Prop := forall k d t, (0 < k)%Qc -> w_boltz w (k * d)%Qc (k * t)%Qc = w_boltz w d t.

(** ** All three at once *)
(** The same problem with the labels renamed by [f], all coefficients and the offset multiplied by [k], and
    [d] added to the offset. *)
Definition rewritten (f : string -> string) (k d : Qc) (p : physical) : physical :=
  mkPhysical (p_mtype p)
    (map (fun e => (f (fst e), k * snd e)%Qc) (p_linear p))
    (map (fun e => ((f (fst (fst e)), f (snd (fst e))), k * snd e)%Qc) (p_quad p))
    (k * p_offset p + d)%Qc
    (map f (p_varset p))
    (map (fun e => (f (fst e), snd e)) (p_l2i p))
    (map (fun e => (fst e, f (snd e))) (p_i2l p)).
(** The options, with the initial temperature multiplied by [k] and the variables in the initial states renamed. *)
Definition adapted (f : string -> string) (k : Qc) (o : options) : options :=
  mkOptions (o_reads o) (o_sweeps o) (o_rate o) (k * o_temp o)%Qc (option_map (map (renamed_sample f)) (o_init o))
    (o_reverse o) (o_pickup o) (o_seed o).
(** The outcome for the rewritten problem. *)
Definition rewritten_read (f : string -> string) (k d : Qc) (r : read) : read :=
  mkRead (renamed_sample f (d_sample r)) (k * d_energy r + d)%Qc
    (map (fun e => k * e - d)%Qc (d_ehist r)) (map (fun t => k * t)%Qc (d_thist r)) (d_ahist r).
Definition rewritten_outcome (f : string -> string) (k d : Qc) (u : outcome) : outcome :=
  mkOutcome (map (fun r => match r with (s, e, c) => (renamed_sample f s, k * e + d, c)%Qc end) (out_set u))
    (map (rewritten_read f k d) (out_reads u)).
Definition on_ok {A B} (f : A -> B) (r : res A) : res B := match r with Ok a => Ok (f a) | Err e => Err e end.

(** ** Dictionaries *)
Definition dmap {K V V'} (f : K -> K) (g : V -> V') (d : dict K V) : dict K V' := map (fun e => (f (fst e), g (snd e))) d.
Section DMap.
  Context {K V V' : Type} `{HK : Eqb K} (f : K -> K) (g : V -> V') (INJ : forall a b, f a = f b -> a = b).
  Lemma eqb_inj a b : eqb (f a) (f b) = eqb a b.
  Proof.
    destruct (eqb a b) eqn:E.
    - apply eqb_eq in E. subst. apply eqb_eq. auto.
    - destruct (eqb (f a) (f b)) eqn:E2; auto. apply eqb_eq, INJ in E2. subst. rewrite (proj2 (eqb_eq b b) eq_refl) in E. discriminate.
  Qed.
  Lemma dget_dmap x d : dget (f x) (dmap f g d) = option_map g (dget x d).
  Proof. induction d as [|[a v] d IH]; cbn; auto. rewrite eqb_inj. destruct (eqb x a); auto. Qed.
  Lemma dset_dmap x v d : dset (f x) (g v) (dmap f g d) = dmap f g (dset x v d).
  Proof. induction d as [|[a u] d IH]; cbn; auto. rewrite eqb_inj. destruct (eqb x a); cbn; auto. f_equal. exact IH. Qed.
  Lemma dmem_dmap x d : dmem (f x) (dmap f g d) = dmem x d.
  Proof. unfold dmem. rewrite dget_dmap. destruct (dget x d); auto. Qed.
  Lemma dkeys_dmap (d : dict K V) : dkeys (dmap f g d) = map f (dkeys d).
  Proof. unfold dkeys, dmap. rewrite !map_map. auto. Qed.
  Lemma dvals_dmap (d : dict K V) : dvals (dmap f g d) = map g (dvals d).
  Proof. unfold dvals, dmap. rewrite !map_map. auto. Qed.
End DMap.
Lemma set_nth_map {A B} (g : A -> B) i v l : set_nth i (g v) (map g l) = option_map (map g) (set_nth i v l).
Proof. revert i; induction l as [|x l IH]; intros [|i]; cbn; auto. rewrite IH. destruct (set_nth i v l); auto. Qed.
Lemma item_map {A B} (g : A -> B) l i : item (map g l) i = on_ok g (item l i).
Proof. unfold item. rewrite nth_error_map. destruct (nth_error l i); auto. Qed.
Lemma dmap_id {K V} (d : dict K V) : dmap (fun x => x) (fun x => x) d = d.
Proof. unfold dmap. rewrite <- (map_id d) at 2. apply map_ext. intros [a b]; auto. Qed.

Lemma map_rep {A B} (g : A -> B) a n : map g (repeat a n) = repeat (g a) n.
Proof. induction n as [|n IH]; cbn; congruence. Qed.

Section Rewrite.
  Variables (f : string -> string) (k d : Qc).
  Hypothesis INJ : forall a b, f a = f b -> a = b.
  Hypothesis KP : (0 < k)%Qc.
  Let f2 (e : string * string) : string * string := (f (fst e), f (snd e)).
  Let sc (c : Qc) : Qc := (k * c)%Qc.
  Lemma f2_inj a b : f2 a = f2 b -> a = b.
  Proof. destruct a, b. unfold f2. cbn. intros E. inversion E. f_equal; auto. Qed.

  (** ** The BQM *)
  Definition rb (b : bqm) : bqm := mkBqm (b_spin b) (dmap f sc (b_linear b)) (dmap f2 sc (b_quad b)) (k * b_offset b + d)%Qc.
  Lemma rb_add_variable v c b : bqm_add_variable (f v) (k * c)%Qc (rb b) = rb (bqm_add_variable v c b).
  Proof.
    unfold bqm_add_variable, rb. cbn [b_spin b_linear b_quad b_offset]. f_equal. rewrite <- (dset_dmap f sc INJ). f_equal. rewrite (dget_dmap f sc INJ).
    destruct (dget v (b_linear b)); cbn; unfold sc; ring.
  Qed.
  Lemma rb_add_zero v b : bqm_add_variable (f v) 0 (rb b) = rb (bqm_add_variable v 0 b).
  Proof. rewrite <- rb_add_variable. f_equal. ring. Qed.
  Lemma rb_add_interaction u v c b : bqm_add_interaction (f u) (f v) (k * c)%Qc (rb b) = on_ok rb (bqm_add_interaction u v c b).
  Proof.
    unfold bqm_add_interaction. change (String.eqb (f u) (f v)) with (eqb (f u) (f v)). rewrite (eqb_inj f INJ). change (eqb u v) with (String.eqb u v).
    destruct (String.eqb u v); [reflexivity|]. cbn [on_ok]. f_equal. rewrite !rb_add_zero.
    set (b1 := bqm_add_variable v 0 (bqm_add_variable u 0 b)). unfold rb at 1 2 3. cbn [b_spin b_linear b_quad b_offset].
    assert (PK : pair_key (f u) (f v) (dmap f2 sc (b_quad b1)) = f2 (pair_key u v (b_quad b1))).
    { unfold pair_key. change (f v, f u) with (f2 (v, u)). rewrite (dmem_dmap f2 sc f2_inj). destruct (dmem (v, u) (b_quad b1)); reflexivity. }
    unfold rb. cbn [b_spin b_linear b_quad b_offset]. rewrite PK. f_equal.
    rewrite <- (dset_dmap f2 sc f2_inj). f_equal. rewrite (dget_dmap f2 sc f2_inj).
    destruct (dget (pair_key u v (b_quad b1)) (b_quad b1)); cbn; unfold sc; ring.
  Qed.
  Lemma rb_interactions q : forall b, bqm_interactions (dmap f2 sc q) (rb b) = on_ok rb (bqm_interactions q b).
  Proof.
    induction q as [|[[u v] c] q IH]; intros b; [reflexivity|]. cbn [dmap map fst snd bqm_interactions]. unfold f2 at 1. cbn [fst snd]. unfold sc at 1.
    rewrite rb_add_interaction. destruct (bqm_add_interaction u v c b); [apply IH|reflexivity].
  Qed.
  Lemma rb_variables l : forall b, fold_left (fun b kv => bqm_add_variable (fst kv) (snd kv) b) (dmap f sc l) (rb b) =
    rb (fold_left (fun b kv => bqm_add_variable (fst kv) (snd kv) b) l b).
  Proof.
    induction l as [|[v c] l IH]; intros b; [reflexivity|]. cbn [dmap map fst snd fold_left]. unfold sc at 1. rewrite rb_add_variable. apply IH.
  Qed.
  Lemma rw_to_bqm p : to_bqm 1 (rewritten f k d p) = on_ok rb (to_bqm 1 p).
  Proof.
    unfold to_bqm, bqm_new. cbn [rewritten p_linear p_quad p_offset p_mtype].
    rewrite <- rb_interactions, <- rb_variables. unfold rb. cbn. rewrite !map_map. unfold dmap. rewrite !map_map. cbn.
    f_equal; [apply map_ext; intros [[u v] c]; unfold f2, sc; cbn; f_equal; ring|]. f_equal.
    apply map_ext. intros [l c]. unfold sc. cbn. f_equal. ring.
  Qed.
  Lemma rb_adj b l : bqm_adj (rb b) (f l) = dmap f sc (bqm_adj b l).
  Proof.
    unfold bqm_adj, rb. cbn [b_quad]. induction (b_quad b) as [|[[u v] c] q IH]; [reflexivity|].
    cbn [dmap map flat_map fst snd]. fold (dmap f2 sc q). unfold f2 at 1. cbn [fst snd].
    change (String.eqb (f u) (f l)) with (eqb (f u) (f l)). change (String.eqb (f v) (f l)) with (eqb (f v) (f l)).
    rewrite !(eqb_inj f INJ), IH. change (eqb u l) with (String.eqb u l). change (eqb v l) with (String.eqb v l).
    destruct (String.eqb u l); [reflexivity|]. destruct (String.eqb v l); reflexivity.
  Qed.
  Lemma qsum_sc (l : list Qc) : qsum (map sc l) = (k * qsum l)%Qc.
  Proof. induction l as [|c l IH]; cbn; [ring|]. rewrite IH. unfold sc. ring. Qed.
  Lemma rb_eta b : rb b = mkBqm (b_spin b) (dmap f sc (b_linear b)) (dmap f2 sc (b_quad b)) (k * b_offset b + d)%Qc.
  Proof. reflexivity. Qed.
  Lemma rb_spin b : bqm_to_spin (rb b) = rb (bqm_to_spin b).
  Proof.
    unfold bqm_to_spin. change (b_spin (rb b)) with (b_spin b). destruct (b_spin b); [reflexivity|].
    match goal with |- _ = rb ?x => rewrite (rb_eta x) end. cbn [b_spin b_linear b_quad b_offset].
    change (b_linear (rb b)) with (dmap f sc (b_linear b)). change (b_quad (rb b)) with (dmap f2 sc (b_quad b)). change (b_offset (rb b)) with (k * b_offset b + d)%Qc.
    f_equal.
    - unfold dmap. rewrite !map_map. apply map_ext. intros [l c]. cbn [fst snd]. f_equal.
      rewrite rb_adj. unfold dmap. rewrite map_map. cbn [fst snd]. rewrite <- (map_map snd sc), qsum_sc. unfold sc. ring.
    - unfold dmap. rewrite !map_map. apply map_ext. intros [l c]. cbn [fst snd]. unfold sc. f_equal. ring.
    - unfold dmap. rewrite !map_map. cbn [snd]. rewrite <- (map_map snd sc (b_linear b)), <- (map_map snd sc (b_quad b)), !qsum_sc. ring.
  Qed.

  (** ** The coefficient arrays *)
  Lemma rw_l2i p l : l2i (rewritten f k d p) (f l) = l2i p l.
  Proof.
    unfold l2i. cbn [rewritten p_l2i]. change (map (fun e => (f (fst e), snd e)) (p_l2i p)) with (dmap f (fun i : nat => i) (p_l2i p)).
    rewrite (dget_dmap f _ INJ). destruct (dget l (p_l2i p)); reflexivity.
  Qed.
  Lemma rw_fill_linear p l : forall arr, fill_linear (rewritten f k d p) (dmap f sc l) (map sc arr) = on_ok (map sc) (fill_linear p l arr).
  Proof.
    induction l as [|[v c] l IH]; intros arr; [reflexivity|]. cbn [dmap map fst snd fill_linear]. fold (dmap f sc l). rewrite rw_l2i.
    destruct (l2i p v) as [i|]; [|reflexivity]. cbn [rbind]. rewrite set_nth_map. destruct (set_nth i c arr); [apply IH|reflexivity].
  Qed.
  Let sd (a : dict nat Qc) : dict nat Qc := dmap (fun i => i) sc a.
  Lemma rw_adj_dict p l : forall acc, adj_dict (rewritten f k d p) (dmap f sc l) (sd acc) = on_ok sd (adj_dict p l acc).
  Proof.
    induction l as [|[v c] l IH]; intros acc; [reflexivity|]. cbn [dmap map fst snd adj_dict]. fold (dmap f sc l). rewrite rw_l2i.
    destruct (l2i p v) as [i|]; [|reflexivity]. cbn [rbind]. rewrite <- IH. f_equal. unfold sd. apply (dset_dmap (fun i => i) sc). auto.
  Qed.
  Lemma rw_fill_adj p b ls : forall arr, fill_adj (rewritten f k d p) (rb b) (map f ls) (map sd arr) = on_ok (map sd) (fill_adj p b ls arr).
  Proof.
    induction ls as [|l ls IH]; intros arr; [reflexivity|]. cbn [map fill_adj]. rewrite rw_l2i. destruct (l2i p l) as [i|]; [|reflexivity]. cbn [rbind].
    rewrite rb_adj. change (@nil (nat * Qc)) with (sd []). rewrite rw_adj_dict. change (sd []) with (@nil (nat * Qc)).
    destruct (adj_dict p (bqm_adj b l) []) as [dd|]; [|reflexivity]. cbn [on_ok rbind]. rewrite set_nth_map.
    destruct (set_nth i dd arr); [apply IH|reflexivity].
  Qed.

  (** ** One flip *)
  Lemma rw_adj_diff x xi a : adj_diff x xi (sd a) = on_ok sc (adj_diff x xi a).
  Proof.
    induction a as [|[i j] a IH]; [cbn; f_equal; unfold sc; ring|]. cbn [sd dmap map fst snd adj_diff]. change (map (fun e => (fst e, sc (snd e))) a) with (sd a).
    destruct (item x i) as [xa|]; [|reflexivity]. cbn [rbind]. rewrite IH. destruct (adj_diff x xi a) as [t|]; [|reflexivity]. cbn. f_equal. unfold sc. ring.
  Qed.
  Lemma rw_diff lin adj i x : calc_energy_diff (map sc lin) (map sd adj) i x = on_ok sc (calc_energy_diff lin adj i x).
  Proof.
    unfold calc_energy_diff. destruct (item x i) as [xi|]; [|reflexivity]. cbn [rbind]. rewrite item_map. destruct (item lin i) as [h|]; [|reflexivity]. cbn [on_ok rbind].
    rewrite item_map. destruct (item adj i) as [a|]; [|reflexivity]. cbn [on_ok rbind]. rewrite rw_adj_diff. destruct (adj_diff x xi a) as [t|]; [|reflexivity].
    cbn. f_equal. unfold sc. ring.
  Qed.
  Variable w : world.
  Hypothesis BZ : forall e t, w_boltz w (k * e)%Qc (k * t)%Qc = w_boltz w e t.
  Lemma sc_le c : Qcle_bool (sc c) 0 = Qcle_bool c 0.
  Proof.
    unfold sc. replace 0%Qc with (k * 0)%Qc at 1 by ring.
    destruct (Qcle_bool c 0) eqn:E; [apply Qle_bool_iff in E|]; [apply Qle_bool_iff; apply (proj2 (Qc_mul_pos_cancel k c 0 KP)); exact E|].
    destruct (Qcle_bool (k * c) (k * 0)) eqn:E2; auto. exfalso. apply Qle_bool_iff in E2. apply (proj1 (Qc_mul_pos_cancel k c 0 KP)) in E2.
    apply Qle_bool_iff in E2. unfold Qcle_bool in E. cbn in *. congruence.
  Qed.
  Lemma rw_acceptable rs u e t : is_acceptable w rs u (sc e) (sc t) = is_acceptable w rs u e t.
  Proof. unfold is_acceptable. rewrite sc_le. destruct (Qcle_bool e 0); [reflexivity|]. unfold sc. rewrite BZ. reflexivity. Qed.
  Let rk (x : walk) : walk := mkWalk (k_x x) (k * k_energy x - d)%Qc (k_used x) (k_acc x).
  Lemma rw_flip lin adj rs t x i : flip w (map sc lin) (map sd adj) rs (sc t) (rk x) i = on_ok rk (flip w lin adj rs t x i).
  Proof.
    unfold flip. change (k_x (rk x)) with (k_x x). rewrite rw_diff. destruct (calc_energy_diff lin adj i (k_x x)) as [e|]; [|reflexivity]. cbn [on_ok rbind].
    change (k_used (rk x)) with (k_used x). rewrite rw_acceptable. destruct (is_acceptable w rs (k_used x) e t) as [[a u]|]; [|reflexivity]. cbn [rbind fst snd].
    destruct a; cbn; [|reflexivity]. unfold rk. cbn. f_equal. f_equal. unfold sc. ring.
  Qed.
  Lemma rw_flips lin adj rs t l : forall x, flips w (map sc lin) (map sd adj) rs (sc t) (rk x) l = on_ok rk (flips w lin adj rs t x l).
  Proof.
    induction l as [|i l IH]; intros x; [reflexivity|]. cbn [flips]. rewrite rw_flip. destruct (flip w lin adj rs t x i) as [y|]; [|reflexivity]. cbn [on_ok rbind]. apply IH.
  Qed.

  (** ** Sweeps *)
  Variable o : options.
  Hypothesis RV : o_reverse o = RNone \/ k = 1%Qc.
  Let o' : options := adapted f k o.
  Let rs_ (s : sweepst) : sweepst := mkSweep (s_trace s) (rk (s_walk s)) (sc (s_temp s)) (s_reversing s) (sc (s_target s))
    (map (fun e => k * e - d)%Qc (s_ehist s)) (map (fun t => k * t)%Qc (s_thist s)) (s_ahist s).
  Lemma sc_one c : k = 1%Qc -> sc c = c.
  Proof. intros E. unfold sc. rewrite E. ring. Qed.
  Lemma rw_sweep g lin adj n rs s i : (o_reverse o = RNone -> s_reversing s = false) ->
    sweep_once w g o' (map sc lin) (map sd adj) n rs (rs_ s) i = on_ok rs_ (sweep_once w g o lin adj n rs s i).
  Proof.
    intros HR. unfold sweep_once. change (o_reverse o') with (o_reverse o). change (s_reversing (rs_ s)) with (s_reversing s).
    match goal with |- rbind ?a _ = on_ok _ (rbind ?b _) => change b with a; destruct a as [rev|] eqn:ER; [|reflexivity] end. cbn [rbind].
    assert (HV : rev = true -> k = 1%Qc).
    { intros ->. destruct RV as [X|X]; auto. rewrite (HR X) in ER. discriminate. }
    change (o_pickup o') with (o_pickup o). change (s_trace (rs_ s)) with (s_trace s). destruct (pickups g (o_pickup o) n (s_trace s)) as [idxs tr].
    cbn [rs_ s_walk s_temp s_target s_ehist s_thist s_ahist]. change (k_x (rk (s_walk s))) with (k_x (s_walk s)). change (k_used (rk (s_walk s))) with (k_used (s_walk s)).
    change (mkWalk (k_x (s_walk s)) (k_energy (rk (s_walk s))) (k_used (s_walk s)) 0) with (rk (mkWalk (k_x (s_walk s)) (k_energy (s_walk s)) (k_used (s_walk s)) 0)).
    rewrite rw_flips. destruct (flips w lin adj rs (s_temp s) _ idxs) as [y|]; [|reflexivity]. cbn [on_ok rbind].
    change (o_rate o') with (o_rate o). destruct rev.
    - specialize (HV eq_refl). destruct (rev_get "reverse_temperature" (o_reverse o)) as [rt|]; [|reflexivity]. cbn. unfold rs_. cbn. f_equal. rewrite !map_app. cbn. f_equal.
      all: rewrite ?sc_one by auto; reflexivity.
    - cbn. unfold rs_. cbn. f_equal. rewrite !map_app. cbn. f_equal.
      unfold sc. ring.
  Qed.
  Lemma sweep_reversing g lin adj n rs s i s' : sweep_once w g o lin adj n rs s i = Ok s' -> (o_reverse o = RNone -> s_reversing s = false) -> o_reverse o = RNone -> s_reversing s' = false.
  Proof.
    unfold sweep_once. intros E HR HN. rewrite (HR HN) in E. cbn [rbind] in E. destruct (pickups g (o_pickup o) n (s_trace s)) as [idxs tr].
    destruct (flips w lin adj rs (s_temp s) _ idxs) as [y|]; [|discriminate]. cbn in E. inversion E. reflexivity.
  Qed.
  Lemma rw_sweeps g lin adj n rs l : forall s, (o_reverse o = RNone -> s_reversing s = false) ->
    sweeps w g o' (map sc lin) (map sd adj) n rs (rs_ s) l = on_ok rs_ (sweeps w g o lin adj n rs s l).
  Proof.
    induction l as [|i l IH]; intros s HR; [reflexivity|]. cbn [sweeps]. rewrite (rw_sweep _ _ _ _ _ _ _ HR).
    destruct (sweep_once w g o lin adj n rs s i) as [s'|] eqn:E; [|reflexivity]. cbn [on_ok rbind]. apply IH. apply (sweep_reversing _ _ _ _ _ _ _ _ E HR).
  Qed.

  (** ** One read *)
  Let rn := renamed_sample f.
  Lemma rn_dmap s : rn s = dmap f (fun z : Z => z) s. Proof. reflexivity. Qed.
  Lemma rw_fill_state p s0 vs : forall x, fill_state (rewritten f k d p) (map f vs) (rn s0) x = fill_state p vs s0 x.
  Proof.
    induction vs as [|v vs IH]; intros x; [reflexivity|]. cbn [map fill_state]. rewrite rw_l2i. destruct (l2i p v) as [i|]; [|reflexivity]. cbn [rbind].
    rewrite rn_dmap, (dget_dmap f _ INJ). destruct (dget v s0) as [z|]; [|reflexivity]. cbn. destruct (set_nth i z x); [apply IH|reflexivity].
  Qed.
  Lemma rb_length b : length (b_linear (rb b)) = length (b_linear b).
  Proof. unfold rb, dmap. cbn. apply map_length. Qed.
  Lemma rb_vars b : bqm_variables (rb b) = map f (bqm_variables b).
  Proof. unfold bqm_variables, rb. cbn [b_linear]. apply dkeys_dmap. Qed.
  Lemma rw_initial g p b s0 tr : initial_spins g (rewritten f k d p) (rb b) (option_map rn s0) tr = initial_spins g p b s0 tr.
  Proof.
    unfold initial_spins. rewrite rb_length. destruct s0 as [s0|]; [|reflexivity]. cbn [option_map]. rewrite rb_vars, rw_fill_state. reflexivity.
  Qed.
  Lemma rn_update l : forall a, dupdate (rn a) (rn l) = rn (dupdate a l).
  Proof.
    unfold dupdate. induction l as [|[x z] l IH]; intros a; [reflexivity|]. cbn [rn renamed_sample map fold_left fst snd]. rewrite <- IH.
    f_equal. unfold rn, renamed_sample. apply (dset_dmap f (fun z : Z => z) INJ).
  Qed.
  Lemma rw_sample p x : make_sample (rewritten f k d p) x = rn (make_sample p x).
  Proof.
    unfold make_sample. rewrite <- rn_update. f_equal. cbn [rewritten p_i2l]. unfold dvals. rewrite map_map. cbn [snd]. rewrite <- (map_map snd f).
    generalize (map snd (p_i2l p)). intros ls. revert x. induction ls as [|l ls IH]; intros [|z x]; cbn; try reflexivity. f_equal. apply IH.
  Qed.
  Lemma rn_spin s l : spin_in (rn s) (f l) = spin_in s l.
  Proof. unfold spin_in. rewrite rn_dmap, (dget_dmap f _ INJ). destruct (dget l s); reflexivity. Qed.
  Lemma rw_lin s a : lin_energy (rn s) (dmap f sc a) = on_ok sc (lin_energy s a).
  Proof.
    induction a as [|[l c] a IH]; [cbn; f_equal; unfold sc; ring|]. cbn [dmap map fst snd lin_energy]. fold (dmap f sc a). rewrite rn_spin, IH.
    destruct (spin_in s l) as [z|]; [|reflexivity]. cbn [rbind]. destruct (lin_energy s a); [|reflexivity]. cbn. f_equal. unfold sc. ring.
  Qed.
  Lemma rw_quad s a : quad_energy (rn s) (dmap f2 sc a) = on_ok sc (quad_energy s a).
  Proof.
    induction a as [|[[u v] c] a IH]; [cbn; f_equal; unfold sc; ring|]. cbn [dmap map fst snd quad_energy]. fold (dmap f2 sc a). unfold f2 at 1. cbn [fst snd]. rewrite !rn_spin, IH.
    destruct (spin_in s u) as [z|]; [|reflexivity]. cbn [rbind]. destruct (spin_in s v) as [z'|]; [|reflexivity]. cbn [rbind]. destruct (quad_energy s a); [|reflexivity]. cbn. f_equal. unfold sc. ring.
  Qed.
  Lemma rw_energy b s : bqm_energy (rb b) (rn s) = on_ok (fun e => k * e + d)%Qc (bqm_energy b s).
  Proof.
    unfold bqm_energy. cbn [rb b_linear b_quad b_offset]. rewrite rw_lin. destruct (lin_energy s (b_linear b)); [|reflexivity]. cbn [on_ok rbind].
    rewrite rw_quad. destruct (quad_energy s (b_quad b)); [|reflexivity]. cbn. f_equal. unfold sc. ring.
  Qed.
  Let rr := rewritten_read f k d.
  Lemma rw_annealing g p orig b lin adj s0 tr :
    annealing w g o' (rewritten f k d p) (rb orig) (rb b) (map sc lin) (map sd adj) (option_map rn s0) tr =
    on_ok (fun x => (rr (fst x), snd x)) (annealing w g o p orig b lin adj s0 tr).
  Proof.
    unfold annealing. rewrite rw_initial, rb_length. destruct (initial_spins g p b s0 tr) as [[x0 tr0]|]; [|reflexivity]. cbn [rbind fst snd].
    rewrite rw_sample, rw_energy. destruct (bqm_energy b (make_sample p x0)) as [e0|]; [|reflexivity]. cbn [on_ok rbind].
    change (o_reverse o') with (o_reverse o). change (o_sweeps o') with (o_sweeps o). change (o_temp o') with (sc (o_temp o)).
    assert (HT : (if rev_truthy (o_reverse o) then rbind (rev_get "reverse_temperature" (o_reverse o)) (fun rt => Ok (tiny, rt)) else Ok (sc (o_temp o), 0%Qc)) =
       on_ok (fun x => (sc (fst x), sc (snd x))) (if rev_truthy (o_reverse o) then rbind (rev_get "reverse_temperature" (o_reverse o)) (fun rt => Ok (tiny, rt)) else Ok (o_temp o, 0%Qc))).
    { destruct (rev_truthy (o_reverse o)) eqn:ET; [|cbn; f_equal; f_equal; unfold sc; ring]. destruct RV as [X|X]; [rewrite X in ET; discriminate|].
      destruct (rev_get "reverse_temperature" (o_reverse o)); [|reflexivity]. cbn. rewrite !sc_one by auto. reflexivity. }
    rewrite HT. clear HT. destruct (if rev_truthy (o_reverse o) then _ else _) as [[t0 tg]|]; [|reflexivity]. cbn [on_ok rbind fst snd].
    destruct (_ <? 0)%Z; [reflexivity|]. set (st0 := mkSweep (RRandom (Z.to_nat (o_sweeps o * Z.of_nat (length (b_linear b)))) :: tr0) (mkWalk x0 (- (1) * e0)%Qc 0 0) t0
                 (match o_reverse o with RNone => false | _ => true end) tg [] [] []).
    match goal with |- rbind (sweeps _ _ _ _ _ _ _ ?s _) _ = _ => replace s with (rs_ st0) end.
    2: { unfold rs_, st0, rk. cbn. f_equal. f_equal. ring. }
    rewrite rw_sweeps. 2: { intros X. unfold st0. cbn. rewrite X. reflexivity. }
    destruct (sweeps w g o lin adj _ _ st0 _) as [st|]; [|reflexivity]. cbn [on_ok rbind fst snd]. f_equal. f_equal.
    unfold rr, rewritten_read. cbn [d_sample d_energy d_ehist d_thist d_ahist]. rewrite <- rw_sample. unfold rs_, rk. cbn [s_walk k_x k_energy s_ehist s_thist s_ahist s_trace].
    change (b_offset (rb orig)) with (k * b_offset orig + d)%Qc. f_equal. change (qz 2) with (1 + 1)%Qc. ring.
  Qed.
  Lemma rw_reads g p orig b lin adj l : forall tr,
    reads w g o' (rewritten f k d p) (rb orig) (rb b) (map sc lin) (map sd adj) (map (option_map rn) l) tr = on_ok (map rr) (reads w g o p orig b lin adj l tr).
  Proof.
    induction l as [|s0 l IH]; intros tr; [reflexivity|]. cbn [map reads]. rewrite rw_annealing. destruct (annealing w g o p orig b lin adj s0 tr) as [[r tr1]|]; [|reflexivity].
    cbn [on_ok rbind fst snd]. rewrite IH. destruct (reads w g o p orig b lin adj l tr1); reflexivity.
  Qed.

  (** ** The sample set *)
  Let ra (r : srow) : srow := match r with (s, e, c) => (rn s, k * e + d, c)%Qc end.
  Lemma rn_eqb s s' : sample_eqb (rn s) (rn s') = sample_eqb s s'.
  Proof.
    unfold sample_eqb, dict_eqb. rewrite (rn_dmap s), (rn_dmap s'). f_equal; [unfold dmap; rewrite !map_length; reflexivity|].
    induction s as [|[x z] s IH]; [reflexivity|]. cbn [dmap map forallb fst snd]. f_equal; [|exact IH].
    rewrite (dget_dmap f _ INJ). destruct (dget x s'); reflexivity.
  Qed.
  Lemma ra_add s e l : aggregate_add (rn s) (k * e + d)%Qc (map ra l) = map ra (aggregate_add s e l).
  Proof.
    induction l as [|[[s' e'] c] l IH]; [reflexivity|]. cbn [map aggregate_add]. cbn [ra]. rewrite rn_eqb. destruct (sample_eqb s' s); [reflexivity|]. rewrite IH. reflexivity.
  Qed.
  Lemma rw_aggregate l : aggregate (map rr l) = map ra (aggregate l).
  Proof.
    unfold aggregate. change (@nil srow) with (map ra []) at 1. generalize (@nil srow). induction l as [|r l IH]; intros a; [reflexivity|].
    cbn [map fold_left]. rewrite <- IH. f_equal. apply ra_add.
  Qed.
  Lemma rw_set sp l : sampleset sp (map rr l) = map ra (sampleset sp l).
  Proof.
    unfold sampleset. rewrite rw_aggregate, !map_map. apply map_ext. intros [[s e] c]. cbn. f_equal. f_equal. unfold convert_sample, rn, renamed_sample. rewrite !map_map. reflexivity.
  Qed.

  Theorem rewritten_solve p :
    solve w (Some (rewritten f k d p)) (adapted f k o) =
    (option_map (map rn) (fst (solve w (Some p) o)), on_ok (rewritten_outcome f k d) (snd (solve w (Some p) o))).
  Proof.
    unfold solve. fold o'.
    assert (IL : init_list o' = map rn (init_list o)) by (unfold init_list, o', adapted; cbn; destruct (o_init o); reflexivity).
    assert (HI : has_init o' = has_init o) by (unfold has_init; rewrite IL, map_length; reflexivity).
    assert (CA : check_args (rewritten f k d p) o' = check_args p o).
    { unfold check_args. rewrite HI, IL, map_length. cbn [rewritten p_linear p_quad]. rewrite !map_length. reflexivity. }
    rewrite CA. change (o_init o') with (option_map (map rn) (o_init o)). change (o_seed o') with (o_seed o). change (o_reads o') with (o_reads o).
    destruct (check_args p o); [|reflexivity]. destruct (pick_rng w (o_seed o)) as [g|]; [|reflexivity]. rewrite rw_to_bqm. destruct (to_bqm 1 p) as [orig|]; [|reflexivity].
    cbn [on_ok]. rewrite rb_spin, HI, IL. change (b_spin (rb orig)) with (b_spin orig). cbn zeta. rewrite rb_length, rb_vars. cbn [fst snd].
    set (b := bqm_to_spin orig).
    assert (EI : (if negb (b_spin orig) && has_init o then Some (map to_spin_state (map rn (init_list o))) else option_map (map rn) (o_init o)) =
      option_map (map rn) (if negb (b_spin orig) && has_init o then Some (map to_spin_state (init_list o)) else o_init o)).
    { destruct (_ && _); [|reflexivity]. cbn. f_equal. rewrite !map_map. apply map_ext. intros s. unfold to_spin_state, rn, renamed_sample. rewrite !map_map. reflexivity. }
    rewrite EI. set (init' := if negb (b_spin orig) && has_init o then Some (map to_spin_state (init_list o)) else o_init o). f_equal.
    replace (repeat 0%Qc (length (b_linear b))) with (map sc (repeat 0%Qc (length (b_linear b)))) at 1.
    2: { rewrite map_rep. f_equal. unfold sc. ring. }
    change (b_linear (rb b)) with (dmap f sc (b_linear b)). rewrite rw_fill_linear. destruct (fill_linear p (b_linear b) _) as [lin|]; [|reflexivity]. cbn [on_ok rbind].
    replace (repeat (@nil (nat * Qc)) (length (b_linear b))) with (map sd (repeat (@nil (nat * Qc)) (length (b_linear b)))) at 1 by (rewrite map_rep; reflexivity).
    rewrite rw_fill_adj. destruct (fill_adj p b _ _) as [adj|]; [|reflexivity]. cbn [on_ok rbind].
    match goal with |- rbind (reads _ _ _ _ _ _ _ _ ?l1 _) _ = on_ok _ (rbind (reads _ _ _ _ _ _ _ _ ?l2 _) _) => replace l1 with (map (option_map rn) l2) end.
    2: { destruct (has_init o); [|rewrite map_rep; reflexivity]. destruct init'; cbn; [rewrite !map_map|]; reflexivity. }
    rewrite rw_reads. destruct (reads w g o p orig b lin adj _ []) as [l|]; [|reflexivity]. cbn [on_ok rbind]. f_equal. unfold rewritten_outcome. cbn [out_set out_reads]. f_equal. apply rw_set.
  Qed.
End Rewrite.

(** ** C116 *)
Lemma rename_id s : renamed_sample (fun l => l) s = s.
Proof. unfold renamed_sample. rewrite <- (map_id s) at 2. apply map_ext. intros [a b]; auto. Qed.
Lemma rename_states_id l : option_map (map (renamed_sample (fun l => l))) l = l.
Proof. destruct l as [l|]; [|reflexivity]. cbn. f_equal. rewrite <- (map_id l) at 2. apply map_ext. apply rename_id. Qed.
Lemma in_units_rewritten k p : in_units k p = rewritten (fun l => l) k 0 p.
Proof.
  unfold in_units, rewritten. rewrite map_id. f_equal.
  - apply map_ext. intros [[u v] c]. reflexivity.
  - ring.
  - rewrite <- (map_id (p_l2i p)) at 1. apply map_ext. intros [a b]; auto.
  - rewrite <- (map_id (p_i2l p)) at 1. apply map_ext. intros [a b]; auto.
Qed.
Lemma shifted_rewritten d p : shifted_by d p = rewritten (fun l => l) 1 d p.
Proof.
  unfold shifted_by, rewritten. rewrite map_id. f_equal.
  - rewrite <- (map_id (p_linear p)) at 1. apply map_ext. intros [a b]. cbn. f_equal. ring.
  - rewrite <- (map_id (p_quad p)) at 1. apply map_ext. intros [[u v] b]. cbn. f_equal. ring.
  - ring.
  - rewrite <- (map_id (p_l2i p)) at 1. apply map_ext. intros [a b]; auto.
  - rewrite <- (map_id (p_i2l p)) at 1. apply map_ext. intros [a b]; auto.
Qed.
Lemma relabelled_rewritten f p : relabelled f p = rewritten f 1 0 p.
Proof.
  unfold relabelled, rewritten. f_equal.
  - apply map_ext. intros [a b]. cbn. f_equal. ring.
  - apply map_ext. intros [[u v] b]. cbn. f_equal. ring.
  - ring.
Qed.
Lemma boltz_one w : forall e t, w_boltz w (1 * e)%Qc (1 * t)%Qc = w_boltz w e t.
Proof. intros. f_equal; ring. Qed.
Lemma one_pos : (0 < 1)%Qc. Proof. reflexivity. Qed.

(** Multiplying all coefficients and the initial temperature by the same positive number changes nothing but the
    unit of the energies: the same samples with the same numbers of occurrences, the same numbers of accepted flips in each
    sweep, energies and temperatures in the new unit; and the same exception if there is one. *)
Theorem C116_units : forall w p o k, (0 < k)%Qc -> quotient_only w -> o_reverse o = RNone ->
  match result w p o with
  | Err e => result w (in_units k p) (with_temperature (k * o_temp o) o) = Err e
  | Ok u => exists u', result w (in_units k p) (with_temperature (k * o_temp o) o) = Ok u' /\
      out_set u' = map (fun r => match r with (s, e, c) => (s, k * e, c)%Qc end) (out_set u) /\
      map d_ahist (out_reads u') = map d_ahist (out_reads u) /\
      map d_thist (out_reads u') = map (map (fun t => k * t)%Qc) (map d_thist (out_reads u)) /\
      map d_ehist (out_reads u') = map (map (fun e => k * e)%Qc) (map d_ehist (out_reads u))
  end.
Proof.
  intros w p o k KP QO RV. unfold result. rewrite in_units_rewritten.
  replace (with_temperature (k * o_temp o) o) with (adapted (fun l => l) k o) by (unfold adapted; rewrite rename_states_id; reflexivity).
  rewrite (rewritten_solve (fun l => l) k 0 (fun a b E => E) KP w (fun e t => QO k e t KP) o (or_introl RV) p). cbn [snd].
  destruct (snd (solve w (Some p) o)) as [u|e]; [|reflexivity]. cbn [on_ok]. eexists. split; [reflexivity|]. unfold rewritten_outcome. cbn [out_set out_reads]. split; [|split; [|split]].
  - apply map_ext. intros [[s e] c]. rewrite rename_id. f_equal. f_equal. ring.
  - rewrite map_map. reflexivity.
  - rewrite !map_map. reflexivity.
  - rewrite !map_map. apply map_ext. intros r. cbn. apply map_ext. intros e. ring.
Qed.

(** ** C117 *)
(** Adding a constant to the offset adds it to the energies and changes nothing else, whatever the options (in the energy history
    it is subtracted: its entries have the sign of the offset reversed, see C65). *)
Theorem C117_offset : forall w p o d,
  match result w p o with
  | Err e => result w (shifted_by d p) o = Err e
  | Ok u => exists u', result w (shifted_by d p) o = Ok u' /\
      out_set u' = map (fun r => match r with (s, e, c) => (s, e + d, c)%Qc end) (out_set u) /\
      map d_ahist (out_reads u') = map d_ahist (out_reads u) /\
      map d_thist (out_reads u') = map d_thist (out_reads u) /\
      map d_ehist (out_reads u') = map (map (fun e => e - d)%Qc) (map d_ehist (out_reads u))
  end.
Proof.
  intros w p o d. unfold result. rewrite shifted_rewritten.
  assert (EO : o = adapted (fun l => l) 1 o).
  { unfold adapted. rewrite rename_states_id. destruct o. cbn. f_equal. ring. }
  assert (ES : snd (solve w (Some (rewritten (fun l => l) 1 d p)) o) = on_ok (rewritten_outcome (fun l => l) 1 d) (snd (solve w (Some p) o))).
  { rewrite EO at 1. rewrite (rewritten_solve (fun l => l) 1 d (fun a b E => E) one_pos w (boltz_one w) o (or_intror eq_refl) p). reflexivity. }
  rewrite ES. clear EO ES.
  destruct (snd (solve w (Some p) o)) as [u|e]; [|reflexivity]. cbn [on_ok]. eexists. split; [reflexivity|]. unfold rewritten_outcome. cbn [out_set out_reads]. split; [|split; [|split]].
  - apply map_ext. intros [[s e] c]. rewrite rename_id. f_equal. f_equal. ring.
  - rewrite map_map. reflexivity.
  - rewrite map_map. apply map_ext. intros r. cbn. rewrite <- (map_id (d_thist r)) at 2. apply map_ext. intros t. ring.
  - rewrite !map_map. apply map_ext. intros r. cbn. apply map_ext. intros e. ring.
Qed.

(** ** C118 *)
(** Giving the variables other names (different ones to different variables) changes nothing but the names: same
    energies, occurrences and histories, and the samples are the same under the new names. The caller's
    initial states are left as they would be, under the new names. *)
Theorem C118_labels : forall w p o f, (forall a b, f a = f b -> a = b) ->
  fst (solve w (Some (relabelled f p)) (with_states (option_map (map (renamed_sample f)) (o_init o)) o)) =
    option_map (map (renamed_sample f)) (fst (solve w (Some p) o)) /\
  match result w p o with
  | Err e => result w (relabelled f p) (with_states (option_map (map (renamed_sample f)) (o_init o)) o) = Err e
  | Ok u => exists u', result w (relabelled f p) (with_states (option_map (map (renamed_sample f)) (o_init o)) o) = Ok u' /\
      out_set u' = map (fun r => match r with (s, e, c) => (renamed_sample f s, e, c) end) (out_set u) /\
      map d_ahist (out_reads u') = map d_ahist (out_reads u) /\
      map d_thist (out_reads u') = map d_thist (out_reads u) /\
      map d_ehist (out_reads u') = map d_ehist (out_reads u)
  end.
Proof.
  intros w p o f INJ. unfold result. rewrite relabelled_rewritten.
  assert (EO : with_states (option_map (map (renamed_sample f)) (o_init o)) o = adapted f 1 o).
  { unfold adapted, with_states. f_equal. ring. }
  rewrite EO. rewrite (rewritten_solve f 1 0 INJ one_pos w (boltz_one w) o (or_intror eq_refl) p). cbn [fst snd]. split; [reflexivity|].
  destruct (snd (solve w (Some p) o)) as [u|e]; [|reflexivity]. cbn [on_ok]. eexists. split; [reflexivity|]. unfold rewritten_outcome. cbn [out_set out_reads]. split; [|split; [|split]].
  - apply map_ext. intros [[s e] c]. f_equal. f_equal. ring.
  - rewrite map_map. reflexivity.
  - rewrite map_map. apply map_ext. intros r. cbn. rewrite <- (map_id (d_thist r)) at 2. apply map_ext. intros t. ring.
  - rewrite map_map. apply map_ext. intros r. cbn. rewrite <- (map_id (d_ehist r)) at 2. apply map_ext. intros t. ring.
Qed.

(** ** The hypotheses can be met *)
(** Accepts an increase up to the temperature with probability 3/4. *)
Definition step_boltz (e t : Qc) : res Qc :=
  if Qc_eqb t 0 then Err ZeroDivisionError else Ok (if Qcle_bool e t then qfrac 3 4 else 0%Qc).
Definition step_world : world := mkWorld (fun z => const_gen (Z.even z)) (const_gen true) step_boltz.
Lemma step_quotient : quotient_only step_world.
Proof.
  intros k e t KP. cbn. unfold step_boltz.
  assert (Z : Qc_eqb (k * t) 0 = Qc_eqb t 0).
  { destruct (Qc_eqb t 0) eqn:E.
    - apply Qc_eqb_eq in E. subst. apply Qc_eqb_eq. ring.
    - destruct (Qc_eqb (k * t) 0) eqn:E2; auto. apply Qc_eqb_eq in E2. exfalso.
      assert (X : (k * t = k * 0)%Qc) by (rewrite E2; ring). apply Qc_mul_eq_cancel in X; [|intros Y; rewrite Y in KP; discriminate].
      rewrite X in E. discriminate. }
  rewrite Z. destruct (Qc_eqb t 0); [reflexivity|]. do 2 f_equal.
  assert (L : Qcle_bool (k * e) (k * t) = Qcle_bool e t).
  { destruct (Qcle_bool e t) eqn:E.
    - apply Qle_bool_iff in E. apply Qle_bool_iff. apply (proj2 (Qc_mul_pos_cancel k e t KP)). exact E.
    - destruct (Qcle_bool (k * e) (k * t)) eqn:E2; auto. exfalso. apply Qle_bool_iff in E2. apply (proj1 (Qc_mul_pos_cancel k e t KP)) in E2.
      apply Qle_bool_iff in E2. unfold Qcle_bool in E. congruence. }
  rewrite L. reflexivity.
Qed.
Example C116_hyps : quotient_only step_world /\ o_reverse options0 = RNone /\ (0 < qz 3)%Qc /\
  okshape (result step_world (phys2 Ising) options0) = okshape (result step_world (in_units (qz 3) (phys2 Ising)) (with_temperature (qz 3 * o_temp options0) options0)) /\
  okshape (result step_world (phys2 Ising) options0) = [(1, [2; 1; 1], 3); (1, [2; 1; 1], 3)].
Proof. split; [apply step_quotient|]. split; [reflexivity|]. split; [reflexivity|]. split; vm_compute; reflexivity. Qed.
(** In reverse annealing the first temperature is a constant (1e-9), so there the unit does matter, even if the
    reverse temperature is multiplied as well. *)
Definition tiny_model : physical := mkPhysical Ising [("a", quarter * tiny)%Qc] [] 0 ["a"] [("a", 0)] [(0, "a")].
Definition backwards (rt : Qc) : options :=
  mkOptions 1 1 (qfrac 1 2) (qz 10) None (RDict [("reverse_period", qz 1); ("reverse_temperature", rt)]) "sequential" None.
Theorem C116_reverse_refuted : exists w p k u u', quotient_only w /\ (0 < k)%Qc /\
  result w p (backwards (qz 4)) = Ok u /\ result w (in_units k p) (with_temperature (k * qz 10) (backwards (k * qz 4))) = Ok u' /\
  map (fun r => fst (fst r)) (out_set u) <> map (fun r => fst (fst r)) (out_set u').
Proof.
  exists step_world, tiny_model, (qz 4). eexists. eexists. split; [apply step_quotient|]. split; [reflexivity|].
  split; [vm_compute; reflexivity|]. split; [vm_compute; reflexivity|]. cbn. discriminate.
Qed.
Example C117_hyps : okshape (result step_world (phys2 Qubo) options1) = okshape (result step_world (shifted_by (qz 7) (phys2 Qubo)) options1) /\
  length (okshape (result step_world (phys2 Qubo) options1)) = 1.
Proof. split; vm_compute; reflexivity. Qed.
Definition primed (l : string) : string := (l +++ "'")%string.
Example C118_hyps : (forall a b, primed a = primed b -> a = b) /\
  okshape (result step_world (relabelled primed (phys2 Qubo)) (with_states (Some [[("a'", 0%Z); ("b'", 1%Z)]]) options1)) = okshape (result step_world (phys2 Qubo) options1).
Proof. split; [intros a b; apply append_inj_r|vm_compute; reflexivity]. Qed.
Print Assumptions rewritten_solve.
Print Assumptions C116_units.
Print Assumptions C117_offset.
Print Assumptions C118_labels.
Print Assumptions C116_reverse_refuted.
