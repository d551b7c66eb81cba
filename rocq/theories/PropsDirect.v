(** * PropsDirect: C154 - physical models built by hand; more about C38 and C76. *)
From Verif Require Import PyBase PyLemmas Numbers Constraint LogicalModel Spec PhysicalProofs ToPhysicalProofs Samples
  PropsPhysical Physical BqmProofs History PropsHistory PropsBqm Solver PropsSolver Entry Services PropsServices.
Local Open Scope string_scope.
Local Open Scope list_scope.

(** ** Specification *)

(** Calls of PhysicalModel.add_interaction, for one label and for a pair of labels. *)
Inductive add_call := AddLinear (l : string) (c : Qc) | AddQuad (a b : string) (c : Qc).
Definition perform (p : physical) (x : add_call) : physical :=
  match x with AddLinear l c => phys_add_linear l c p | AddQuad a b c => phys_add_quad (a, b) c p end.
(** PhysicalModel(t), then the calls in order. *)
Definition by_hand (t : mtarg) (xs : list add_call) : res physical :=
  rbind (physical_model t) (fun p => Ok (fold_left perform xs p)).

(** [c] was given for the label (for the pair, in this order) by the last call about it. *)
Definition last_linear (l : string) (c : Qc) (xs : list add_call) : Prop :=
  exists before after, xs = before ++ AddLinear l c :: after /\ forall d, ~ In (AddLinear l d) after.
Definition last_quad (a b : string) (c : Qc) (xs : list add_call) : Prop :=
  exists before after, xs = before ++ AddQuad a b c :: after /\ forall d, ~ In (AddQuad a b d) after.
(** What a call gives the energy. *)
Definition part (s : assignment) (x : add_call) : Qc :=
  match x with AddLinear l c => (- (c * s l))%Qc | AddQuad a b c => (- (c * (s a * s b)))%Qc end.
(** Two calls are about the same entry. *)
Definition same_entry (x y : add_call) : Prop :=
  match x, y with
  | AddLinear l _, AddLinear l' _ => l = l'
  | AddQuad a b _, AddQuad a' b' _ => a = a' /\ b = b'
  | _, _ => False
  end.

(** ** Proofs *)
Definition start (t : mtype) : physical := mkPhysical t [] [] 0%Qc [] [] [].
Lemma by_hand_ok t xs p : by_hand t xs = Ok p -> exists mt, t = MtStr (match mt with Ising => "ising" | Qubo => "qubo" end) /\ p = fold_left perform xs (start mt).
Proof.
  unfold by_hand, physical_model. destruct t as [s|]; [|discriminate]. cbn [check_mtype].
  destruct (String.eqb_spec s "ising") as [->|]; cbn [rbind]; [intros H; injection H as <-; exists Ising; auto|].
  destruct (String.eqb_spec s "qubo") as [->|]; cbn [rbind]; [intros H; injection H as <-; exists Qubo; auto|discriminate].
Qed.
Lemma frame_run xs : forall p, let q := fold_left perform xs p in
  p_mtype q = p_mtype p /\ p_offset q = p_offset p /\ p_l2i q = p_l2i p /\ p_i2l q = p_i2l p /\ p_varset q = p_varset p.
Proof.
  induction xs as [|x xs IH]; intros p; cbn [fold_left]; [cbv zeta; auto 10|]. cbv zeta in *. destruct (IH (perform p x)) as (A & B & C & D & E).
  rewrite A, B, C, D, E. destruct x; cbn; auto 10.
Qed.
Lemma linear_run xs : forall p l c, dget l (p_linear (fold_left perform xs p)) = Some c <->
  last_linear l c xs \/ ((forall d, ~ In (AddLinear l d) xs) /\ dget l (p_linear p) = Some c).
Proof.
  induction xs as [|x xs IH]; intros p l c; cbn [fold_left].
  - split; [intros H; right; auto|]. intros [(b & a & H & _)|[_ H]]; [destruct b; discriminate|exact H].
  - rewrite IH. clear IH. split.
    + intros [(b & a & -> & H)|[HN H]].
      * left. exists (x :: b), a. auto.
      * destruct x as [l' c'|a' b' c']; cbn [perform phys_add_linear phys_add_quad p_linear] in H.
        -- destruct (string_dec l l') as [<-|NE].
           ++ rewrite dget_dset_same in H. injection H as <-. left. exists [], xs. auto.
           ++ rewrite dget_dset_other in H by auto. right. split; auto. intros d [HI|HI]; [congruence|exact (HN d HI)].
        -- right. split; auto. intros d [HI|HI]; [discriminate|exact (HN d HI)].
    + intros [(b & a & HE & H)|[HN H]].
      * destruct b as [|y b]; cbn [app] in HE; injection HE as -> ->.
        -- right. split; auto. cbn. apply dget_dset_same.
        -- left. exists b, a. auto.
      * right. split; [intros d HI; apply (HN d); right; exact HI|]. destruct x as [l' c'|a' b' c']; cbn; auto.
        rewrite dget_dset_other; auto. intros ->. apply (HN c'). left. reflexivity.
Qed.
Lemma quad_run xs : forall p u v c, dget (u, v) (p_quad (fold_left perform xs p)) = Some c <->
  last_quad u v c xs \/ ((forall d, ~ In (AddQuad u v d) xs) /\ dget (u, v) (p_quad p) = Some c).
Proof.
  induction xs as [|x xs IH]; intros p u v c; cbn [fold_left].
  - split; [intros H; right; auto|]. intros [(b & a & H & _)|[_ H]]; [destruct b; discriminate|exact H].
  - rewrite IH. clear IH. split.
    + intros [(b & a & -> & H)|[HN H]].
      * left. exists (x :: b), a. auto.
      * destruct x as [l' c'|a' b' c']; cbn [perform phys_add_linear phys_add_quad p_quad] in H.
        -- right. split; auto. intros d [HI|HI]; [discriminate|exact (HN d HI)].
        -- destruct (string_dec u a') as [<-|NE]; [destruct (string_dec v b') as [<-|NE]|].
           ++ rewrite dget_dset_same in H. injection H as <-. left. exists [], xs. auto.
           ++ rewrite dget_dset_other in H by congruence. right. split; auto. intros d [HI|HI]; [congruence|exact (HN d HI)].
           ++ rewrite dget_dset_other in H by congruence. right. split; auto. intros d [HI|HI]; [congruence|exact (HN d HI)].
    + intros [(b & a & HE & H)|[HN H]].
      * destruct b as [|y b]; cbn [app] in HE; injection HE as -> ->.
        -- right. split; auto. cbn. apply dget_dset_same.
        -- left. exists b, a. auto.
      * right. split; [intros d HI; apply (HN d); right; exact HI|]. destruct x as [l' c'|a' b' c']; cbn; auto.
        rewrite dget_dset_other; auto. intros E. injection E as -> ->. apply (HN c'). left. reflexivity.
Qed.
Lemma keys_run xs : forall p, NoDup (dkeys (p_linear p)) -> NoDup (dkeys (p_quad p)) ->
  NoDup (dkeys (p_linear (fold_left perform xs p))) /\ NoDup (dkeys (p_quad (fold_left perform xs p))).
Proof.
  induction xs as [|x xs IH]; intros p H1 H2; cbn [fold_left]; auto. apply IH; destruct x; cbn; auto; apply dset_nodup; auto.
Qed.

(** ** C154 *)

(** The entries are those given last, the type the one asked for, the offset 0, and
    there is no index of labels. *)
Theorem C154_entries : forall t xs p, by_hand t xs = Ok p ->
  (forall l c, dget l (p_linear p) = Some c <-> last_linear l c xs) /\
  (forall a b c, dget (a, b) (p_quad p) = Some c <-> last_quad a b c xs) /\
  NoDup (dkeys (p_linear p)) /\ NoDup (dkeys (p_quad p)) /\
  t = MtStr (match p_mtype p with Ising => "ising" | Qubo => "qubo" end) /\ p_offset p = 0%Qc /\ p_l2i p = [] /\ p_i2l p = [].
Proof.
  intros t xs p E. destruct (by_hand_ok _ _ _ E) as (mt & -> & ->). destruct (frame_run xs (start mt)) as (A & B & C & D & _).
  destruct (keys_run xs (start mt)) as [K1 K2]; [constructor|constructor|].
  split; [intros l c; rewrite linear_run; split; [intros [H|[_ H]]; [exact H|discriminate]|auto]|].
  split; [intros a b c; rewrite quad_run; split; [intros [H|[_ H]]; [exact H|discriminate]|auto]|].
  split; [exact K1|]. split; [exact K2|]. rewrite A. auto.
Qed.

(** The energy: a call replaces what the last call about the same entry gave. *)
Theorem C154_energy : forall t xs p, by_hand t xs = Ok p ->
  (xs = [] -> forall s, energy_physical s p = 0%Qc) /\
  (forall x, exists p', by_hand t (xs ++ [x]) = Ok p' /\
     ((forall y, In y xs -> ~ same_entry x y) -> forall s, energy_physical s p' = (energy_physical s p + part s x)%Qc) /\
     (forall before y after, xs = before ++ y :: after -> same_entry x y -> (forall z, In z after -> ~ same_entry x z) ->
        forall s, energy_physical s p' = (energy_physical s p - part s y + part s x)%Qc)).
Proof.
  intros t xs p E. split.
  { intros -> s. destruct (by_hand_ok _ _ _ E) as (mt & -> & ->). rewrite energy_physical_dsum. cbn. unfold dsum. cbn. ring. }
  intros x. exists (perform p x).
  assert (E' : by_hand t (xs ++ [x]) = Ok (perform p x)).
  { revert E. unfold by_hand. destruct (physical_model t) as [p0|]; [|discriminate]. cbn [rbind]. intros H. injection H as <-. rewrite fold_left_app. reflexivity. }
  split; [exact E'|]. destruct (C154_entries _ _ _ E) as (HL & HQ & K1 & K2 & _).
  split.
  - intros HN s. rewrite !energy_physical_dsum. destruct x as [l c|a b c]; cbn [perform phys_add_linear phys_add_quad p_linear p_quad p_offset part]; rewrite dsum_dset.
    + destruct (dget l (p_linear p)) as [d|] eqn:ED; [|ring]. exfalso. apply HL in ED. destruct ED as (bf & af & -> & _).
      apply (HN (AddLinear l d)); [apply in_or_app; right; left; reflexivity|reflexivity].
    + destruct (dget (a, b) (p_quad p)) as [d|] eqn:ED; [|cbn [fst snd]; ring]. exfalso. apply HQ in ED. destruct ED as (bf & af & -> & _).
      apply (HN (AddQuad a b d)); [apply in_or_app; right; left; reflexivity|split; reflexivity].
  - intros bf y af HX HS HN s. rewrite !energy_physical_dsum. destruct x as [l c|a b c]; destruct y as [l' d|a' b' d]; cbn [same_entry] in HS; try contradiction.
    + subst l'. cbn [perform phys_add_linear p_linear p_quad p_offset part]. rewrite dsum_dset.
      assert (ED : dget l (p_linear p) = Some d); [|rewrite ED; ring].
      apply HL. exists bf, af. split; [exact HX|]. intros z HI. exact (HN _ HI eq_refl).
    + destruct HS as [<- <-]. cbn [perform phys_add_quad p_linear p_quad p_offset part]. rewrite dsum_dset.
      assert (ED : dget (a, b) (p_quad p) = Some d); [|rewrite ED; cbn [fst snd]; ring].
      apply HQ. exists bf, af. split; [exact HX|]. intros z HI. exact (HN _ HI (conj eq_refl eq_refl)).
Qed.

(** Such a model can be handed to dimod, but has no polynomial, and SawatabiSolver
    refuses it (once its other arguments are all right) with KeyError: labels get
    their indices in LogicalModel.to_physical only. *)
Theorem C154_unsolvable : forall t xs p, by_hand t xs = Ok p -> xs <> [] -> (forall l c, ~ In (AddQuad l l c) xs) ->
  (exists b, to_bqm (- (1))%Qc p = Ok b /\ forall s, energy_bqm s b = energy_physical s p) /\
  to_polynomial p = Err KeyError /\
  (forall w o, ~ bad_args p o -> (forall z, o_seed o = Some z -> (0 <= z)%Z) -> snd (solve w (Some p) o) = Err KeyError).
Proof.
  intros t xs p E NE NL. destruct (C154_entries _ _ _ E) as (HL & HQ & K1 & K2 & _ & _ & HI & _).
  assert (HB : forall sg, exists b, to_bqm sg p = Ok b).
  { intros sg. apply C37_succeeds_iff. intros l H. apply (proj2 (dget_some_in _ _)) in H. destruct H as [c H]. apply HQ in H. destruct H as (bf & af & -> & _).
    apply (NL l c). apply in_or_app. right. left. reflexivity. }
  assert (HO : exists l, occurs p l).
  { destruct (exists_last NE) as (ys & y & ->). destruct y as [l c|a b c].
    - exists l. left. apply (proj1 (dget_some_in _ _)). exists c. apply HL. exists ys, []. auto.
    - exists a. right. exists a, b. split; [|auto]. apply (proj1 (dget_some_in _ _)). exists c. apply HQ. exists ys, []. auto. }
  destruct HO as [l HO]. split; [|split].
  - destruct (HB (- (1))%Qc) as [b Eb]. exists b. split; [exact Eb|]. apply (C37_to_bqm _ _ Eb).
  - apply C38_succeeds_iff. exists l. split; [exact HO|]. unfold indexed. rewrite HI. intros [i H]. discriminate.
  - intros w o NB SD. unfold solve.
    assert (EC : exists u, check_args p o = Ok u).
    { unfold check_args. unfold bad_args in NB.
      destruct (Nat.eqb (length (p_linear p)) 0 && Nat.eqb (length (p_quad p)) 0) eqn:E1.
      { exfalso. apply NB. left. apply andb_true_iff in E1. rewrite !Nat.eqb_eq in E1. destruct (p_linear p), (p_quad p); cbn in E1; destruct E1; try discriminate. auto. }
      destruct (has_init o && _) eqn:E2.
      { exfalso. apply NB. right; left. apply andb_true_iff in E2. destruct E2 as [A B]. apply negb_true_iff, Z.eqb_neq in B. split; [|exact B].
        unfold has_init in A. destruct (init_list o); [discriminate|discriminate]. }
      destruct (negb (String.eqb (o_pickup o) "random" || String.eqb (o_pickup o) "sequential")) eqn:E3.
      { exfalso. apply NB. do 2 right; left. apply negb_true_iff, orb_false_iff in E3. rewrite !String.eqb_neq in E3. exact E3. }
      unfold check_reverse. destruct (o_reverse o) as [|d|[]] eqn:ER; cbn [rev_truthy]; eauto.
      - destruct d as [|kv d]; cbn [length Nat.eqb negb]; eauto. unfold dmem.
        destruct (dget "reverse_period" (kv :: d)) eqn:D1; cbn [negb]; [destruct (dget "reverse_temperature" (kv :: d)) eqn:D2; cbn [negb]; eauto|];
        exfalso; apply NB; do 3 right; left; exists (kv :: d); (split; [reflexivity|]); (split; [discriminate|auto]).
      - exfalso. apply NB. do 4 right. reflexivity. }
    destruct EC as [u EC]. rewrite EC.
    assert (EP : exists g, pick_rng w (o_seed o) = Ok g).
    { unfold pick_rng. destruct (o_seed o) as [z|]; eauto. destruct (Z.eqb z 0); eauto. specialize (SD z eq_refl). destruct (Z.ltb_spec z 0); [lia|eauto]. }
    destruct EP as [g EP]. rewrite EP. destruct (HB 1%Qc) as [b Eb]. rewrite Eb. cbn [snd].
    assert (HV : In l (bqm_variables b)).
    { destruct (to_bqm_spec _ _ _ Eb) as (_ & _ & HV & _). apply HV. exact HO. }
    assert (HF : forall d arr, d <> [] -> fill_linear p d arr = Err KeyError).
    { intros [|[k c] d] arr H; [contradiction|]. cbn [fill_linear]. unfold l2i. rewrite HI. reflexivity. }
    rewrite HF; [reflexivity|]. unfold bqm_to_spin. unfold bqm_variables in HV. destruct (b_spin b); cbn [b_linear]; intros H; destruct (b_linear b); try discriminate; destruct HV.
Qed.
(** Non-vacuity. *)
Example C154_hyps : exists p, by_hand (MtStr "qubo") [AddLinear "a" (qz 2); AddQuad "a" "b" (qz 3); AddLinear "a" (qz 5); AddQuad "b" "a" (qz 1)] = Ok p /\
  dget "a" (p_linear p) = Some (qz 5) /\ dget ("a", "b") (p_quad p) = Some (qz 3) /\
  ~ bad_args p (mkOptions 1 1 (qfrac 1 2) (qz 10) None RNone "random" None).
Proof.
  eexists. split; [reflexivity|]. split; [reflexivity|]. split; [reflexivity|].
  intros [[H _]|[[H _]|[[H _]|[(d & H & H2 & _)|H]]]]; cbn in *; try congruence; try (now apply H).
Qed.

(** ** C38: the order of the polynomial *)

(** The linear terms come first, then the quadratic ones, in the order of the dictionaries;
    each says which labels it is about. *)
Definition lists (p : physical) (e : (string * string) * Qc) (t : term) : Prop :=
  dget (fst (fst e)) (p_l2i p) = Some (fst (fst t)) /\ dget (snd (fst e)) (p_l2i p) = Some (snd (fst t)) /\ snd t = (- snd e)%Qc.
Theorem C38_order : forall p t, to_polynomial p = Ok t ->
  Forall2 (lists p) (map (fun kv => ((fst kv, fst kv), snd kv)) (p_linear p) ++ p_quad p) t.
Proof.
  intros p t E. unfold to_polynomial in E. destruct (poly_linear p (p_linear p)) as [a|] eqn:EA; [|discriminate].
  destruct (poly_quad p (p_quad p)) as [b|] eqn:EB; [|discriminate]. cbn [rbind] in E. injection E as <-. apply Forall2_app.
  - clear EB. revert a EA. induction (p_linear p) as [|[k v] d IH]; intros a E; cbn [poly_linear] in E; [injection E as <-; constructor|].
    unfold l2i in E at 1. destruct (dget k (p_l2i p)) as [i|] eqn:EI; [|discriminate]. cbn [rbind] in E.
    destruct (poly_linear p d) as [r|] eqn:ER; [|discriminate]. cbn [rbind] in E. injection E as <-. cbn [map]. constructor; [|apply IH; reflexivity].
    unfold lists. cbn [fst snd]. split; [exact EI|]. split; [exact EI|]. ring.
  - clear EA. revert b EB. induction (p_quad p) as [|[[k0 k1] v] d IH]; intros b E; cbn [poly_quad] in E; [injection E as <-; constructor|].
    unfold l2i in E at 1. destruct (dget k0 (p_l2i p)) as [i|] eqn:EI; [|discriminate]. cbn [rbind] in E.
    unfold l2i in E at 1. destruct (dget k1 (p_l2i p)) as [j|] eqn:EJ; [|discriminate]. cbn [rbind] in E.
    destruct (poly_quad p d) as [r|] eqn:ER; [|discriminate]. cbn [rbind] in E. injection E as <-. constructor; [|apply IH; reflexivity].
    unfold lists. cbn [fst snd]. split; [exact EI|]. split; [exact EJ|]. ring.
Qed.

(** ** C76: a sequence of one element *)

(** elementwise_max and elementwise_min repeat it. *)
Definition larger (a b m : Qc) : Prop := (a <= m /\ b <= m /\ (m = a \/ m = b))%Qc.
Definition smaller (a b m : Qc) : Prop := (m <= a /\ m <= b /\ (m = a \/ m = b))%Qc.
Theorem C76_single : forall (a : Qc) (y : list Qc),
  exists u v, elementwise_max (ListV [a]) (ListV y) = Ok (ListV u) /\ elementwise_max (ListV y) (ListV [a]) = Ok (ListV u) /\
    elementwise_max (TupleV [a]) (TupleV y) = Ok (TupleV u) /\ elementwise_max (TupleV y) (TupleV [a]) = Ok (TupleV u) /\
    elementwise_min (ListV [a]) (ListV y) = Ok (ListV v) /\ elementwise_min (ListV y) (ListV [a]) = Ok (ListV v) /\
    elementwise_min (TupleV [a]) (TupleV y) = Ok (TupleV v) /\ elementwise_min (TupleV y) (TupleV [a]) = Ok (TupleV v) /\
    Forall2 (larger a) y u /\ Forall2 (smaller a) y v.
Proof.
  intros a y.
  assert (HM : forall b, larger a b (qmax a b)) by (intros b; destruct (qmax_spec a b) as (? & ? & ?); split; auto).
  assert (Hm : forall b, smaller a b (qmin a b)) by (intros b; destruct (qmin_spec a b) as (? & ? & ?); split; auto).
  assert (HC : forall b, qmax b a = qmax a b).
  { intros b. destruct (qmax_spec a b) as (P1 & P2 & P3), (qmax_spec b a) as (Q1 & Q2 & Q3). apply Qcle_antisym; [destruct Q3 as [-> | ->]|destruct P3 as [-> | ->]]; auto. }
  assert (Hc : forall b, qmin b a = qmin a b).
  { intros b. destruct (qmin_spec a b) as (P1 & P2 & P3), (qmin_spec b a) as (Q1 & Q2 & Q3). apply Qcle_antisym; [destruct P3 as [-> | ->]|destruct Q3 as [-> | ->]]; auto. }
  assert (HX : forall op, (forall b, op b a = op a b) -> broadcast op [a] y = Ok (map (op a) y) /\ broadcast op y [a] = Ok (map (op a) y)).
  { intros op HO. unfold broadcast. destruct y as [|b [|b' y]].
    - split; reflexivity.
    - cbn. rewrite HO. split; reflexivity.
    - cbn [length Nat.eqb]. split; [reflexivity|]. f_equal. apply map_ext. auto. }
  exists (map (qmax a) y), (map (qmin a) y). destruct (HX qmax HC) as [A B], (HX qmin Hc) as [C D].
  unfold elementwise_max, elementwise_min, on_sequences. rewrite A, B, C, D. cbn [rbind].
  do 8 (split; [reflexivity|]). split.
  - clear - HM. induction y as [|b y IH]; cbn [map]; constructor; auto.
  - clear - Hm. induction y as [|b y IH]; cbn [map]; constructor; auto.
Qed.
Print Assumptions C154_entries.
Print Assumptions C154_energy.
Print Assumptions C154_unsolvable.
Print Assumptions C38_order.
Print Assumptions C76_single.
