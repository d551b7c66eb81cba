(** * PropsSampleModels: C103 and C104, the sample models written down interaction by
    interaction and what the exact solver answers. *)
From Coq Require Import Permutation.
From Verif Require Import PyBase PyLemmas Numbers Constraint LogicalModel Spec LogicalProofs EnergyProofs ConvertProofs ConstraintProofs MergeProofs
  PhysicalProofs ToPhysicalProofs PropsPhysical PropsInteractions PropsState Samples Solver SolverSpec SolverProofs Services PropsSolver PropsSolvers
  NppStream PropsNppStream SampleModels PropsEntered.
Local Open Scope string_scope.
Local Open Scope list_scope.

(** ** Specification *)

(** The variables x[0], ..., x[N-1] and nothing else. *)
Definition the_x (N : nat) (l : string) : Prop := exists i, i < N /\ l = "x[" +++ str_of_nat i +++ "]".
(** The value of x[i] in a sample, and the number of variables with value 1. *)
Definition x_value (s : dict string Z) (i : nat) : option Z := dget ("x[" +++ str_of_nat i +++ "]") s.
Definition ones (s : dict string Z) : nat := length (filter (Z.eqb 1) (dvals s)).
(** No answer has a lower energy. *)
Definition best (e : Qc) (rows : list srow) : Prop := forall s' e' c', In (s', e', c') rows -> (e <= e')%Qc.
(** The program builds a model, it can be converted, and the exact solver answers with
    every assignment of the N variables. *)
Definition solved (prog : LM unit) (t : mtype) (N : nat) (ev : env) (evs : nat -> env) (fd : feed) (neal : sampler) (rows : list srow) : Prop :=
  exists m1 m2 p, prog (new_model t) = (m1, Ok tt) /\ to_physical ev evs fd m1 = (m2, Ok p) /\ local_solve true neal (Some p) = Ok rows /\
    NoDup (map (fun r : srow => fst (fst r)) rows) /\
    (forall s e c, In (s, e, c) rows -> NoDup (dkeys s) /\ (forall l, In l (dkeys s) <-> the_x N l) /\ Forall (legal t) (dvals s)) /\
    (forall f : nat -> Z, (forall i, i < N -> legal t (f i)) -> exists s e c, In (s, e, c) rows /\ forall i, i < N -> x_value s i = Some (f i)).

(** ** Sums *)
Definition zsum (l : list Z) : Z := fold_right Z.add 0%Z l.
Lemma zsum_app a b : zsum (a ++ b) = (zsum a + zsum b)%Z.
Proof. unfold zsum. induction a as [|x a IH]; cbn; auto. rewrite IH. ring. Qed.
Lemma zsum_perm a b : Permutation a b -> zsum a = zsum b.
Proof. unfold zsum. induction 1; cbn in *; lia. Qed.
Lemma qsum_zsum {A} (f : A -> Qc) (g : A -> Z) l : (forall x, In x l -> f x = qz (g x)) -> qsum (map f l) = qz (zsum (map g l)).
Proof.
  assert (EC : forall c l, qsum (c :: l) = (c + qsum l)%Qc) by reflexivity.
  induction l as [|x l IH]; intros H; [symmetry; apply qz_0|]. cbn [map]. rewrite EC, IH, H; [|now left | intros; apply H; now right].
  symmetry. apply qz_add.
Qed.
Lemma zsum_scale {A} k (g : A -> Z) l : zsum (map (fun x => k * g x)%Z l) = (k * zsum (map g l))%Z.
Proof. induction l as [|x l IH]; cbn; [ring|]. fold (zsum (map (fun x => k * g x)%Z l)). rewrite IH. fold (zsum (map g l)). ring. Qed.
Lemma zsum_ext {A} (f g : A -> Z) l : (forall x, In x l -> f x = g x) -> zsum (map f l) = zsum (map g l).
Proof. intros H. f_equal. now apply map_ext_in. Qed.
Lemma square_sum {A} (z : A -> Z) l :
  (2 * zsum (map (fun p => z (fst p) * z (snd p)) (lt_pairs l)) = zsum (map z l) * zsum (map z l) - zsum (map (fun x => z x * z x) l))%Z.
Proof.
  induction l as [|x l IH]; [reflexivity|]. cbn [lt_pairs]. rewrite map_app, zsum_app, map_map. cbn [fst snd]. rewrite zsum_scale. cbn [map].
  assert (EC : forall c l, zsum (c :: l) = (c + zsum l)%Z) by reflexivity. rewrite !EC. lia.
Qed.
Lemma lt_pairs_in {A} (l : list A) a b : In (a, b) (lt_pairs l) -> In a l /\ In b l.
Proof.
  induction l as [|x l IH]; [intros []|]. cbn [lt_pairs]. rewrite in_app_iff. intros [H|H].
  - apply in_map_iff in H as (y & E & H). injection E as <- <-. split; [now left | now right].
  - apply IH in H as [H1 H2]. split; now right.
Qed.
Lemma lt_pairs_seq n : forall k a b, In (a, b) (lt_pairs (seq k n)) <-> k <= a < b /\ b < k + n.
Proof.
  induction n as [|n IH]; intros k a b; cbn [seq lt_pairs]; [cbn; lia|]. rewrite in_app_iff, in_map_iff, IH. split.
  - intros [(y & E & H)|H]; [injection E as <- <-; apply in_seq in H; lia | lia].
  - intros H. destruct (Nat.eq_dec a k) as [->|N]; [left|right; lia]. exists b. split; auto. apply in_seq. lia.
Qed.

(** ** From the program to its terms *)
Definition tv (t : mtype) (i : nat) : var := mkVar (lab i) (vt_of t).
Definition has_x (t : mtype) (x : array) (N : nat) : Prop := forall i, i < N -> array_get x [i] = Ok (tv t i).
Lemma mfor_same {S A B} (f : A -> M S unit) (g : B -> M S unit) (h : A -> B) l : forall m,
  (forall x m, In x l -> f x m = g (h x) m) -> mfor l f m = mfor (map h l) g m.
Proof.
  induction l as [|x l IH]; intros m H; auto. cbn [mfor map]. unfold bind. rewrite H by now left. destruct (g (h x) m) as [m1 [u|e]]; auto.
  apply IH. intros; apply H; now right.
Qed.
Lemma mfor_app {S A} (f : A -> M S unit) l1 l2 : forall m, mfor (l1 ++ l2) f m = (mfor l1 f ;;; mfor l2 f) m.
Proof.
  induction l1 as [|x l1 IH]; intros m; [reflexivity|]. cbn [app mfor]. unfold bind in *. destruct (f x m) as [m1 [u|e]]; auto.
Qed.
Lemma put_lin_term clock t x N i c m : has_x t x N -> i < N -> put_lin clock x [i] c m = add_term clock (term_target (Lin (tv t i) c)) (coefficient (Lin (tv t i) c)) m.
Proof. intros H Hi. unfold put_lin, bind. rewrite (H _ Hi). reflexivity. Qed.
Lemma put_quad_term clock t x N i j c m : has_x t x N -> i < N -> j < N ->
  put_quad clock x [i] [j] c m = add_term clock (term_target (Quad (tv t i) (tv t j) c)) (coefficient (Quad (tv t i) (tv t j) c)) m.
Proof. intros H Hi Hj. unfold put_quad, bind. rewrite (H _ Hi). cbn [lift]. rewrite (H _ Hj). reflexivity. Qed.
Lemma declare_x t N : 0 < N -> exists a, declare "x" [Z.of_nat N] (new_model t) = (with_vars [("x", a)] (new_model t), Ok a) /\ has_x t a N.
Proof.
  intros HN. destruct (array_create_ok "x" [Z.of_nat N] (vt_of t)) as [a C]; [reflexivity | discriminate | constructor; [lia|constructor] |].
  exists a. split.
  - unfold declare, bind. cbn [variables map check_shape sh_ints]. cbn [m_mtype new_model]. rewrite C. reflexivity.
  - intros i Hi. erewrite array_get_create; [|exact C|constructor; [lia|constructor]]. reflexivity.
Qed.

(** ** From the terms to the answers *)
Lemma zval_of s i : value_of s (lab i) = qz (match x_value s i with Some z => z | None => 0%Z end).
Proof. unfold value_of, x_value. fold (lab i). now destruct (dget (lab i) s). Qed.
Lemma the_x_lab N l : the_x N l <-> In l (map lab (seq 0 N)).
Proof.
  rewrite in_map_iff. split.
  - intros (i & Hi & ->). exists i. split; auto. apply in_seq. lia.
  - intros (i & <- & H). exists i. apply in_seq in H. split; [lia|reflexivity].
Qed.
Lemma nodup_labs k n : NoDup (map lab (seq k n)).
Proof. apply FinFun.Injective_map_NoDup; [intros a b; apply lab_inj | apply seq_NoDup]. Qed.
Definition zv (s : dict string Z) (i : nat) : Z := match x_value s i with Some z => z | None => 0%Z end.
Lemma dvals_keys (s : dict string Z) : NoDup (dkeys s) -> dvals s = map (fun l => match dget l s with Some z => z | None => 0%Z end) (dkeys s).
Proof.
  intros N. unfold dvals, dkeys. rewrite map_map. apply map_ext_in. intros [k v] HI. cbn [fst snd].
  assert (E : dget k s = Some v) by (now apply in_dget). rewrite E. auto.
Qed.
Lemma vals_perm s N : NoDup (dkeys s) -> (forall l, In l (dkeys s) <-> the_x N l) -> Permutation (dvals s) (map (zv s) (seq 0 N)).
Proof.
  intros ND HK. rewrite (dvals_keys s ND).
  assert (P : Permutation (dkeys s) (map lab (seq 0 N))).
  { apply NoDup_Permutation; auto; [apply nodup_labs|]. intros l. rewrite HK. apply the_x_lab. }
  rewrite (Permutation_map _ P), map_map. apply Permutation_refl.
Qed.

(** Everything about a program that enters the terms [l] of the variables x. *)
Lemma enter_solved clock (body : array -> LM unit) t N l ev evs fd neal :
  0 < N -> (forall a, has_x t a N -> forall m, body a m = enter clock l m) ->
  Forall plain l -> Forall no_square l -> all_different l -> (forall a, mentioned l a <-> the_x N a) ->
  exists rows, solved (x <- declare "x" [Z.of_nat N] ;; body x) t N ev evs fd neal rows /\
    forall s e c, In (s, e, c) rows -> e = (- polynomial (value_of s) l)%Qc.
Proof.
  intros HN HB PL NS AD MX. destruct (declare_x t N HN) as (a & ED & HX).
  set (m0 := with_vars [("x", a)] (new_model t)) in *.
  assert (AL : aligned m0) by (repeat split; constructor).
  destruct (proj2 (C102_accepted clock l m0 AL eq_refl PL) (conj NS AD)) as [m1 E1].
  destruct (C102_answers clock l m0 m1 0%Qc ev evs fd neal AL eq_refl eq_refl eq_refl E1) as (m2 & p & rows & EP & ER & N1 & H1 & H2).
  { exists (lab 0). apply MX. exists 0. auto. }
  exists rows. split.
  - exists m1, m2, p. split; [unfold bind at 1; rewrite ED, (HB a HX); exact E1|]. split; auto. split; auto. split; auto. split.
    + intros s e c HI. destruct (H1 _ _ _ HI) as (_ & _ & K1 & K2 & K3). split; auto. split; auto. intros x. rewrite K2. apply MX.
    + intros f Hf.
      (* an assignment with these values *)
      assert (exists g : assignment, forall i, i < N -> g (lab i) = qz (f i)) as [g Hg].
      { clear. induction N as [|N [g IH]]; [exists (fun _ => 0%Qc); lia|].
        exists (fun x => if string_dec x (lab N) then qz (f N) else g x). intros i Hi. destruct (string_dec (lab i) (lab N)) as [E|D].
        - apply lab_inj in E. now subst.
        - apply IH. assert (i <> N) by congruence. lia. }
      destruct (H2 g) as (s & e & c & HI & HV).
      { intros x Hx. apply MX in Hx as (i & Hi & ->). exists (f i). split; [apply Hf, Hi | apply Hg, Hi]. }
      exists s, e, c. split; auto. intros i Hi. assert (HM : mentioned l (lab i)) by (apply MX; exists i; auto).
      specialize (HV _ HM). destruct (H1 _ _ _ HI) as (_ & _ & _ & K2 & _). apply K2 in HM. apply dget_some_in in HM as [z Ez].
      unfold x_value. fold (lab i). rewrite Ez. f_equal. unfold value_of in HV. rewrite Ez, Hg in HV by auto. now apply qz_inj.
  - intros s e c HI. destruct (H1 _ _ _ HI) as (-> & _). ring.
Qed.

(** ** Terms of the variables x *)
Definition xq (t : mtype) (c : Qc) (p : nat * nat) : term := Quad (tv t (fst p)) (tv t (snd p)) c.
Definition xl (t : mtype) (c : Qc) (i : nat) : term := Lin (tv t i) c.
Lemma xq_name t c p : term_name (xq t c p) = pname (fst p) (snd p).
Proof. reflexivity. Qed.
Lemma xl_name t c i : term_name (xl t c i) = lab i.
Proof. reflexivity. Qed.
Lemma nodup_map_in {A B} (f : A -> B) l : (forall x y, In x l -> In y l -> f x = f y -> x = y) -> NoDup l -> NoDup (map f l).
Proof.
  induction l as [|x l IH]; intros H N; cbn [map]; constructor; inversion N; subst.
  - intros C. apply in_map_iff in C as (y & E & HY). assert (y = x) by (apply H; auto; [now right | now left]). congruence.
  - apply IH; auto. intros; apply H; auto; now right.
Qed.
Lemma pname_lab i j k : pname i j <> lab k.
Proof.
  intros E. assert (C : has_char "*"%char (pname i j) = true).
  { unfold pname. destruct (String.ltb _ _); rewrite !has_char_app; cbn; now rewrite orb_true_r. }
  rewrite E, lab_star in C. discriminate.
Qed.
(** The pairs are of an ascending order, the linear terms come after them. *)
Lemma x_terms t c1 c2 ps is : NoDup ps -> (forall a b, In (a, b) ps -> a < b) -> NoDup is ->
  let l := map (xq t c1) ps ++ map (xl t c2) is in
  Forall plain l /\ Forall no_square l /\ all_different l.
Proof.
  intros NP LT NI l.
  assert (P : Forall plain l).
  { unfold l. rewrite Forall_forall. intros x HX. apply in_app_iff in HX as [HX|HX]; apply in_map_iff in HX as (y & <- & _); repeat constructor; apply lab_star. }
  assert (S : Forall no_square l).
  { unfold l. rewrite Forall_forall. intros x HX. apply in_app_iff in HX as [HX|HX]; apply in_map_iff in HX as (y & <- & HY).
    - destruct y as [a b]. apply LT in HY. constructor; [|constructor; [intros []|constructor]]. intros [C|[]]. apply lab_inj in C. cbn in C. lia.
    - constructor; [intros []|constructor]. }
  split; auto. split; auto. apply different_names; auto. unfold l. rewrite map_app, !map_map.
  apply NoDup_app_iff; split; [|split].
  - apply nodup_map_in; auto. intros [a b] [c d] H1 H2 E. cbn [fst snd] in E. change (pname a b = pname c d) in E. apply pname_inj in E. apply LT in H1, H2. destruct E as [[-> ->]|[-> ->]]; auto. lia.
  - apply nodup_map_in; auto. intros a b _ _ E. now apply lab_inj.
  - intros n H1 H2. apply in_map_iff in H1 as ([a b] & <- & _). apply in_map_iff in H2 as (i & E & _). symmetry in E. apply (pname_lab a b i). exact E.
Qed.
Lemma lt_pairs_nodup n : forall k, NoDup (lt_pairs (seq k n)).
Proof.
  induction n as [|n IH]; intros k; cbn [seq lt_pairs]; [constructor|]. apply NoDup_app_iff; split; [|split; [apply IH|]].
  - apply FinFun.Injective_map_NoDup; [intros a b E; congruence | apply seq_NoDup].
  - intros [a b] H1 H2. apply in_map_iff in H1 as (y & E & _). injection E as <- <-. apply lt_pairs_seq in H2. lia.
Qed.
Lemma poly_xq t c k ps s : c = qz k -> polynomial (value_of s) (map (xq t c) ps) = qz (k * zsum (map (fun p => zv s (fst p) * zv s (snd p))%Z ps)).
Proof.
  intros ->. unfold polynomial. rewrite map_map. rewrite <- zsum_scale. apply qsum_zsum. intros [a b] _. cbn [xq term_value fst snd v_label tv].
  rewrite !zval_of, <- !qz_mul. reflexivity.
Qed.
Lemma poly_xl t c k is s : c = qz k -> polynomial (value_of s) (map (xl t c) is) = qz (k * zsum (map (zv s) is)).
Proof.
  intros ->. unfold polynomial. rewrite map_map. rewrite <- zsum_scale. apply qsum_zsum. intros a _. cbn [xl term_value v_label tv].
  rewrite !zval_of, <- !qz_mul. reflexivity.
Qed.
Lemma poly_app s a b : polynomial s (a ++ b) = (polynomial s a + polynomial s b)%Qc.
Proof. unfold polynomial. now rewrite map_app, qsum_app. Qed.

(** The sum of the values, and of their squares. *)
Lemma sum_ones t l : Forall (legal t) l ->
  zsum l = (match t with Qubo => Z.of_nat (length (filter (Z.eqb 1) l)) | Ising => 2 * Z.of_nat (length (filter (Z.eqb 1) l)) - Z.of_nat (length l) end)%Z /\
  zsum (map (fun z => z * z)%Z l) = (match t with Qubo => zsum l | Ising => Z.of_nat (length l) end)%Z.
Proof.
  assert (EC : forall c l, zsum (c :: l) = (c + zsum l)%Z) by reflexivity.
  induction 1 as [|z l HZ HL IH]; [destruct t; split; reflexivity|]. cbn [map]. rewrite !EC.
  destruct t, HZ as [-> | ->]; cbn [filter Z.eqb Pos.eqb]; cbn [length] in *; destruct IH as [IH1 IH2]; lia.
Qed.
Lemma filter_length_perm {A} (f : A -> bool) a b : Permutation a b -> length (filter f a) = length (filter f b).
Proof. induction 1; cbn; auto; try (destruct (f x); cbn; congruence); try (destruct (f x), (f y); reflexivity). congruence. Qed.
Lemma filter_length_le' {A} (f : A -> bool) a : length (filter f a) <= length a.
Proof. induction a as [|x a IH]; cbn; auto. destruct (f x); cbn; lia. Qed.
Lemma row_sums t N s : NoDup (dkeys s) -> (forall l, In l (dkeys s) <-> the_x N l) -> Forall (legal t) (dvals s) ->
  zsum (map (zv s) (seq 0 N)) = (match t with Qubo => Z.of_nat (ones s) | Ising => 2 * Z.of_nat (ones s) - Z.of_nat N end)%Z /\
  zsum (map (fun i => zv s i * zv s i)%Z (seq 0 N)) = (match t with Qubo => Z.of_nat (ones s) | Ising => Z.of_nat N end)%Z /\ ones s <= N.
Proof.
  intros ND HK HL. pose proof (vals_perm s N ND HK) as P. destruct (sum_ones t _ HL) as [H1 H2].
  assert (LN : length (dvals s) = N) by (rewrite (Permutation_length P), map_length, seq_length; auto).
  rewrite <- (zsum_perm _ _ P). rewrite <- (map_map (zv s) (fun z => z * z)%Z). rewrite <- (zsum_perm _ _ (Permutation_map (fun z => z * z)%Z P)).
  rewrite H2, H1. unfold ones. split; [|split]; [| |rewrite <- LN; apply filter_length_le']; destruct t; lia.
Qed.

(** ** C103 *)
Definition scratch_terms (t : mtype) (N n : nat) : list term :=
  map (xq t (- qz 2)%Qc) (lt_pairs (seq 0 N)) ++ map (xl t (- scratch_coeff t N n)%Qc) (seq 0 N).
(** The energy of an answer with k ones. *)
Definition n_hot_energy (t : mtype) (N n k : Z) : Z :=
  match t with
  | Qubo => (k - n) * (k - n) - n * n
  | Ising => 4 * ((k - n) * (k - n)) - N - (N - 2 * n) * (N - 2 * n)
  end.
Lemma scratch_coeff_z t N n : (- scratch_coeff t N n)%Qc = qz (match t with Qubo => 2 * Z.of_nat n - 1 | Ising => 2 * (2 * Z.of_nat n - Z.of_nat N) end).
Proof. destruct t; unfold scratch_coeff; rewrite ?qz_mul, ?qz_sub, ?qz_mul; change (qz 1) with 1%Qc; ring. Qed.
Lemma scratch_mentioned t N n : 0 < N -> forall a, mentioned (scratch_terms t N n) a <-> the_x N a.
Proof.
  intros HN a. split.
  - intros (x & HI & _ & HA). apply in_app_iff in HI as [HI|HI]; apply in_map_iff in HI as (y & <- & HY).
    + destruct y as [i j]. apply lt_pairs_seq in HY. destruct HA as [<-|[<-|[]]]; [exists i | exists j]; (split; [cbn; lia | reflexivity]).
    + apply in_seq in HY. destruct HA as [<-|[]]. exists y. split; [lia|reflexivity].
  - intros (i & Hi & ->). fold (lab i). destruct (Nat.eq_dec N 1) as [->|N1].
    + exists (xl t (- scratch_coeff t 1 n)%Qc i). split; [|split].
      * apply in_app_iff. right. apply in_map. apply in_seq. lia.
      * cbn [xl coefficient]. rewrite scratch_coeff_z, <- qz_0. intros C. apply qz_inj in C. destruct t; lia.
      * now left.
    + assert (exists p, In p (lt_pairs (seq 0 N)) /\ (fst p = i \/ snd p = i)) as ([a b] & HP & HE).
      { destruct i as [|i]; [exists (0, 1) | exists (0, S i)]; (split; [apply lt_pairs_seq; lia | auto]). }
      exists (xq t (- qz 2)%Qc (a, b)). split; [apply in_app_iff; left; now apply in_map|]. split; [discriminate|].
      cbn [fst snd] in HE. destruct HE as [-> | ->]; [now left | right; now left].
Qed.
Lemma scratch_body clock t N n x : has_x t x N -> forall m,
  (mfor (lt_pairs (seq 0 N)) (fun p => put_quad clock x [fst p] [snd p] (- qz 2)%Qc) ;;;
   mfor (seq 0 N) (fun i => put_lin clock x [i] (- scratch_coeff t N n)%Qc)) m = enter clock (scratch_terms t N n) m.
Proof.
  intros HX m. unfold scratch_terms, enter. rewrite mfor_app. unfold bind.
  rewrite (mfor_same _ (fun x => add_term clock (term_target x) (coefficient x)) (xq t (- qz 2)%Qc)).
  - destruct (mfor (map (xq t (- qz 2)%Qc) (lt_pairs (seq 0 N))) _ m) as [m1 [u|e]]; auto.
    apply (mfor_same _ _ (xl t (- scratch_coeff t N n)%Qc)). intros i m' Hi. apply in_seq in Hi. apply (put_lin_term clock t x N); auto. lia.
  - intros [i j] m' HI. apply lt_pairs_seq in HI. apply (put_quad_term clock t x N); cbn [fst snd]; auto; lia.
Qed.

Lemma sq_min k n N : k <= N -> let d x := (Z.of_nat x - Z.of_nat n)%Z in
  ((d k * d k <= d (Nat.min n N) * d (Nat.min n N))%Z <-> k = Nat.min n N).
Proof.
  intros HK d. split; [|intros ->; lia]. intros H. destruct (Nat.min_spec n N) as [[L X]|[L X]]; rewrite X in *; unfold d in H.
  - assert (E : (Z.of_nat k - Z.of_nat n = 0)%Z) by nia. lia.
  - destruct (Nat.eq_dec k N) as [|D]; auto. exfalso. assert (P : (0 <= Z.of_nat n - Z.of_nat N)%Z) by lia. assert (Q : (Z.of_nat n - Z.of_nat N < Z.of_nat n - Z.of_nat k)%Z) by lia. nia.
Qed.
Lemma sq_min_le k n N : k <= N -> let d x := (Z.of_nat x - Z.of_nat n)%Z in (d (Nat.min n N) * d (Nat.min n N) <= d k * d k)%Z.
Proof.
  intros HK d. destruct (Nat.min_spec n N) as [[L X]|[L X]]; rewrite X in *; unfold d.
  - rewrite Z.sub_diag. apply Z.square_nonneg.
  - assert (P : (0 <= Z.of_nat n - Z.of_nat N)%Z) by lia. assert (Q : (Z.of_nat n - Z.of_nat N <= Z.of_nat n - Z.of_nat k)%Z) by lia. nia.
Qed.
Definition low (t : mtype) : Z := match t with Qubo => 0%Z | Ising => (-1)%Z end.
Definition first_ones (t : mtype) (k i : nat) : Z := if (i <? k)%nat then 1%Z else low t.

(** For any N > 0 and any n, the model is accepted, the exact solver answers with all
    2^N assignments with the energy of the n-hot Hamiltonian, and the answers of lowest
    energy are exactly those with n ones (all N of them if n > N). *)
Theorem C103_n_hot_from_scratch : forall clock t N n ev evs fd neal, 0 < N ->
  exists rows, solved (n_hot_scratch clock t N n) t N ev evs fd neal rows /\
    forall s e c, In (s, e, c) rows ->
      e = qz (n_hot_energy t (Z.of_nat N) (Z.of_nat n) (Z.of_nat (ones s))) /\
      (best e rows <-> ones s = Nat.min n N).
Proof.
  intros clock t N n ev evs fd neal HN.
  destruct (x_terms t (- qz 2)%Qc (- scratch_coeff t N n)%Qc (lt_pairs (seq 0 N)) (seq 0 N)) as (PL & NS & AD); [apply lt_pairs_nodup | | apply seq_NoDup |].
  { intros a b H. apply lt_pairs_seq in H. lia. }
  destruct (enter_solved clock _ t N (scratch_terms t N n) ev evs fd neal HN (scratch_body clock t N n) PL NS AD (scratch_mentioned t N n HN)) as (rows & HS & HE).
  exists rows. split; [exact HS|].
  destruct HS as (m1 & m2 & p & _ & _ & _ & _ & HR & HA).
  assert (EN : forall s e c, In (s, e, c) rows -> e = qz (n_hot_energy t (Z.of_nat N) (Z.of_nat n) (Z.of_nat (ones s))) /\ ones s <= N).
  { intros s e c HI. destruct (HR _ _ _ HI) as (K1 & K2 & K3). destruct (row_sums t N s K1 K2 K3) as (S1 & S2 & S3). split; auto.
    rewrite (HE _ _ _ HI). unfold scratch_terms. rewrite poly_app, (poly_xq t _ (-2)%Z) by (rewrite <- qz_opp; reflexivity).
    rewrite (poly_xl t _ _ _ s (scratch_coeff_z t N n)), <- qz_add, <- qz_opp. f_equal.
    pose proof (square_sum (zv s) (seq 0 N)) as SQ. rewrite S1, S2 in SQ. rewrite S1. unfold n_hot_energy. destruct t; lia. }
  assert (EX : forall k, k <= N -> exists s e c, In (s, e, c) rows /\ ones s = k).
  { intros k Hk. destruct (HA (first_ones t k)) as (s & e & c & HI & HV).
    { intros i _. unfold first_ones. destruct (i <? k)%nat, t; cbn; auto. }
    exists s, e, c. split; auto. destruct (HR _ _ _ HI) as (K1 & K2 & _). unfold ones. rewrite (filter_length_perm _ _ _ (vals_perm s N K1 K2)).
    rewrite (map_ext_in (zv s) (first_ones t k)) by (intros i Hi; apply in_seq in Hi; unfold zv; rewrite HV by lia; reflexivity).
    replace N with (k + (N - k)) by lia. rewrite seq_app, map_app, filter_app, app_length. cbn [plus].
    rewrite (map_ext_in _ (fun _ => 1%Z) (seq 0 k)) by (intros i Hi; apply in_seq in Hi; unfold first_ones; destruct (Nat.ltb_spec i k); [auto|lia]).
    rewrite (map_ext_in _ (fun _ => low t) (seq k (N - k))) by (intros i Hi; apply in_seq in Hi; unfold first_ones; destruct (Nat.ltb_spec i k); [lia|auto]).
    assert (F1 : forall l : list nat, length (filter (Z.eqb 1) (map (fun _ => 1%Z) l)) = length l) by (induction l; cbn; auto).
    assert (F2 : forall l : list nat, length (filter (Z.eqb 1) (map (fun _ => low t) l)) = 0) by (induction l; cbn; auto; destruct t; cbn; auto).
    rewrite F1, F2, seq_length. lia. }
  intros s e c HI. destruct (EN _ _ _ HI) as [EE LE]. split; auto. split.
  - intros HB. destruct (EX (Nat.min n N)) as (s' & e' & c' & HI' & E'); [lia|]. specialize (HB _ _ _ HI'). destruct (EN _ _ _ HI') as [EE' _].
    rewrite EE, EE', E' in HB. apply (proj1 (qz_le _ _)) in HB. unfold n_hot_energy in HB. apply (sq_min (ones s) n N LE). cbv beta zeta. revert HB. generalize (Z.of_nat (Nat.min n N)). intros u HB. destruct t; cbv iota in HB; lia.
  - intros EO s' e' c' HI'. destruct (EN _ _ _ HI') as [EE' LE']. rewrite EE, EE', EO. apply qz_le. unfold n_hot_energy. pose proof (sq_min_le (ones s') n N LE') as H. cbv beta zeta in H. revert H. generalize (Z.of_nat (Nat.min n N)). intros u H. destruct t; cbv iota; lia.
Qed.

(** ** C104 *)

(** _create_simple_ising_model_with_only_1_body: "All spins: -1, energy = -N". *)
Definition all_minus (N : nat) (s : dict string Z) : Prop := forall i, i < N -> x_value s i = Some (-1)%Z.
Lemma one_body_mentioned N : forall a, mentioned (map (xq Ising 0%Qc) [] ++ map (xl Ising (- (1))%Qc) (seq 0 N)) a <-> the_x N a.
Proof.
  intros a. cbn [map app]. split.
  - intros (x & HI & _ & HA). apply in_map_iff in HI as (y & <- & HY). apply in_seq in HY. destruct HA as [<-|[]]. exists y. split; [lia|reflexivity].
  - intros (i & Hi & ->). exists (xl Ising (- (1))%Qc i). split; [apply in_map, in_seq; lia|]. split; [discriminate|now left].
Qed.
Lemma row_value N s i : (forall l, In l (dkeys s) <-> the_x N l) -> i < N -> exists z, x_value s i = Some z /\ In z (dvals s).
Proof.
  intros HK Hi. assert (HI : In (lab i) (dkeys s)) by (apply HK; exists i; auto). apply dget_some_in in HI as [z Ez]. exists z. split; auto.
  apply dget_in in Ez. apply (in_map snd) in Ez. exact Ez.
Qed.
Lemma zsum_opp l : Forall (legal Ising) l -> (- Z.of_nat (length l) <= zsum l)%Z /\ (zsum l = - Z.of_nat (length l) -> Forall (eq (-1)%Z) l)%Z.
Proof.
  assert (EC : forall c l, zsum (c :: l) = (c + zsum l)%Z) by reflexivity.
  induction 1 as [|z l HZ HL [IH1 IH2]]; [cbn; split; [lia|constructor]|]. rewrite EC. cbn [length]. split; [destruct HZ; lia|].
  intros E. destruct HZ as [-> | ->]; [lia|]. constructor; auto. apply IH2. lia.
Qed.
Theorem C104_one_body : forall clock N ev evs fd neal, 0 < N ->
  exists rows, solved (only_1_body clock N) Ising N ev evs fd neal rows /\
    forall s e c, In (s, e, c) rows -> (best e rows <-> all_minus N s) /\ (best e rows -> e = (- qz (Z.of_nat N))%Qc).
Proof.
  intros clock N ev evs fd neal HN.
  destruct (x_terms Ising 0%Qc (- (1))%Qc [] (seq 0 N)) as (PL & NS & AD); [constructor | intros ? ? [] | apply seq_NoDup |].
  assert (HB : forall a, has_x Ising a N -> forall m, mfor (seq 0 N) (fun i => put_lin clock a [i] (- (1))%Qc) m = enter clock (map (xq Ising 0%Qc) [] ++ map (xl Ising (- (1))%Qc) (seq 0 N)) m).
  { intros a HX m. cbn [map app]. apply (mfor_same _ _ (xl Ising (- (1))%Qc)). intros i m' Hi. apply in_seq in Hi. apply (put_lin_term clock Ising a N); auto. lia. }
  destruct (enter_solved clock _ Ising N _ ev evs fd neal HN HB PL NS AD (one_body_mentioned N)) as (rows & HS & HE). clear HB.
  exists rows. split; [exact HS|]. destruct HS as (m1 & m2 & p & _ & _ & _ & _ & HR & HA).
  assert (EN : forall s e c, In (s, e, c) rows -> e = qz (zsum (map (zv s) (seq 0 N))) /\ Forall (legal Ising) (map (zv s) (seq 0 N))).
  { intros s e c HI. destruct (HR _ _ _ HI) as (K1 & K2 & K3). split.
    - rewrite (HE _ _ _ HI). cbn [map app]. rewrite (poly_xl Ising _ (-1)%Z), <- qz_opp by (apply Qc_is_canon; reflexivity). f_equal. lia.
    - eapply Permutation_Forall; [apply (vals_perm s N K1 K2)|exact K3]. }
  assert (AM : forall s, all_minus N s -> zsum (map (zv s) (seq 0 N)) = (- Z.of_nat N)%Z).
  { intros s H. rewrite (zsum_ext _ (fun _ => (-1) * 1)%Z) by (intros i Hi; apply in_seq in Hi; unfold zv; rewrite H by lia; reflexivity).
    rewrite zsum_scale. clear. generalize 0. induction N as [|N IH]; intros k; [reflexivity|]. cbn [seq map]. specialize (IH (S k)). unfold zsum in *. cbn [fold_right]. lia. }
  assert (MIN : forall s e c, In (s, e, c) rows -> (qz (- Z.of_nat N) <= e)%Qc).
  { intros s e c HI. destruct (EN _ _ _ HI) as [-> F]. apply qz_le. destruct (zsum_opp _ F) as [H _]. rewrite map_length, seq_length in H. auto. }
  assert (BM : forall s e c, In (s, e, c) rows -> best e rows -> e = qz (- Z.of_nat N)).
  { intros s e c HI HB. destruct (HA (fun _ => (-1)%Z)) as (s' & e' & c' & HI' & HV); [intros; cbn; auto|]. specialize (HB _ _ _ HI').
    destruct (EN _ _ _ HI') as [E' _]. rewrite (AM s' HV) in E'. rewrite E' in HB. apply Qcle_antisym; eauto. }
  intros s e c HI. split; [split|].
  - intros HB. pose proof (BM _ _ _ HI HB) as EB. destruct (EN _ _ _ HI) as [EE F]. rewrite EE in EB. apply qz_inj in EB.
    destruct (zsum_opp _ F) as [_ H]. rewrite map_length, seq_length in H. apply H in EB. intros i Hi.
    destruct (HR _ _ _ HI) as (_ & K2 & _). destruct (row_value N s i K2 Hi) as (z & Ez & _). rewrite Ez. f_equal.
    rewrite Forall_forall in EB. assert (X : In (zv s i) (map (zv s) (seq 0 N))) by (apply in_map, in_seq; lia). apply EB in X. unfold zv in X. rewrite Ez in X. auto.
  - intros HM s' e' c' HI'. destruct (EN _ _ _ HI) as [-> _]. rewrite (AM s HM). eauto.
  - intros HB. rewrite (BM _ _ _ HI HB). apply qz_opp.
Qed.

(** _create_simple_ising_model_with_only_2_body: "All spins: +1 or -1, energy = -(N-1)". *)
Definition all_equal (N : nat) (s : dict string Z) : Prop := exists z, forall i, i < N -> x_value s i = Some z.
Definition chain (N : nat) : list (nat * nat) := map (fun i => (i, i + 1)) (seq 0 (N - 1)).
Lemma chain_in N a b : In (a, b) (chain N) <-> b = a + 1 /\ b < N.
Proof.
  unfold chain. rewrite in_map_iff. split.
  - intros (i & E & H). injection E as <- <-. apply in_seq in H. lia.
  - intros [-> H]. exists a. split; auto. apply in_seq. lia.
Qed.
Lemma chain_mentioned N : 1 < N -> forall a, mentioned (map (xq Ising 1%Qc) (chain N) ++ map (xl Ising 0%Qc) []) a <-> the_x N a.
Proof.
  intros HN a. cbn [map]. rewrite app_nil_r. split.
  - intros (x & HI & _ & HA). apply in_map_iff in HI as ([i j] & <- & HY). apply chain_in in HY. destruct HA as [<-|[<-|[]]]; [exists i | exists j]; (split; [cbn; lia | reflexivity]).
  - intros (i & Hi & ->). fold (lab i). destruct (Nat.eq_dec (i + 1) N) as [E|NE].
    + exists (xq Ising 1%Qc (i - 1, i)). split; [apply in_map, chain_in; lia|]. split; [discriminate|]. right. now left.
    + exists (xq Ising 1%Qc (i, i + 1)). split; [apply in_map, chain_in; lia|]. split; [discriminate|]. now left.
Qed.
(** The sum of products of neighbours, and when it is largest. *)
Lemma chain_sum (f : nat -> Z) (n : nat) : (forall i, i <= n -> legal Ising (f i)) ->
  (zsum (map (fun i => f i * f (i + 1)%nat)%Z (seq 0 n)) <= Z.of_nat n)%Z /\
  (zsum (map (fun i => f i * f (i + 1)%nat)%Z (seq 0 n)) = Z.of_nat n <-> forall i, i <= n -> f i = f 0).
Proof.
  induction n as [|n IH]; intros H.
  - cbn. split; [lia|]. split; auto. intros _ i Hi. assert (i = 0) by lia. now subst.
  - destruct IH as [IH1 IH2]; [intros; apply H; lia|]. rewrite seq_S, map_app, zsum_app. cbn [map]. assert (EC : forall c, zsum [c] = c) by (intros; cbn; lia). rewrite EC. cbn [plus].
    pose proof (H n ltac:(lia)) as H1. pose proof (H (n + 1) ltac:(lia)) as H2.
    assert (LE : (f n * f (n + 1)%nat <= 1)%Z /\ (f n * f (n + 1)%nat = 1 <-> f (n + 1)%nat = f n)%Z).
    { destruct H1 as [-> | ->], H2 as [-> | ->]; split; lia. }
    destruct LE as [L1 L2]. split; [lia|]. split.
    + intros E i Hi. assert (E1 : zsum (map (fun i => f i * f (i + 1)%nat)%Z (seq 0 n)) = Z.of_nat n) by lia. pose proof (proj1 IH2 E1) as IH2'.
      assert (E2 : (f n * f (n + 1)%nat = 1)%Z) by lia. apply L2 in E2. destruct (Nat.eq_dec i (n + 1)) as [->|D]; [rewrite E2; apply IH2'; lia|]. apply IH2'. lia.
    + intros E. rewrite (proj2 IH2) by (intros i Hi; apply E; lia). assert (E2 : f (n + 1) = f n) by (rewrite (E (n + 1)), (E n) by lia; auto). apply L2 in E2. lia.
Qed.
Theorem C104_two_body : forall clock N ev evs fd neal, 1 < N ->
  exists rows, solved (only_2_body clock N) Ising N ev evs fd neal rows /\
    forall s e c, In (s, e, c) rows -> (best e rows <-> all_equal N s) /\ (best e rows -> e = (- qz (Z.of_nat N - 1))%Qc).
Proof.
  intros clock N ev evs fd neal HN.
  destruct (x_terms Ising 1%Qc 0%Qc (chain N) []) as (PL & NS & AD).
  { apply FinFun.Injective_map_NoDup; [intros a b E; congruence | apply seq_NoDup]. } { intros a b H. apply chain_in in H. lia. } { constructor. }
  assert (HB : forall a, has_x Ising a N -> forall m, mfor (seq 0 (N - 1)) (fun i => put_quad clock a [i] [i + 1] 1%Qc) m = enter clock (map (xq Ising 1%Qc) (chain N) ++ map (xl Ising 0%Qc) []) m).
  { intros a HX m. cbn [map]. rewrite app_nil_r. unfold chain. rewrite map_map. unfold enter. apply (mfor_same _ _ (fun i => xq Ising 1%Qc (i, i + 1))).
    intros i m' Hi. apply in_seq in Hi. apply (put_quad_term clock Ising a N); auto; cbn; lia. }
  destruct (enter_solved clock _ Ising N _ ev evs fd neal ltac:(lia) HB PL NS AD (chain_mentioned N HN)) as (rows & HS & HE). clear HB.
  exists rows. split; [exact HS|]. destruct HS as (m1 & m2 & p & _ & _ & _ & _ & HR & HA).
  assert (LG : forall s e c, In (s, e, c) rows -> forall i, i <= N - 1 -> legal Ising (zv s i)).
  { intros s e c HI i Hi. destruct (HR _ _ _ HI) as (_ & K2 & K3). destruct (row_value N s i K2 ltac:(lia)) as (z & Ez & IZ). unfold zv. rewrite Ez. rewrite Forall_forall in K3. auto. }
  assert (EN : forall s e c, In (s, e, c) rows -> e = qz (- zsum (map (fun i => zv s i * zv s (i + 1)%nat)%Z (seq 0 (N - 1))))).
  { intros s e c HI. rewrite (HE _ _ _ HI). cbn [map]. rewrite app_nil_r, (poly_xq Ising _ 1%Z), <- qz_opp by (apply Qc_is_canon; reflexivity). f_equal.
    unfold chain. rewrite map_map. cbn [fst snd]. lia. }
  assert (AE : forall s e c, In (s, e, c) rows -> (all_equal N s <-> forall i, i <= N - 1 -> zv s i = zv s 0)).
  { intros s e c HI. destruct (HR _ _ _ HI) as (_ & K2 & _). split.
    - intros [z Hz] i Hi. unfold zv. rewrite !Hz by lia. auto.
    - intros H. destruct (row_value N s 0 K2 ltac:(lia)) as (z & Ez & _). exists z. intros i Hi. destruct (row_value N s i K2 Hi) as (z' & Ez' & _).
      specialize (H i ltac:(lia)). unfold zv in H. rewrite Ez, Ez' in H. congruence. }
  assert (MIN : forall s e c, In (s, e, c) rows -> (qz (- Z.of_nat (N - 1)) <= e)%Qc /\ (e = qz (- Z.of_nat (N - 1)) <-> all_equal N s)).
  { intros s e c HI. destruct (chain_sum (zv s) (N - 1) (LG _ _ _ HI)) as [C1 C2]. rewrite (EN _ _ _ HI), (AE _ _ _ HI), <- C2. split; [apply qz_le; lia|]. rewrite qz_inj. split; lia. }
  destruct (HA (fun _ => 1%Z)) as (s0 & e0 & c0 & HI0 & HV0); [intros; cbn; auto|].
  assert (E0 : e0 = qz (- Z.of_nat (N - 1))) by (apply (MIN _ _ _ HI0); exists 1%Z; auto).
  assert (BB : forall s e c, In (s, e, c) rows -> (best e rows <-> e = qz (- Z.of_nat (N - 1)))).
  { intros s e c HI. split.
    - intros HB. specialize (HB _ _ _ HI0). rewrite E0 in HB. apply Qcle_antisym; auto. apply (MIN _ _ _ HI).
    - intros -> s' e' c' HI'. apply (MIN _ _ _ HI'). }
  intros s e c HI. rewrite (BB _ _ _ HI). split; [apply (MIN _ _ _ HI)|]. intros ->. rewrite qz_opp. f_equal. f_equal. lia.
Qed.

(** The models of fixed size: the answers of lowest energy have exactly the documented
    values and energy. *)
Definition documented (prog : LM unit) (t : mtype) (values : list (string * Z)) (energy : Qc) : Prop :=
  forall ev evs fd neal, exists m1 m2 p rows, prog (new_model t) = (m1, Ok tt) /\ to_physical ev evs fd m1 = (m2, Ok p) /\ local_solve true neal (Some p) = Ok rows /\
    length rows = 2 ^ length values /\
    (exists s c, In (s, energy, c) rows /\ forall l z, In (l, z) values -> dget l s = Some z) /\
    (forall s e c, In (s, e, c) rows -> best e rows -> e = energy /\ length s = length values /\ forall l z, In (l, z) values -> dget l s = Some z).

(** A sample with these values. *)
Definition has_values (values : list (string * Z)) (s : dict string Z) : bool :=
  Nat.eqb (length s) (length values) && forallb (fun lz => match dget (fst lz) s with Some z => Z.eqb z (snd lz) | None => false end) values.
Lemma has_values_ok values s : has_values values s = true -> length s = length values /\ forall l z, In (l, z) values -> dget l s = Some z.
Proof.
  unfold has_values. intros H. apply andb_true_iff in H as [H1 H2]. apply Nat.eqb_eq in H1. split; auto.
  intros l z HI. rewrite forallb_forall in H2. specialize (H2 _ HI). cbn [fst snd] in H2. destruct (dget l s) as [z'|]; [|discriminate]. apply Z.eqb_eq in H2. congruence.
Qed.
Lemma documented_ok values energy (rows : list srow) :
  existsb (fun r : srow => has_values values (fst (fst r)) && Qc_eqb (snd (fst r)) energy) rows = true ->
  forallb (fun r : srow => (has_values values (fst (fst r)) && Qc_eqb (snd (fst r)) energy) || Qclt_bool energy (snd (fst r))) rows = true ->
  (exists s c, In (s, energy, c) rows /\ forall l z, In (l, z) values -> dget l s = Some z) /\
  (forall s e c, In (s, e, c) rows -> best e rows -> e = energy /\ length s = length values /\ forall l z, In (l, z) values -> dget l s = Some z).
Proof.
  intros H1 H2. apply existsb_exists in H1 as ([[s0 e0] c0] & HI0 & H0). cbn [fst snd] in H0. apply andb_true_iff in H0 as [V0 E0]. apply Qc_eq_bool_correct in E0. subst e0.
  split; [exists s0, c0; split; auto; now apply has_values_ok|]. intros s e c HI HB. rewrite forallb_forall in H2. specialize (H2 _ HI). cbn [fst snd] in H2.
  apply orb_true_iff in H2 as [H2|H2].
  - apply andb_true_iff in H2 as [V E]. apply Qc_eq_bool_correct in E. split; auto. now apply has_values_ok.
  - apply Qclt_bool_iff in H2. exfalso. specialize (HB _ _ _ HI0). apply (Qcle_not_lt _ _ HB H2).
Qed.

Theorem C104_helper_ising : forall clock, documented (helper_ising clock) Ising
  [("x[0][0]", 1); ("x[0][1]", 1); ("x[1][0]", -1); ("x[1][1]", -1); ("x[2][0]", 1); ("x[2][1]", 1)]%Z (qz (-10)).
Proof.
  intros clock ev evs fd neal. do 4 eexists. split; [vm_compute; reflexivity|]. split; [vm_compute; reflexivity|]. split; [vm_compute; reflexivity|].
  split; [reflexivity|]. apply documented_ok; vm_compute; reflexivity.
Qed.
Theorem C104_helper_2x2 : forall clock,
  documented (helper_2x2 clock "a") Ising [("a[0][1]", 1); ("a[1][0]", 1); ("a[1][1]", 1)]%Z 0%Qc /\
  documented (helper_2x2 clock "b") Qubo [("b[0][1]", 1); ("b[1][0]", 1); ("b[1][1]", 1)]%Z 0%Qc.
Proof.
  intros clock. split; intros ev evs fd neal; do 4 eexists; (split; [vm_compute; reflexivity|]; split; [vm_compute; reflexivity|]; split; [vm_compute; reflexivity|];
  split; [reflexivity|]; apply documented_ok; vm_compute; reflexivity).
Qed.
(** Their Hamiltonians. *)
Theorem C104_helper_energy : forall clock, exists m1, helper_ising clock (new_model Ising) = (m1, Ok tt) /\ forall fd s, energy fd s m1 =
  (- (s "x[0][0]" + s "x[0][0]" * s "x[0][1]" - qz 2 * s "x[0][1]" * s "x[1][0]" + qz 3 * s "x[1][0]" * s "x[1][1]"
      - qz 4 * s "x[1][1]" * s "x[2][0]" + qz 5 * s "x[2][0]" * s "x[2][1]") + qz 6)%Qc.
Proof.
  intros clock. eexists. split; [vm_compute; reflexivity|]. intros fd s. unfold energy. cbn [m_rows m_offset map qsum]. unfold contribution, value. cbn [r_removed r_coef r_scale r_key ceval monomial].
  repeat match goal with |- context [{| this := ?a; canon := ?b |}] => let z := eval vm_compute in (Qnum a) in replace {| this := a; canon := b |} with (qz z) by (apply Qc_is_canon; reflexivity) end.
  replace (qz (-2)) with (- qz 2)%Qc by (apply Qc_is_canon; reflexivity). replace (qz (-4)) with (- qz 4)%Qc by (apply Qc_is_canon; reflexivity). replace (qz 1) with 1%Qc by (apply Qc_is_canon; reflexivity). replace (qz 0) with 0%Qc by (apply Qc_is_canon; reflexivity). ring.
Qed.

(** The arrays the samples declare: every variable of the drawing is there, used or not. *)
Theorem C104_arrays : forall clock,
  (exists m1, helper_ising clock (new_model Ising) = (m1, Ok tt) /\ map (fun kv => (fst kv, a_shape (snd kv), map v_label (a_bits (snd kv)))) (m_vars m1) =
     [("x", [3; 2]%Z, ["x[0][0]"; "x[0][1]"; "x[1][0]"; "x[1][1]"; "x[2][0]"; "x[2][1]"])]) /\
  (exists m1, helper_2x2 clock "a" (new_model Ising) = (m1, Ok tt) /\ map (fun kv => (fst kv, a_shape (snd kv), map v_label (a_bits (snd kv)))) (m_vars m1) =
     [("a", [2; 2]%Z, ["a[0][0]"; "a[0][1]"; "a[1][0]"; "a[1][1]"])]) /\
  (exists m1, helper_2x2 clock "b" (new_model Qubo) = (m1, Ok tt) /\ map (fun kv => (fst kv, a_shape (snd kv), map v_label (a_bits (snd kv)))) (m_vars m1) =
     [("b", [2; 2]%Z, ["b[0][0]"; "b[0][1]"; "b[1][0]"; "b[1][1]"])]).
Proof. intros clock. repeat split; eexists; (split; [vm_compute; reflexivity|vm_compute; reflexivity]). Qed.

(** ** Examples *)

(** The size of the sample: 4 variables, 2 of them hot. *)
Example C103_hyps : 0 < 4 /\
  exists m1 m2 p rows s e c, n_hot_scratch (fun _ => env0) Qubo 4 2 (new_model Qubo) = (m1, Ok tt) /\
    to_physical env0 (fun _ => env0) [] m1 = (m2, Ok p) /\ local_solve true (fun _ => Err ValueError) (Some p) = Ok rows /\
    length rows = 16 /\ In (s, e, c) rows /\ ones s = 2 /\ e = (- qz 4)%Qc.
Proof.
  split; [lia|]. do 4 eexists. exists [("x[0]", 1%Z); ("x[1]", 1%Z); ("x[2]", 0%Z); ("x[3]", 0%Z)]. do 2 eexists. split; [vm_compute; reflexivity|].
  split; [vm_compute; reflexivity|]. split; [vm_compute; reflexivity|]. split; [reflexivity|]. split; [cbn; tauto|]. split; [reflexivity|].
  apply Qc_is_canon; reflexivity.
Qed.
Example C104_hyps : 0 < 12 /\ 1 < 12 /\
  (exists m1, only_2_body (fun _ => env0) 12 (new_model Ising) = (m1, Ok tt) /\ length (m_rows m1) = 11) /\
  (exists m1, helper_ising (fun _ => env0) (new_model Ising) = (m1, Ok tt) /\ length (m_rows m1) = 6).
Proof. split; [lia|]. split; [lia|]. split; eexists; (split; [vm_compute; reflexivity | reflexivity]). Qed.
Print Assumptions C103_n_hot_from_scratch.
Print Assumptions C104_one_body.
Print Assumptions C104_two_body.
Print Assumptions C104_helper_ising.
Print Assumptions C104_helper_energy.
Print Assumptions C104_helper_2x2.
Print Assumptions C104_arrays.
