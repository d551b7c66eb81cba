(** * Conformance: the repository's unit tests of LogicalModel and its constraints,
    run on the model.

    These are tests of the model, not proofs about it: each Example evaluates one
    test function of /repo/tests/model and checks that every assertion of it holds
    of the model too. What the model does not have is left out: calls with a missing
    argument, id(), warnings. Floats are rationals. *)
From Verif Require Import PyBase PyLemmas Numbers Constraint LogicalModel Select ModelEq Entry Samples NppStream.
Local Open Scope string_scope.
Local Open Scope list_scope.

(** ** Assertions *)
Definition exn_eqb (a b : exn) : bool :=
  match a, b with
  | ValueError, ValueError | TypeError, TypeError | KeyError, KeyError | IndexError, IndexError | AttributeError, AttributeError
  | ZeroDivisionError, ZeroDivisionError | UnboundLocalError, UnboundLocalError | AssertionError, AssertionError
  | PlaceholderError, PlaceholderError | NotImplementedError, NotImplementedError | NameError, NameError => true
  | UserError x, UserError y => Nat.eqb x y
  | _, _ => false
  end.
(** assert b. A failed assertion raises UserError 0, which nothing in the model raises. *)
Definition expect {S} (b : bool) : M S unit := guard b (UserError 0).
(** with pytest.raises(e): c *)
Definition raises {S A} (e : exn) (c : M S A) : M S unit := fun s =>
  match c s with
  | (s', Err e') => (s', if exn_eqb e e' then Ok tt else Err (UserError 0))
  | (s', Ok _) => (s', Err (UserError 0))
  end.
Definition raised_by {A} (e : exn) (r : res A) : bool := match r with Err e' => exn_eqb e e' | Ok _ => false end.
Definition passes (t : mtype) (c : LM unit) : Prop := snd (c (new_model t)) = Ok tt.
Definition ask {A} (f : lmodel -> A) : LM A := m <- get ;; ret (f m).
Definition check (f : lmodel -> bool) : LM unit := m <- get ;; expect (f m).

(** ** Abbreviations *)
Definition f (n : Z) (d : positive) : carg := AC (CNum (qfrac n d)).
Definition fl (n : Z) (d : positive) : Qc := qfrac n d.
(** An element of a variables array: name[i0][i1]... *)
Definition el (t : vtype) (n : string) (i : list nat) : var := mkVar (n +++ brackets i) t.
Definition S_ := el Spin.
Definition B_ := el Binary.
Definition pr (a b : var) : target := TTuple [EVar a; EVar b].
Definition pr3 (a b c : var) : target := TTuple [EVar a; EVar b; EVar c].
Definition strings : target := TTuple [EOther; EOther].
Definition a_string : target := TOther true.
Definition no_name : narg := NStr "".
(** The clock of the tests: a time after 1234567890. *)
Definition now : env := mkEnv (qz 1600000000) (qz 1599999999) (fun k => "t" +++ str_of_nat k) "11" (fun k => "2" +++ str_of_nat k).
(** The clock at the n-th conversion. *)
Definition later_ (n : nat) : env := mkEnv (qz 1600000000) (qz 1599999999) (fun k => "t" +++ str_of_nat n +++ "-" +++ str_of_nat k) "11" (fun k => "2" +++ str_of_nat k).
Definition vs (n : string) (sh : list Z) : LM unit := variables (VName n) (ShTuple (map ShInt sh)).
Definition add (t : target) (c : Z) : LM unit := add_interaction now t no_name (num c) (num 1) AtNone TsNone.
Definition add_named (t : target) (n : string) (c : Z) : LM unit := add_interaction now t (NStr n) (num c) (num 1) AtNone TsNone.
Definition upd (t : target) (c : Z) : LM unit := update_interaction now t no_name (Some (num c)) None AtNone (update_default_ts now).
Definition upd_named (n : string) (c : Z) : LM unit := update_interaction now TNone (NStr n) (Some (num c)) None AtNone (update_default_ts now).
Definition rem (t : target) : LM unit := remove_interaction t no_name.
Definition physical_of (n : nat) (fd : feed) : LM physical := to_physical (later_ n) (fun k => later_ (100 * S n + k)) fd.

(** select_interaction(query): the rows of the DataFrame. *)
Definition select (q : query) : LM (list (dict string cell)) :=
  s <- select_interaction q FSeries ;; ret (match s with Frame l => map snd l | Indexed d => map snd d end).
Definition by_name (n : string) : query := QEq "name" (LText n).
Definition by_key (k : string) : query := QEq "key" (LText k).
Definition cell_is (c d : cell) : bool :=
  match c, d with
  | CNan, CNan | CObject, CObject => true
  | CNumb x, CNumb y => Qc_eqb x y | CText a, CText b => String.eqb a b | CBool a, CBool b => Bool.eqb a b
  | CPair a b, CPair c d => String.eqb a c && String.eqb b d | _, _ => false
  end.
(** selected[col].values[i] == c *)
Definition value_is (rows : list (dict string cell)) (i : nat) (col : string) (c : cell) : bool :=
  match nth_error rows i with Some r => match dget col r with Some x => cell_is x c | None => false end | None => false end.
Definition numb (z : Z) : cell := CNumb (qz z).
(** The rows of [q] are [n] many and the first has the given cells. *)
Definition shows (q : query) (cells : list (string * cell)) : LM unit :=
  rows <- select q ;; expect (forallb (fun c => value_is rows 0 (fst c) (snd c)) cells).
Definition shows_at (i : nat) (q : query) (cells : list (string * cell)) : LM unit :=
  rows <- select q ;; expect (forallb (fun c => value_is rows i (fst c) (snd c)) cells).
Definition counts (q : query) (n : nat) : LM unit := rows <- select q ;; expect (Nat.eqb (length rows) n).
(** len(model._interactions) *)
Definition len_is (n : nat) : LM unit := check (fun m => Nat.eqb (length (m_rows m)) n && Nat.eqb (m_len m) n).
(** ... ["coefficient"].values[0] == q and the like *)
Definition coef_is (n : string) (q : Z) : LM unit := shows (by_name n) [("coefficient", numb q)].
Definition offset_is (q : Qc) : LM unit := check (fun m => match ceval [] (m_offset m) with Some x => Qc_eqb x q | None => false end).
Definition lin_is (p : physical) (l : string) (q : Qc) : bool := match dget l (p_linear p) with Some x => Qc_eqb x q | None => false end.
Definition quad_is (p : physical) (a b : string) (q : Qc) : bool := match dget (a, b) (p_quad p) with Some x => Qc_eqb x q | None => false end.
Definition index_is (p : physical) (ls : list string) : bool :=
  forallb (fun il => match dget (snd il) (p_l2i p) with Some i => Nat.eqb i (fst il) | None => false end &&
                     match dget (fst il) (p_i2l p) with Some l => String.eqb l (snd il) | None => false end) (combine (seq 0 (length ls)) ls)
  && Nat.eqb (length (p_l2i p)) (length ls) && Nat.eqb (length (p_i2l p)) (length ls).
Definition shape_is (n : string) (sh : list Z) : lmodel -> bool := fun m =>
  match dget n (m_vars m) with Some a => if list_eq_dec Z.eq_dec (a_shape a) sh then true else false | None => false end.
Definition has {V} (k : string) (d : dict string V) : bool := mem k (dkeys d).
Definition all {A} (l : list A) (p : A -> bool) : bool := forallb p l.

(** ** tests/model/test_logical_model_operations.py *)
(** 40-95 *)
Example test_logical_model_select : passes Ising (
  vs "x" [10; 10]%Z ;;;
  add (TVar (S_ "x" [0; 0])) 10 ;;;
  add_named (TVar (S_ "x" [0; 1])) "my name" 20 ;;;
  add_interaction now (pr (S_ "x" [0; 0]) (S_ "x" [0; 1])) no_name (num 30) (num 1) (AtDict [("foo", AStr "bar"); ("my attr", AStr "my value")]) (TsNum (fl 1234567890123 1000)) ;;;
  counts (by_name "x[0][0]") 1 ;;;
  shows (by_name "x[0][0]") [("name", CText "x[0][0]"); ("key", CText "x[0][0]"); ("coefficient", numb 10)] ;;;
  (s <- select_interaction (by_name "my name") FDict ;;
   expect (match s with Indexed [(_, r)] => value_is [r] 0 "name" (CText "my name") && value_is [r] 0 "key" (CText "x[0][1]") && value_is [r] 0 "coefficient" (numb 20) | _ => false end)) ;;;
  (let q := QOrd OGt "timestamp" (LNum (qz 1234567890)) in
   counts q 3 ;;;
   shows_at 0 q [("name", CText "x[0][0]"); ("coefficient", numb 10)] ;;;
   shows_at 1 q [("name", CText "my name"); ("coefficient", numb 20)] ;;;
   shows_at 2 q [("name", CText "x[0][0]*x[0][1]"); ("coefficient", numb 30); ("attributes.foo", CText "bar"); ("attributes.my attr", CText "my value")]) ;;;
  counts (QOrd OLt "timestamp" (LNum (qz 1234567890))) 0 ;;;
  counts (QEq "attributes.foo" (LText "bar")) 1 ;;;
  shows (QEq "attributes.foo" (LText "bar")) [("name", CText "x[0][0]*x[0][1]")] ;;;
  counts (QEq "attributes.my attr" (LText "my value")) 1 ;;;
  shows (QEq "attributes.my attr" (LText "my value")) [("name", CText "x[0][0]*x[0][1]")] ;;;
  raises NameError (select_interaction (QEq "invalid" (LText "invalid")) FSeries) ;;;
  raises ValueError (select_interaction (by_name "x[0][0]") FOther)).
Proof. vm_compute. reflexivity. Qed.

(** 98-108 *)
Example test_logical_model_select_interactions_by_variable : passes Ising (
  vs "x" [10; 10]%Z ;;;
  add (TVar (S_ "x" [0; 0])) 10 ;;; add (TVar (S_ "x" [0; 1])) 20 ;;; add (pr (S_ "x" [0; 0]) (S_ "x" [0; 1])) 30 ;;;
  (l <- select_by_variable "x[0][0]" ;;
   expect (if list_eq_dec string_dec l ["x[0][0]"; "x[0][0]*x[0][1]"] then true else false))).
Proof. vm_compute. reflexivity. Qed.

(** 116-181 *)
Example test_logical_model_add : passes Ising (
  vs "x" [2; 2]%Z ;;;
  add (TVar (S_ "x" [0; 0])) 1 ;;;
  len_is 1 ;;;
  shows (by_name "x[0][0]") [("name", CText "x[0][0]"); ("key", CText "x[0][0]"); ("coefficient", numb 1); ("scale", numb 1)] ;;;
  add_interaction now (TVar (S_ "x" [0; 1])) no_name (num 2) (f 1 10) AtNone TsNone ;;;
  len_is 2 ;;;
  shows (by_name "x[0][1]") [("name", CText "x[0][1]"); ("coefficient", numb 2); ("scale", CNumb (fl 1 10))] ;;;
  add_interaction now (TVar (S_ "x" [1; 0])) no_name (num 3) (num 1) (AtDict [("foo", AStr "bar")]) TsNone ;;;
  len_is 3 ;;;
  shows (by_name "x[1][0]") [("name", CText "x[1][0]"); ("coefficient", numb 3); ("attributes.foo", CText "bar")] ;;;
  add_interaction now (pr (S_ "x" [0; 0]) (S_ "x" [0; 1])) no_name (num (-4)) (num 1) AtNone (TsNum (fl 1234567890123 1000)) ;;;
  len_is 4 ;;;
  shows (by_name "x[0][0]*x[0][1]") [("name", CText "x[0][0]*x[0][1]"); ("key", CPair "x[0][0]" "x[0][1]"); ("coefficient", numb (-4)); ("timestamp", CNumb (fl 1234567890123 1000))] ;;;
  add_interaction now (pr (S_ "x" [1; 1]) (S_ "x" [1; 0])) no_name (num (-4)) (num 1) AtNone (TsNum (fl 1234567890123 1000)) ;;;
  len_is 5 ;;;
  shows (by_name "x[1][0]*x[1][1]") [("name", CText "x[1][0]*x[1][1]"); ("key", CPair "x[1][0]" "x[1][1]"); ("coefficient", numb (-4)); ("timestamp", CNumb (fl 1234567890123 1000))] ;;;
  check (fun m => match nth_error (m_rows m) 4 with Some r => match r_inter r with I2 a b => var_eqb a (S_ "x" [1; 0]) && var_eqb b (S_ "x" [1; 1]) | _ => false end | _ => false end)).
Proof. vm_compute. reflexivity. Qed.

(** 184-228 *)
Example test_logical_model_add_invalid_arguments : passes Ising (
  vs "x" [3]%Z ;;; vs "y" [2]%Z ;;;
  raises ValueError (add TNone 1) ;;;
  raises TypeError (add a_string 1) ;;;
  raises TypeError (add (pr3 (S_ "x" [0]) (S_ "x" [1]) (S_ "x" [2])) 1) ;;;
  raises TypeError (add strings 1) ;;;
  raises ValueError (add (pr (S_ "x" [0]) (S_ "x" [0])) 1) ;;;
  raises TypeError (add_interaction now (TVar (S_ "x" [0])) no_name ABad (num 1) AtNone TsNone) ;;;
  raises TypeError (add_interaction now (TVar (S_ "x" [0])) no_name (num 0) ABad AtNone TsNone) ;;;
  raises TypeError (add_interaction now (TVar (S_ "x" [0])) no_name (num 0) (num 1) AtBad TsNone) ;;;
  raises TypeError (add_interaction now (TVar (S_ "x" [0])) no_name (num 0) (num 1) AtNone TsBad) ;;;
  raises ValueError (add (TVar (S_ "y" [0])) 2 ;;; add (TVar (S_ "y" [0])) 2) ;;;
  raises ValueError (add (TVar (S_ "y" [1])) 2 ;;; rem (TVar (S_ "y" [1])) ;;; add (TVar (S_ "y" [1])) 2)).
Proof. vm_compute. reflexivity. Qed.

(** 231-256 *)
Example test_logical_model_add_duplicate : passes Ising (
  vs "x" [2]%Z ;;; add (TVar (S_ "x" [0])) 1 ;;; len_is 1 ;;; shows (by_name "x[0]") [("name", CText "x[0]")] ;;;
  add_named (TVar (S_ "x" [0])) "my name" 1 ;;; len_is 2 ;;; shows (by_name "my name") [("name", CText "my name")]).
Proof. vm_compute. reflexivity. Qed.
Example test_logical_model_add_duplicate_invalid : passes Ising (
  vs "x" [2]%Z ;;; add (TVar (S_ "x" [0])) 1 ;;; add_named (TVar (S_ "x" [1])) "my name" 1 ;;;
  raises ValueError (add (TVar (S_ "x" [0])) 2) ;;; raises ValueError (add_named (TVar (S_ "x" [1])) "my name" 2)).
Proof. vm_compute. reflexivity. Qed.

(** 264-320 *)
Example test_logical_model_update : passes Ising (
  vs "x" [2]%Z ;;;
  add (TVar (S_ "x" [0])) 1 ;;; add (pr (S_ "x" [0]) (S_ "x" [1])) 2 ;;;
  len_is 2 ;;; coef_is "x[0]" 1 ;;; coef_is "x[0]*x[1]" 2 ;;;
  upd (TVar (S_ "x" [0])) 10 ;;; len_is 2 ;;; coef_is "x[0]" 10 ;;; shows (by_name "x[0]") [("name", CText "x[0]"); ("key", CText "x[0]")] ;;;
  upd (TVar (S_ "x" [0])) 100 ;;; len_is 2 ;;; coef_is "x[0]" 100 ;;;
  update_interaction now TNone (NStr "x[0]") (Some (num 1000)) (Some (num 2)) (AtDict [("foo", AStr "bar")]) (update_default_ts now) ;;;
  check (fun m => Nat.eqb (length (m_rows m)) 2) ;;;
  check (fun m => match nth_error (m_rows m) 0 with Some r => decb (coef_eq_dec (r_coef r) (CNum (qz 1000))) && decb (coef_eq_dec (r_scale r) (CNum (qz 2))) | None => false end) ;;;
  check (fun m => match dget "attributes.foo" (m_cols m) with Some (AStr s :: _) => String.eqb s "bar" | _ => false end) ;;;
  upd (pr (S_ "x" [0]) (S_ "x" [1])) 20 ;;; len_is 2 ;;; coef_is "x[0]*x[1]" 20 ;;; shows (by_name "x[0]*x[1]") [("name", CText "x[0]*x[1]"); ("key", CPair "x[0]" "x[1]")] ;;;
  upd (pr (S_ "x" [1]) (S_ "x" [0])) 200 ;;; len_is 2 ;;; coef_is "x[0]*x[1]" 200 ;;; shows (by_name "x[0]*x[1]") [("name", CText "x[0]*x[1]"); ("key", CPair "x[0]" "x[1]")] ;;;
  upd_named "x[0]*x[1]" 2000 ;;; len_is 2 ;;; coef_is "x[0]*x[1]" 2000).
Proof. vm_compute. reflexivity. Qed.

(** 323-350 *)
Example test_logical_model_update_by_custom_names : passes Ising (
  vs "y" [2]%Z ;;;
  add_named (TVar (S_ "y" [0])) "custom interaction 1" (-1) ;;; add_named (pr (S_ "y" [0]) (S_ "y" [1])) "custom interaction 2" (-2) ;;;
  len_is 2 ;;; coef_is "custom interaction 1" (-1) ;;; coef_is "custom interaction 2" (-2) ;;;
  upd_named "custom interaction 1" (-10) ;;; len_is 2 ;;; coef_is "custom interaction 1" (-10) ;;;
  upd_named "custom interaction 2" (-20) ;;; len_is 2 ;;; coef_is "custom interaction 2" (-20) ;;;
  raises KeyError (upd_named "custom interaction 3" (-30))).
Proof. vm_compute. reflexivity. Qed.

(** 353-379 *)
Example test_logical_model_update_without_initialize : passes Ising (
  vs "x" [3]%Z ;;;
  upd (TVar (S_ "x" [0])) 11 ;;; len_is 1 ;;; shows (by_name "x[0]") [("coefficient", numb 11); ("scale", numb 1); ("name", CText "x[0]"); ("key", CText "x[0]")] ;;;
  update_interaction now (pr (S_ "x" [0]) (S_ "x" [1])) no_name (Some (num 22)) (Some (num 33)) AtNone (update_default_ts now) ;;; len_is 2 ;;;
  shows (by_name "x[0]*x[1]") [("coefficient", numb 22); ("scale", numb 33); ("name", CText "x[0]*x[1]"); ("key", CPair "x[0]" "x[1]")]).
Proof. vm_compute. reflexivity. Qed.

(** 382-422 *)
Example test_logical_model_update_invalid : passes Ising (
  vs "x" [3]%Z ;;; add (TVar (S_ "x" [0])) 1 ;;;
  raises ValueError (update_interaction now TNone no_name None None AtNone (update_default_ts now)) ;;;
  raises ValueError (update_interaction now (TVar (S_ "x" [0])) (NStr "x[0]") None None AtNone (update_default_ts now)) ;;;
  raises KeyError (upd_named "x[1]" 1) ;;;
  raises TypeError (upd a_string 1) ;;;
  raises TypeError (upd (pr3 (S_ "x" [0]) (S_ "x" [1]) (S_ "x" [2])) 1) ;;;
  raises TypeError (upd strings 1) ;;;
  raises ValueError (upd (pr (S_ "x" [0]) (S_ "x" [0])) 1) ;;;
  raises TypeError (update_interaction now (TVar (S_ "x" [0])) no_name (Some ABad) None AtNone (update_default_ts now)) ;;;
  raises TypeError (update_interaction now (TVar (S_ "x" [0])) no_name None (Some ABad) AtNone (update_default_ts now)) ;;;
  raises TypeError (update_interaction now (TVar (S_ "x" [0])) no_name None None AtBad (update_default_ts now)) ;;;
  raises TypeError (update_interaction now (TVar (S_ "x" [0])) no_name None None AtNone TsBad) ;;;
  raises ValueError (add (TVar (S_ "x" [1])) 2 ;;; rem (TVar (S_ "x" [1])) ;;; upd (TVar (S_ "x" [1])) 2)).
Proof. vm_compute. reflexivity. Qed.

(** 430-469 *)
Example test_logical_model_remove_by_target : passes Ising (
  vs "x" [2]%Z ;;; add (TVar (S_ "x" [0])) 1 ;;; add (TVar (S_ "x" [1])) 10 ;;; len_is 2 ;;;
  rem (TVar (S_ "x" [0])) ;;; len_is 2 ;;;
  shows (by_key "x[0]") [("name", CText "x[0]"); ("key", CText "x[0]"); ("coefficient", numb 1); ("dirty", CBool true); ("removed", CBool true)] ;;;
  remove_interaction TNone (NStr "x[1]") ;;; len_is 2 ;;;
  shows (by_key "x[1]") [("name", CText "x[1]"); ("key", CText "x[1]"); ("coefficient", numb 10); ("dirty", CBool true); ("removed", CBool true)]).
Proof. vm_compute. reflexivity. Qed.
Example test_logical_model_remove_by_name : passes Ising (
  vs "x" [2]%Z ;;; add_named (TVar (S_ "x" [0])) "my name" 1 ;;; len_is 1 ;;;
  remove_interaction TNone (NStr "my name") ;;; len_is 1 ;;; shows (by_name "my name") [("removed", CBool true)]).
Proof. vm_compute. reflexivity. Qed.

(** 472-495 *)
Example test_logical_model_remove_invalid : passes Ising (
  vs "x" [3]%Z ;;; add (TVar (S_ "x" [0])) 1 ;;;
  raises ValueError (remove_interaction TNone no_name) ;;;
  raises ValueError (remove_interaction (TVar (S_ "x" [0])) (NStr "x[0]")) ;;;
  raises KeyError (rem (TVar (S_ "x" [1]))) ;;;
  raises TypeError (rem a_string) ;;;
  raises TypeError (update_interaction now (pr3 (S_ "x" [0]) (S_ "x" [1]) (S_ "x" [2])) no_name None None AtNone (update_default_ts now)) ;;;
  raises TypeError (update_interaction now strings no_name None None AtNone (update_default_ts now)) ;;;
  raises ValueError (update_interaction now (pr (S_ "x" [0]) (S_ "x" [0])) no_name None None AtNone (update_default_ts now))).
Proof. vm_compute. reflexivity. Qed.

(** 503-533 *)
Definition sizes (size deleted whole : Z) : LM unit :=
  check (fun m => Z.eqb (get_size m) size && Z.eqb (get_deleted_size m) deleted && Z.eqb (get_all_size m) whole).
Example test_logical_model_delete : passes Ising (
  vs "x" [2; 3; 4]%Z ;;; vs "y" [5; 6]%Z ;;;
  add (TVar (S_ "x" [0; 0; 0])) 1 ;;; len_is 1 ;;; add (pr (S_ "x" [0; 0; 0]) (S_ "x" [0; 0; 1])) 2 ;;; len_is 2 ;;;
  sizes 54 0 54 ;;;
  delete_variable (TVar (S_ "x" [0; 0; 0])) ;;; len_is 2 ;;; sizes 53 1 54 ;;;
  physical_of 0 [] ;;; len_is 0 ;;; sizes 53 1 54).
Proof. vm_compute. reflexivity. Qed.

(** 536-557 *)
Definition default_nhot : string := "Default N-hot Constraint".
Definition default_equality : string := "Default Equality Constraint".
Definition default_zero_or_one : string := "Default Zero-or-One-hot Constraint".
Definition nhot (l : list var) (n : Z) (label : string) (s : Z) : LM unit :=
  c <- lift (mk_nhot (Some (VA_array l)) (Some n) (Some label) (Some (qz s))) ;; add_constraint (Some c).
Definition of_array (n : string) : LM (list var) := a <- get_variables_by_name n ;; ret (a_bits a).
Definition constraint_is (l : string) (n : Z) (vars : nat) : LM unit :=
  c <- get_constraints_by_label l ;; expect (match c with NHot v k _ _ => Z.eqb k n && Nat.eqb (length v) vars | _ => false end).
Definition constraints_are (n : nat) (ls : list string) : LM unit :=
  check (fun m => Nat.eqb (length (m_constrs m)) n && all ls (fun l => has l (m_constrs m))).
Example test_logical_model_delete_dealing_with_nhot_constraints_qubo : passes Qubo (
  vs "x" [4]%Z ;;; x <- of_array "x" ;;
  nhot x 1 default_nhot 1 ;;;
  constraints_are 1 [default_nhot] ;;; constraint_is default_nhot 1 4 ;;;
  delete_variable (TVar (B_ "x" [0])) ;;;
  constraints_are 1 [default_nhot] ;;; constraint_is default_nhot 1 3 ;;;
  p <- physical_of 0 [] ;; expect (lin_is p "x[1]" 1 && quad_is p "x[1]" "x[2]" (qz (-2)))).
Proof. vm_compute. reflexivity. Qed.

(** 560-568 *)
Example test_logical_model_delete_invalid_argument : passes Ising (
  raises TypeError (delete_variable a_string) ;;; raises ValueError (delete_variable TNone)).
Proof. vm_compute. reflexivity. Qed.

(** 576-641 *)
Definition gone : list (string * cell) := [("dirty", CBool true); ("removed", CBool true)].
Definition became (key : string) (c : Z) : list (string * cell) :=
  [("body", numb 1); ("key", CText key); ("coefficient", numb c); ("scale", numb 1); ("dirty", CBool true); ("removed", CBool false)].
Definition fixed_are (n : Z) (l : string) (off : Z) : LM unit :=
  check (fun m => Z.eqb (get_fixed_size m) n && mem l (get_fixed_array m)) ;;; offset_is (qz off).
Definition eight (x : nat -> var) : LM unit :=
  add_interaction now (TVar (x 0)) no_name (num 10) (f 11 10) AtNone TsNone ;;;
  add (TVar (x 1)) 20 ;;; add (TVar (x 2)) 30 ;;; add (pr (x 1) (x 2)) 40 ;;; add_named (pr (x 1) (x 2)) "my interaction" 45 ;;;
  add (TVar (x 3)) 50 ;;; add (TVar (x 4)) 60 ;;; add (pr (x 3) (x 4)) 70.
Example test_logical_model_fix_ising : passes Ising (
  vs "x" [6]%Z ;;; eight (fun i => S_ "x" [i]) ;;;
  raises ValueError (fix_variable now (TVar (S_ "x" [0])) 0%Qc) ;;;
  fix_variable now (TVar (S_ "x" [0])) 1%Qc ;;; fixed_are 1 "x[0]" (-11) ;;; shows (by_name "x[0]") gone ;;;
  fix_variable now (TVar (S_ "x" [1])) (qz (-1)) ;;; fixed_are 2 "x[1]" 9 ;;;
  shows (by_name "x[1]") gone ;;; shows (by_name "x[1]*x[2]") gone ;;; shows (by_name "my interaction") gone ;;;
  shows (by_name "x[2] (before fixed: x[1]*x[2])") (became "x[2]" (-40)) ;;;
  shows (by_name "x[2] (before fixed: my interaction)") (became "x[2]" (-45)) ;;;
  fix_variable now (TVar (S_ "x" [3])) 1%Qc ;;; fixed_are 3 "x[3]" (-41) ;;;
  shows (by_name "x[3]") gone ;;; shows (by_name "x[3]*x[4]") gone ;;; shows (by_name "x[4] (before fixed: x[3]*x[4])") (became "x[4]" 70) ;;;
  fix_variable now (TVar (S_ "x" [5])) 1%Qc).
Proof. vm_compute. reflexivity. Qed.
(** 644-707 *)
Example test_logical_model_fix_qubo : passes Qubo (
  vs "a" [6]%Z ;;; eight (fun i => B_ "a" [i]) ;;;
  raises ValueError (fix_variable now (TVar (B_ "a" [0])) (qz (-1))) ;;;
  fix_variable now (TVar (B_ "a" [0])) 1%Qc ;;; fixed_are 1 "a[0]" (-11) ;;; shows (by_name "a[0]") gone ;;;
  fix_variable now (TVar (B_ "a" [2])) 1%Qc ;;; fixed_are 2 "a[2]" (-41) ;;;
  shows (by_name "a[2]") gone ;;; shows (by_name "a[1]*a[2]") gone ;;; shows (by_name "my interaction") gone ;;;
  shows (by_name "a[1] (before fixed: a[1]*a[2])") (became "a[1]" 40) ;;;
  shows (by_name "a[1] (before fixed: my interaction)") (became "a[1]" 45) ;;;
  fix_variable now (TVar (B_ "a" [4])) 0%Qc ;;; shows (by_name "a[4]") gone ;;; shows (by_name "a[3]*a[4]") gone ;;;
  fix_variable now (TVar (B_ "a" [5])) 1%Qc).
Proof. vm_compute. reflexivity. Qed.
(** 710-719 *)
Example test_logical_model_fix_invalid_argument : passes Ising (
  raises TypeError (fix_variable now a_string 1%Qc) ;;; raises ValueError (fix_variable now TNone 1%Qc)).
Proof. vm_compute. reflexivity. Qed.
