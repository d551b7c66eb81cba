(** * ConformanceModel: the tests of tests/model/test_logical_model.py,
    test_logical_model_converts.py, test_physical_model.py and tests/model/constraint,
    run on the model (see Conformance). *)
From Verif Require Import PyBase PyLemmas Numbers Constraint LogicalModel Physical Select ModelEq Entry Samples NppStream Conformance.
Local Open Scope string_scope.
Local Open Scope list_scope.

(** ** tests/model/test_logical_model.py *)
(** 42-61 *)
Example test_logical_model_constructor :
  (match logical_model (MtStr "ising") with Ok m => String.eqb (get_mtype m) "ising" | _ => false end) &&
  (match logical_model (MtStr "qubo") with Ok m => String.eqb (get_mtype m) "qubo" | _ => false end) = true.
Proof. vm_compute. reflexivity. Qed.
Example test_logical_model_invalid_mtype :
  all [MtStr ""; MtStr "invalidtype"; MtOther] (fun a => raised_by ValueError (logical_model a)) = true.
Proof. vm_compute. reflexivity. Qed.
(** 64-77 *)
Definition test_empty (v : vtype) : LM unit :=
  vs "x" [10; 10]%Z ;;; add (TVar (el v "x" [0; 0])) 10 ;;;
  check (fun m => let e := empty_of m in
    String.eqb (get_mtype e) (get_mtype m) && Nat.eqb (length (m_vars e)) 0 && Nat.eqb (length (m_rows e)) 0 && Nat.eqb (length (m_cols e)) 0 && Nat.eqb (m_len e) 0).
Example test_logical_model_empty : passes Ising (test_empty Spin) /\ passes Qubo (test_empty Binary).
Proof. split; vm_compute; reflexivity. Qed.

(** 85-129 *)
Definition declares (n : string) (sh : list Z) : LM unit :=
  vs n sh ;;; a <- get_variables_by_name n ;; expect (if list_eq_dec Z.eq_dec (a_shape a) sh then true else false).
Example test_logical_model_variables :
  passes Ising (declares "x" [2]%Z ;;; check (fun m => Nat.eqb (length (m_vars m)) 1)) /\
  passes Ising (declares "x" [3; 4]%Z ;;; check (fun m => Nat.eqb (length (m_vars m)) 1)) /\
  passes Ising (declares "x" [5; 6; 7]%Z ;;; check (fun m => Nat.eqb (length (m_vars m)) 1)).
Proof. repeat split; vm_compute; reflexivity. Qed.
Example test_logical_model_multi_variables : passes Qubo (
  declares "x" [5; 6; 7]%Z ;;; check (fun m => has "x" (m_vars m) && negb (has "y" (m_vars m))) ;;; raises KeyError (get_variables_by_name "y") ;;;
  declares "y" [5; 6; 7]%Z ;;; check (fun m => Nat.eqb (length (m_vars m)) 2 && has "x" (m_vars m) && has "y" (m_vars m))).
Proof. vm_compute. reflexivity. Qed.
Example test_logical_model_variables_invalid : passes Ising (
  raises TypeError (variables VNameBad (ShTuple [ShInt 2; ShInt 3])) ;;; raises TypeError (variables (VName "x") ShBad) ;;;
  raises TypeError (variables (VName "x") (ShTuple [])) ;;; raises TypeError (variables (VName "x") (ShTuple [ShBadElem; ShBadElem]))).
Proof. vm_compute. reflexivity. Qed.
Example test_logical_model_variables_comma : passes Ising (raises AssertionError (vs "x*y" [2; 2]%Z)).
Proof. vm_compute. reflexivity. Qed.
(** 132-160 *)
Definition appends (n : string) (sh : list Z) : LM unit := append (VName n) (ShTuple (map ShInt sh)).
Example test_logical_model_variables_append :
  passes Ising (vs "x" [2]%Z ;;; check (shape_is "x" [2]%Z) ;;; appends "x" [1]%Z ;;; check (shape_is "x" [3]%Z)) /\
  passes Ising (vs "x" [44; 33]%Z ;;; check (shape_is "x" [44; 33]%Z) ;;; appends "x" [22; 11]%Z ;;; check (shape_is "x" [66; 44]%Z)).
Proof. split; vm_compute; reflexivity. Qed.
Example test_logical_model_variables_append_without_initialize :
  passes Ising (appends "x" [2]%Z ;;; check (shape_is "x" [2]%Z)) /\ passes Ising (appends "x" [33; 44]%Z ;;; check (shape_is "x" [33; 44]%Z)).
Proof. split; vm_compute; reflexivity. Qed.
Example test_logical_model_variables_append_invalid :
  passes Ising (vs "x" [2; 2]%Z ;;; raises TypeError (append (VName "x") (ShTuple [ShBadElem; ShBadElem]))).
Proof. vm_compute. reflexivity. Qed.
(** 163-181 *)
Definition test_from_array (v : vtype) (c : array -> LM unit) : LM unit := a <- lift (array_create "x" [2; 3]%Z v) ;; c a.
Definition same_array (a : array) : LM unit :=
  variables (VArray a) ShBad ;;; b <- get_variables_by_name "x" ;; expect (decb (array_eq_dec a b)).
Example test_logical_model_variables_from_pyqubo :
  passes Ising (test_from_array Spin same_array) /\ passes Qubo (test_from_array Binary same_array).
Proof. split; vm_compute; reflexivity. Qed.
Example test_logical_model_variables_from_pyqubo_mismatch :
  passes Qubo (test_from_array Spin (fun a => raises TypeError (variables (VArray a) ShBad))) /\
  passes Ising (test_from_array Binary (fun a => raises TypeError (variables (VArray a) ShBad))).
Proof. split; vm_compute; reflexivity. Qed.

(** 189-235. (sum x - sum y) ** 2 as PyQUBO compiles it: x*x = x for a binary. *)
Definition pairs_of {A} (l : list A) : list (A * A) :=
  (fix go l := match l with [] => [] | a :: r => map (fun b => (a, b)) r ++ go r end) l.
Definition squared_difference (c : Qc -> coef) (rest : list nat) (off : coef) : pqmodel :=
  let x i := "x" +++ brackets (i :: rest) in let y i := "y" +++ brackets (i :: rest) in
  mkPq (map (fun i => ((x i, x i), c 1%Qc)) (seq 0 10) ++ map (fun i => ((y i, y i), c 1%Qc)) (seq 0 10) ++
        map (fun ij => ((x (fst ij), x (snd ij)), c (qz 2))) (pairs_of (seq 0 10)) ++
        map (fun ij => ((y (fst ij), y (snd ij)), c (qz 2))) (pairs_of (seq 0 10)) ++
        map (fun ij => ((x (fst ij), y (snd ij)), c (qz (-2)))) (list_prod (seq 0 10) (seq 0 10)))
       (map (fun i => (x i, ("x", i :: rest))) (seq 0 10) ++ map (fun i => (y i, ("y", i :: rest))) (seq 0 10)) off.
Definition imports (pq : pqmodel) : LM unit := fun m => match from_pyqubo now m pq with (m', _, r) => (m', r) end.
(** The coefficient of the row with the given name, without building the frame. *)
Definition row_coef (n : string) (q : Qc) : lmodel -> bool := fun m =>
  existsb (fun r => String.eqb (r_name r) n && match ceval [] (r_coef r) with Some x => Qc_eqb x q | None => false end) (m_rows m).
Definition ix (n : string) (i : nat) : string := n +++ brackets [i].
Example test_logical_model_from_pyqubo_expression : passes Qubo (
  vs "x" [10]%Z ;;; vs "y" [10]%Z ;;;
  imports (squared_difference (fun q => CNum q) [] (CNum 0%Qc)) ;;;
  check (fun m => all (seq 0 10) (fun i => row_coef (ix "x" i) (qz (-1)) m) &&
    all (pairs_of (seq 0 10)) (fun ij =>
      row_coef (ix "x" (fst ij) +++ "*" +++ ix "x" (snd ij)) (qz (-2)) m &&
      row_coef (ix "y" (fst ij) +++ "*" +++ ix "y" (snd ij)) (qz (-2)) m &&
      row_coef (ix "x" (fst ij) +++ "*" +++ ix "y" (snd ij)) (qz 2) m)) ;;;
  offset_is 0%Qc).
Proof. vm_compute. reflexivity. Qed.
Example test_logical_model_from_pyqubo_model_with_placeholder : passes Qubo (
  vs "x" [10; 2]%Z ;;; vs "y" [10; 2]%Z ;;;
  imports (squared_difference (fun q => cmul (CNum q) (CPh "A")) [0] (CNum (qz 10))) ;;;
  p <- physical_of 0 [("A", qz 2)] ;;
  expect (let x i := "x" +++ brackets [i; 0] in let y i := "y" +++ brackets [i; 0] in
    all (seq 0 10) (fun i => lin_is p (x i) (qz (-2))) &&
    all (pairs_of (seq 0 10)) (fun ij =>
      quad_is p (x (fst ij)) (x (snd ij)) (qz (-4)) && quad_is p (y (fst ij)) (y (snd ij)) (qz (-4)) && quad_is p (x (fst ij)) (y (snd ij)) (qz 4)) &&
    Qc_eqb (p_offset p) (qz 10))).
Proof. vm_compute. reflexivity. Qed.
Example test_logical_model_from_pyqubo_invalid :
  raised_by TypeError (snd (from_pyqubo_checked (fun _ : unit => Err ValueError) now (new_model Qubo) PqOther)) = true.
Proof. vm_compute. reflexivity. Qed.

(** 261-346 *)
Definition nhot_of (a : varsarg) (n : Z) (l : string) : LM unit := c <- lift (mk_nhot (Some a) (Some n) (Some l) (Some 1%Qc)) ;; add_constraint (Some c).
(** c.add_variable on the constraint object the model holds under [l]. *)
Definition mutate (l : string) (op : M constr unit) : LM unit :=
  c <- get_constraints_by_label l ;; let '(c', r) := op c in modify (fun m => with_constrs (dset l c' (m_constrs m)) m) ;;; lift r.
Example test_logical_model_n_hot_constraint_x : passes Ising (
  vs "x" [3]%Z ;;; x <- of_array "x" ;;
  nhot_of (VA_one (S_ "x" [0])) 1 default_nhot ;;; constraints_are 1 [default_nhot] ;;; constraint_is default_nhot 1 1 ;;;
  nhot_of (VA_array (skipn 1 x)) 1 default_nhot ;;; constraints_are 1 [default_nhot] ;;; constraint_is default_nhot 1 2 ;;;
  nhot_of (VA_array x) 2 default_nhot ;;; constraints_are 1 [default_nhot] ;;; constraint_is default_nhot 2 3 ;;;
  nhot_of (VA_array x) 2 default_nhot ;;; constraints_are 1 [default_nhot] ;;; constraint_is default_nhot 2 3).
Proof. vm_compute. reflexivity. Qed.
Example test_logical_model_n_hot_constraint_y : passes Ising (
  vs "y" [2; 2]%Z ;;;
  nhot_of (VA_array [S_ "y" [0; 0]; S_ "y" [0; 1]]) 2 "my label" ;;; constraints_are 1 ["my label"] ;;; constraint_is "my label" 2 2 ;;;
  nhot_of (VA_list [Some (S_ "y" [1; 0]); Some (S_ "y" [1; 1])]) 2 "my label" ;;; constraints_are 1 ["my label"] ;;; constraint_is "my label" 2 2 ;;;
  mutate "my label" (c_add_variable (VA_list [Some (S_ "y" [0; 0])])) ;;; constraints_are 1 ["my label"] ;;; constraint_is "my label" 2 3).
Proof. vm_compute. reflexivity. Qed.
Example test_logical_model_n_hot_constraint_remove : passes Ising (
  vs "y" [2; 2]%Z ;;; y <- of_array "y" ;; nhot y 1 "my label" 1 ;;; constraints_are 1 ["my label"] ;;;
  remove_constraint (Some "my label") ;;; constraints_are 0 []).
Proof. vm_compute. reflexivity. Qed.
Example test_logical_model_multiple_constraints_n_hot_and_n_hot : passes Ising (
  vs "x" [2; 4]%Z ;;; x <- of_array "x" ;;
  nhot (firstn 4 x) 1 "l1" 1 ;;; constraints_are 1 ["l1"] ;;; constraint_is "l1" 1 4 ;;; raises KeyError (get_constraints_by_label "l2") ;;;
  nhot (skipn 4 x) 1 "l2" 1 ;;; constraints_are 2 ["l1"; "l2"] ;;; constraint_is "l1" 1 4 ;;; constraint_is "l2" 1 4).
Proof. vm_compute. reflexivity. Qed.
Example test_logical_model_multiple_constraints_n_hot_and_equality : passes Ising (
  vs "x" [3; 4]%Z ;;; x <- of_array "x" ;;
  nhot (firstn 4 x) 1 "l1" 1 ;;; constraints_are 1 ["l1"] ;;; constraint_is "l1" 1 4 ;;; raises KeyError (get_constraints_by_label "l2") ;;;
  (c <- lift (mk_equality (Some (VA_array (firstn 4 (skipn 4 x)))) (Some (VA_array (skipn 8 x))) (Some "l2") (Some 1%Qc)) ;; add_constraint (Some c)) ;;;
  constraints_are 2 ["l1"; "l2"] ;;; c <- get_constraints_by_label "l2" ;; expect (match c with Equality _ _ _ _ => true | _ => false end)).
Proof. vm_compute. reflexivity. Qed.

(** 363-400 *)
Example test_logical_model_get_deleted_array : passes Ising (
  vs "x" [2]%Z ;;; check (fun m => Nat.eqb (length (get_deleted_array m)) 0) ;;; delete_variable (TVar (S_ "x" [0])) ;;;
  check (fun m => Nat.eqb (length (get_deleted_array m)) 1 && mem "x[0]" (get_deleted_array m))).
Proof. vm_compute. reflexivity. Qed.
Definition foo_is (a : aval) (d : dict string aval) : bool :=
  Nat.eqb (length d) 1 && match dget "attributes.foo" d with Some b => decb (aval_eq_dec a b) | None => false end.
Example test_logical_model_get_attributes : passes Ising (
  vs "x" [2]%Z ;;; add (TVar (S_ "x" [0])) 10 ;;;
  add_interaction now (TVar (S_ "x" [1])) no_name (num 11) (num 1) (AtDict [("foo", AStr "bar")]) TsNone ;;;
  (d <- get_attributes (TVar (S_ "x" [0])) no_name ;; expect (foo_is ANan d)) ;;;
  (d <- get_attributes (TVar (S_ "x" [1])) no_name ;; expect (foo_is (AStr "bar") d)) ;;;
  (d <- get_attributes TNone (NStr "x[1]") ;; expect (foo_is (AStr "bar") d)) ;;;
  (a <- get_attribute (TVar (S_ "x" [1])) no_name (Some "attributes.foo") ;; expect (decb (aval_eq_dec a (AStr "bar")))) ;;;
  raises KeyError (get_attribute TNone (NStr "x[1]") (Some "attributes.foofoo"))).
Proof. vm_compute. reflexivity. Qed.

(** 408-440 *)
Definition model_for_eq : LM unit :=
  vs "x" [4]%Z ;;; vs "z" [4]%Z ;;; z <- of_array "z" ;;
  add_interaction now (TVar (S_ "x" [0])) no_name (f 11 10) (num 1) AtNone TsNone ;;;
  add_interaction now (pr (S_ "x" [0]) (S_ "x" [1])) no_name (f 22 10) (f 33 10) (AtDict [("foo", AStr "bar")]) TsNone ;;;
  add_interaction now (TVar (S_ "x" [2])) no_name (f 44 10) (num 1) AtNone TsNone ;;;
  add_interaction now (TVar (S_ "x" [3])) no_name (f 55 10) (num 1) AtNone TsNone ;;;
  rem (TVar (S_ "x" [2])) ;;; fix_variable now (TVar (S_ "x" [3])) 1%Qc ;;;
  nhot z 1 default_nhot 1.
Example test_logical_model_eq : passes Ising (model_for_eq ;;; check (fun m => model_eqb m (Some m) && negb (model_neb m (Some m)))).
Proof. vm_compute. reflexivity. Qed.
Example test_logical_model_ne : model_neb (new_model Ising) (Some (new_model Qubo)) && model_neb (new_model Ising) None = true.
Proof. vm_compute. reflexivity. Qed.

(** ** tests/model/test_logical_model_converts.py *)
Definition dirty_are (b : bool) (ns : list string) : LM unit := mfor ns (fun n => shows (by_name n) [("dirty", CBool b)]).
Definition sizes_of (p : physical) (l q : nat) : bool := Nat.eqb (length (p_linear p)) l && Nat.eqb (length (p_quad p)) q.
(** 39-68 *)
Definition test_to_physical (v : vtype) : LM unit :=
  vs "x" [2]%Z ;;; add (TVar (el v "x" [0])) 1 ;;; add (pr (el v "x" [0]) (el v "x" [1])) (-1) ;;; dirty_are true ["x[0]"; "x[0]*x[1]"] ;;;
  m <- get ;; p <- physical_of 0 [] ;;
  expect (mtype_eqb (p_mtype p) (m_mtype m) && sizes_of p 1 1 && lin_is p "x[0]" 1 && quad_is p "x[0]" "x[1]" (qz (-1)) && index_is p ["x[0]"; "x[1]"]) ;;;
  dirty_are false ["x[0]"; "x[0]*x[1]"].
Example test_logical_model_to_physical : passes Ising (test_to_physical Spin) /\ passes Qubo (test_to_physical Binary).
Proof. split; vm_compute; reflexivity. Qed.
(** 71-97 *)
Example test_logical_model_to_physical_with_doubled_interactions : passes Ising (
  let x i := S_ "x" [i] in
  vs "x" [2]%Z ;;;
  add_interaction now (TVar (x 0)) no_name (num 2) (f 1 2) AtNone TsNone ;;; add_named (TVar (x 0)) "additional x[0]" (-2) ;;;
  add_interaction now (pr (x 0) (x 1)) no_name (num (-2)) (f 1 2) AtNone TsNone ;;; add_named (pr (x 0) (x 1)) "additional x[0]*x[1]" 2 ;;;
  let ns := ["x[0]"; "additional x[0]"; "x[0]*x[1]"; "additional x[0]*x[1]"] in
  dirty_are true ns ;;; p <- physical_of 0 [] ;;
  expect (sizes_of p 1 1 && lin_is p "x[0]" (qz (-1)) && quad_is p "x[0]" "x[1]" 1) ;;; dirty_are false ns).
Proof. vm_compute. reflexivity. Qed.
(** 100-128 *)
Example test_logical_model_to_physical_with_remove : passes Ising (
  vs "x" [2]%Z ;;; add (TVar (S_ "x" [0])) 1 ;;; add (TVar (S_ "x" [1])) 1 ;;; len_is 2 ;;; dirty_are true ["x[0]"; "x[1]"] ;;;
  shows (by_name "x[0]") [("removed", CBool false)] ;;; shows (by_name "x[1]") [("removed", CBool false)] ;;;
  rem (TVar (S_ "x" [1])) ;;; len_is 2 ;;; shows (by_name "x[0]") [("removed", CBool false)] ;;; shows (by_name "x[1]") [("removed", CBool true)] ;;;
  p <- physical_of 0 [] ;; expect (sizes_of p 1 0) ;;;
  shows (by_name "x[0]") [("removed", CBool false); ("dirty", CBool false)] ;;; counts (by_name "x[1]") 0).
Proof. vm_compute. reflexivity. Qed.
(** 131-166 *)
Definition all_pairs (s : nat) (g : string -> string -> bool) : bool :=
  all (list_prod (seq 0 s) (seq 0 s)) (fun ij => if String.ltb (ix "x" (fst ij)) (ix "x" (snd ij)) then g (ix "x" (fst ij)) (ix "x" (snd ij)) else true).
Definition test_nhot_qubo (n : Z) (s : nat) : LM unit :=
  vs "x" [Z.of_nat s] ;;; x <- of_array "x" ;; nhot x n default_nhot 1 ;;; p <- physical_of 0 [] ;;
  expect (all (seq 0 s) (fun i => lin_is p (ix "x" i) (qz (2 * n - 1))) && all_pairs s (fun a b => quad_is p a b (qz (-2)))).
Definition test_nhot_ising (n : Z) (s : nat) : LM unit :=
  vs "x" [Z.of_nat s] ;;; x <- of_array "x" ;; nhot x n default_nhot 1 ;;; p <- physical_of 0 [] ;;
  expect (all (seq 0 s) (fun i => if Z.eqb (Z.of_nat s) (2 * n) then negb (has (ix "x" i) (p_linear p)) else lin_is p (ix "x" i) (fl (-(Z.of_nat s - 2 * n)) 2))
          && all_pairs s (fun a b => quad_is p a b (fl (-1) 2))).
Definition nhot_cases : list (Z * nat) := [(1%Z, 2); (1%Z, 3); (2%Z, 3); (1%Z, 4); (2%Z, 4); (4%Z, 20)].
(** (4, 20) in place of the test's (10, 100). *)
Example test_logical_model_to_physical_with_n_hot_constraint_qubo :
  all nhot_cases (fun c => okb (test_nhot_qubo (fst c) (snd c) (new_model Qubo))) = true.
Proof. vm_compute. reflexivity. Qed.
Example test_logical_model_to_physical_with_n_hot_constraint_ising :
  all nhot_cases (fun c => okb (test_nhot_ising (fst c) (snd c) (new_model Ising))) = true.
Proof. vm_compute. reflexivity. Qed.
(** 169-204 *)
Example test_logical_model_to_physical_with_n_hot_constraint_randomly_qubo : passes Qubo (
  vs "x" [4]%Z ;;; x <- of_array "x" ;; nhot (firstn 2 x) 1 default_nhot 10 ;;;
  mutate default_nhot (c_add_variable (VA_one (B_ "x" [1]))) ;;; mutate default_nhot (c_add_variable (VA_one (B_ "x" [2]))) ;;;
  mutate default_nhot (c_add_variable (VA_array x)) ;;; p <- physical_of 0 [] ;;
  expect (all (seq 0 3) (fun i => lin_is p (ix "x" i) (qz 10)) && all (pairs_of (seq 0 3)) (fun ij => quad_is p (ix "x" (fst ij)) (ix "x" (snd ij)) (qz (-20))))).
Proof. vm_compute. reflexivity. Qed.
Example test_logical_model_to_physical_with_n_hot_constraint_randomly_ising : passes Ising (
  vs "x" [4]%Z ;;; x <- of_array "x" ;; nhot (firstn 2 x) 1 default_nhot 1 ;;;
  mutate default_nhot (c_add_variable (VA_one (S_ "x" [1]))) ;;; physical_of 0 [] ;;;
  mutate default_nhot (c_add_variable (VA_one (S_ "x" [2]))) ;;; physical_of 1 [] ;;;
  mutate default_nhot (c_add_variable (VA_array x)) ;;; p <- physical_of 2 [] ;;
  expect (all (seq 0 3) (fun i => lin_is p (ix "x" i) (qz (-1))) && all (pairs_of (seq 0 3)) (fun ij => quad_is p (ix "x" (fst ij)) (ix "x" (snd ij)) (fl (-1) 2)))).
Proof. vm_compute. reflexivity. Qed.
(** 207-230 *)
Definition ph (s : string) : coef := CPh s.
Definition k_ (z : Z) : coef := CNum (qz z).
Definition add_c (i : nat) (n : string) (c s : coef) : LM unit := add_interaction now (TVar (S_ "x" [i])) (NStr n) (AC c) (AC s) AtNone TsNone.
Example test_logical_model_to_physical_with_placeholder_ising : passes Ising (
  vs "x" [7]%Z ;;;
  add_c 0 "" (ph "a") (k_ 1) ;;; add_c 1 "" (cadd (ph "b") (k_ 1)) (k_ 1) ;;; add_c 2 "" (k_ 2) (k_ 1) ;;; add_c 2 "x[2]-2" (ph "c") (k_ 1) ;;;
  add_c 3 "" (cadd (cmul (k_ 2) (ph "d")) (cmul (k_ 3) (ph "e"))) (k_ 1) ;;; add_c 4 "" (ph "f") (k_ 3) ;;; add_c 5 "" (k_ 4) (ph "g") ;;;
  add_c 6 "" (ph "h") (cmul (ph "i") (k_ 5)) ;;; set_offset (ph "j") ;;;
  p <- physical_of 0 [("a", qz 1); ("b", qz 2); ("c", qz 3); ("d", qz 4); ("e", qz (-5)); ("f", qz 6); ("g", qz (-7)); ("h", qz 8); ("i", qz 9); ("j", qz 10)] ;;
  expect (all (combine (seq 0 7) [1; 3; 5; -7; 18; -28; 360]%Z) (fun iz => lin_is p (ix "x" (fst iz)) (qz (snd iz))) && Qc_eqb (p_offset p) (qz 10))).
Proof. vm_compute. reflexivity. Qed.
(** 233-243. ((a0 + a1 + a2 + a3) - 1) ** 2 * A as PyQUBO compiles it. *)
Definition one_hot_pq : pqmodel :=
  mkPq (map (fun i => ((ix "a" i, ix "a" i), cmul (k_ (-1)) (ph "A"))) (seq 0 4) ++
        map (fun ij => ((ix "a" (fst ij), ix "a" (snd ij)), cmul (k_ 2) (ph "A"))) (pairs_of (seq 0 4)))
       (map (fun i => (ix "a" i, ("a", [i]))) (seq 0 4)) (cmul (k_ 1) (ph "A")).
Example test_logical_model_to_physical_with_placeholder_qubo : passes Qubo (
  vs "a" [4]%Z ;;; imports one_hot_pq ;;; p <- physical_of 0 [("A", qz 2)] ;; expect (Qc_eqb (p_offset p) (qz 2))).
Proof. vm_compute. reflexivity. Qed.
(** 246-325 *)
Definition seven : LM unit :=
  vs "x" [3]%Z ;;; vs "y" [2; 2]%Z ;;;
  mfor [0; 1; 2] (fun i => add (TVar (S_ "x" [i])) (Z.of_nat i + 10)) ;;; mfor [0; 1] (fun j => add (pr (S_ "y" [j; 0]) (S_ "y" [j; 1])) (Z.of_nat j + 10)).
Example test_logical_model_to_physical_label_and_index : passes Ising (
  seven ;;; p <- physical_of 0 [] ;; expect (index_is p ["x[0]"; "x[1]"; "x[2]"; "y[0][0]"; "y[0][1]"; "y[1][0]"; "y[1][1]"])).
Proof. vm_compute. reflexivity. Qed.
Example test_logical_model_to_physical_with_deleted_variables : passes Ising (
  seven ;;; delete_variable (TVar (S_ "x" [0])) ;;; p <- physical_of 0 [] ;; expect (index_is p ["x[1]"; "x[2]"; "y[0][0]"; "y[0][1]"; "y[1][0]"; "y[1][1]"])).
Proof. vm_compute. reflexivity. Qed.
Example test_logical_model_to_physical_with_fixed_variables : passes Ising (
  vs "x" [2]%Z ;;; add (TVar (S_ "x" [0])) 100 ;;; add (TVar (S_ "x" [1])) 1 ;;; fix_variable now (TVar (S_ "x" [0])) 1%Qc ;;;
  p <- physical_of 0 [] ;; expect (index_is p ["x[1]"] && Qc_eqb (p_offset p) (qz (-100)))).
Proof. vm_compute. reflexivity. Qed.
Example test_logical_model_to_physical_with_non_active_variables : passes Ising (
  vs "x" [2; 2]%Z ;;; add (TVar (S_ "x" [0; 1])) 1 ;;; add (TVar (S_ "x" [1; 0])) 2 ;;; add (TVar (S_ "x" [1; 1])) 3 ;;;
  p <- physical_of 0 [] ;; expect (index_is p ["x[0][1]"; "x[1][0]"; "x[1][1]"])).
Proof. vm_compute. reflexivity. Qed.

(** 328-439. The clock of each conversion differs. *)
Definition row_is (i : nat) (n : string) (q : Qc) : lmodel -> bool := fun m =>
  match nth_error (m_rows m) i with
  | Some r => String.prefix n (r_name r) && match ceval [] (r_coef r) with Some x => Qc_eqb x q | None => false end
  | None => false end.
Definition all_vars (t : vtype) : lmodel -> bool := fun m =>
  Nat.eqb (length (m_vars m)) 2 && all (m_vars m) (fun na => all (a_bits (snd na)) (fun v => vtype_eqb (v_type v) t)).
Definition is_type (t : mtype) : LM unit := check (fun m => mtype_eqb (m_mtype m) t).
Example test_logical_model_convert_model_type : passes Qubo (
  let x i := B_ "x" [i] in
  vs "x" [3]%Z ;;; vs "y" [2; 2]%Z ;;; add (TVar (x 0)) 10 ;;; add (TVar (x 1)) 11 ;;; add (pr (x 1) (x 2)) 12 ;;;
  add (TVar (B_ "y" [0; 0])) (-20) ;;; add (TVar (B_ "y" [1; 1])) (-22) ;;; rem (TVar (B_ "y" [0; 0])) ;;;
  to_ising (later_ 1) ;;; is_type Ising ;;; check (all_vars Spin) ;;; len_is 7 ;;;
  check (row_is 0 "x[0]" (qz 5)) ;;; check (row_is 1 "x[1]" (fl 11 2)) ;;; check (row_is 2 "x[1]*x[2]" (qz 3)) ;;;
  check (fun m => match nth_error (m_rows m) 3 with Some r => String.eqb (r_name r) "y[0][0]" && r_removed r | None => false end) ;;;
  check (row_is 4 "y[1][1]" (qz (-11))) ;;;
  check (row_is 5 "x[1] from x[1]*x[2] (mtype additional" (qz 3)) ;;; check (row_is 6 "x[2] from x[1]*x[2] (mtype additional" (qz 3)) ;;;
  offset_is (fl 5 2) ;;;
  p1 <- physical_of 2 [] ;;
  expect (mtype_eqb (p_mtype p1) Ising && sizes_of p1 4 1 && lin_is p1 "x[0]" (qz 5) && lin_is p1 "x[1]" (fl 17 2) && lin_is p1 "x[2]" (qz 3) &&
          lin_is p1 "y[1][1]" (qz (-11)) && quad_is p1 "x[1]" "x[2]" (qz 3)) ;;;
  to_ising (later_ 3) ;;; is_type Ising ;;;
  convert_mtype (later_ 4) ;;; is_type Qubo ;;; check (all_vars Binary) ;;; len_is 8 ;;;
  check (row_is 0 "x[0]" (qz 10)) ;;; check (row_is 1 "x[1]" (qz 11)) ;;; check (row_is 2 "x[1]*x[2]" (qz 12)) ;;; check (row_is 3 "y[1][1]" (qz (-22))) ;;;
  check (row_is 4 "x[1] from x[1]*x[2] (mtype additional" (qz 6)) ;;; check (row_is 5 "x[2] from x[1]*x[2] (mtype additional" (qz 6)) ;;;
  check (row_is 6 "x[1] from x[1]*x[2] (mtype additional" (qz (-6))) ;;; check (row_is 7 "x[2] from x[1]*x[2] (mtype additional" (qz (-6))) ;;;
  offset_is 0%Qc ;;;
  p2 <- physical_of 5 [] ;;
  expect (mtype_eqb (p_mtype p2) Qubo && sizes_of p2 3 1 && lin_is p2 "x[0]" (qz 10) && lin_is p2 "x[1]" (qz 11) && lin_is p2 "y[1][1]" (qz (-22)) &&
          quad_is p2 "x[1]" "x[2]" (qz 12)) ;;;
  to_qubo (later_ 6) ;;; is_type Qubo ;;;
  convert_mtype (later_ 7) ;;; is_type Ising ;;; p3 <- physical_of 8 [] ;; expect (mtype_eqb (p_mtype p3) Ising && physical_eqb p3 p1) ;;;
  to_qubo (later_ 9) ;;; is_type Qubo).
Proof. vm_compute. reflexivity. Qed.

(** 442-500 *)
Definition built (t : mtype) (c : LM unit) : lmodel := fst (c (new_model t)).
Definition ising_x22 : lmodel := built Ising (vs "x" [2; 2]%Z ;;; add (TVar (S_ "x" [0; 0])) 10 ;;;
  add_interaction now (pr (S_ "x" [0; 0]) (S_ "x" [1; 1])) no_name (num 11) (num 1) (AtDict [("foo1", AStr "bar1"); ("myattr", AStr "mymy")]) TsNone).
Definition qubo_a22 : lmodel := built Qubo (vs "a" [2; 2]%Z ;;; add (TVar (B_ "a" [0; 0])) 10 ;;; add (pr (B_ "a" [0; 0]) (B_ "a" [1; 1])) 11).
Definition ising_y22 : lmodel := built Ising (vs "y" [2; 2]%Z ;;; add (TVar (S_ "y" [0; 0])) 10 ;;; add (pr (S_ "y" [0; 0]) (S_ "y" [1; 1])) 11).
Definition ising_z3 : lmodel := built Ising (vs "z" [3]%Z ;;; z <- of_array "z" ;; nhot z 1 default_nhot 1).
Definition ising_x44 : lmodel := built Ising (vs "x" [4; 4]%Z ;;; add (TVar (S_ "x" [0; 0])) 20 ;;;
  add_interaction now (pr (S_ "x" [1; 1]) (S_ "x" [2; 2])) no_name (num 21) (num 1) (AtDict [("foo2", AStr "bar2")]) TsNone ;;;
  add_interaction now (TVar (S_ "x" [3; 3])) no_name (num 22) (num 2) (AtDict [("myattr", AStr "mymymymy")]) (TsNum (qz 12345))).
Definition ising_x999 : lmodel := built Ising (vs "x" [9; 9; 9]%Z).
Definition merges (o : lmodel) : LM unit := fun m => match merge_checked (later_ 1) (later_ 2) 0 m (Some o) with (m', _, r) => (m', r) end.
Definition does (m : lmodel) (c : LM unit) : Prop := snd (c m) = Ok tt.
Definition columns_have (n : nat) : LM unit := check (fun m => Nat.eqb (m_len m) n && Nat.eqb (length (m_rows m)) n && all (m_cols m) (fun c => Nat.eqb (length (snd c)) n)).
Definition plain_sizes : LM unit := offset_is 0%Qc ;;; check (fun m => Z.eqb (get_deleted_size m) 0 && Z.eqb (get_fixed_size m) 0).
(** 503-535 *)
Definition check_merge_of_x22_y22 : LM unit :=
  check (fun m => has "x" (m_vars m) && has "y" (m_vars m) && shape_is "x" [2; 2]%Z m && shape_is "y" [2; 2]%Z m) ;;; columns_have 4 ;;;
  counts (by_key "x[0][0]") 1 ;;; shows (by_key "x[0][0]") [("coefficient", numb 10)] ;;;
  shows (by_name "x[0][0]*x[1][1]") [("attributes.foo1", CText "bar1"); ("attributes.myattr", CText "mymy")] ;;; plain_sizes.
Example test_logical_model_merge_x22_y22 :
  does ising_x22 (merges ising_y22 ;;; check_merge_of_x22_y22) /\ does ising_y22 (merges ising_x22 ;;; check_merge_of_x22_y22).
Proof. split; vm_compute; reflexivity. Qed.
(** 538-577 *)
Definition check_merge_of_x22_x44 : LM unit :=
  check (fun m => has "x" (m_vars m) && negb (has "y" (m_vars m)) && shape_is "x" [4; 4]%Z m) ;;; columns_have 5 ;;;
  counts (by_key "x[0][0]") 2 ;;;
  (rows <- select (by_key "x[0][0]") ;;
   expect (match map (dget "coefficient") rows with [Some (CNumb a); Some (CNumb b)] => Qc_eqb (a + b)%Qc (qz 30) | _ => false end)) ;;;
  shows (by_name "x[0][0]*x[1][1]") [("attributes.foo1", CText "bar1"); ("attributes.foo2", CNan); ("attributes.myattr", CText "mymy")] ;;;
  shows (by_name "x[1][1]*x[2][2]") [("attributes.foo1", CNan); ("attributes.foo2", CText "bar2")] ;;;
  shows (by_name "x[3][3]") [("scale", numb 2); ("timestamp", numb 12345); ("attributes.myattr", CText "mymymymy")] ;;; plain_sizes.
Example test_logical_model_merge_x22_x44 :
  does ising_x22 (merges ising_x44 ;;; check_merge_of_x22_x44) /\ does ising_x44 (merges ising_x22 ;;; check_merge_of_x22_x44).
Proof. split; vm_compute; reflexivity. Qed.
(** 580-624 *)
Example test_logical_model_merge_with_constraints : does ising_x22 (
  merges ising_z3 ;;; constraints_are 1 [default_nhot] ;;; constraint_is default_nhot 1 3 ;;; len_is 2 ;;; p <- physical_of 0 [] ;; expect (sizes_of p 4 4)).
Proof. vm_compute. reflexivity. Qed.
Example test_logical_model_merge_with_constraints_both : does ising_x22 (
  vs "z" [2]%Z ;;; z <- of_array "z" ;; nhot z 2 "my label" 1 ;;; merges ising_z3 ;;;
  constraints_are 2 [default_nhot; "my label"] ;;; constraint_is default_nhot 1 3 ;;; constraint_is "my label" 2 2 ;;; len_is 2 ;;;
  p <- physical_of 0 [] ;; expect (sizes_of p 4 4)).
Proof. vm_compute. reflexivity. Qed.
Example test_logical_model_merge_with_constraints_both_invalid : does ising_x22 (
  vs "z" [2]%Z ;;; z <- of_array "z" ;; nhot z 1 default_nhot 1 ;;; raises ValueError (merges ising_z3)).
Proof. vm_compute. reflexivity. Qed.
(** 627-661 *)
Definition after (m : lmodel) (c : LM unit) : lmodel := fst (c m).
Example test_logical_model_merge_with_delete : does ising_x22 (
  delete_variable (TVar (S_ "x" [1; 1])) ;;; merges (after ising_x44 (delete_variable (TVar (S_ "x" [3; 3])))) ;;;
  check (fun m => Z.eqb (get_deleted_size m) 2 && mem "x[1][1]" (get_deleted_array m) && mem "x[3][3]" (get_deleted_array m)) ;;;
  shows (by_name "x[0][0]*x[1][1]") [("removed", CBool true)] ;;; shows (by_name "x[1][1]*x[2][2]") [("removed", CBool false)] ;;;
  shows (by_name "x[3][3]") [("removed", CBool true)]).
Proof. vm_compute. reflexivity. Qed.
Example test_logical_model_merge_with_fix : does ising_x22 (
  fix_variable now (TVar (S_ "x" [1; 1])) 1%Qc ;;; merges (after ising_x44 (fix_variable now (TVar (S_ "x" [3; 3])) (qz (-1)))) ;;;
  check (fun m => Z.eqb (get_fixed_size m) 2 && mem "x[1][1]" (get_fixed_array m) && mem "x[3][3]" (get_fixed_array m)) ;;;
  shows (by_name "x[0][0]*x[1][1]") [("removed", CBool true)] ;;; shows (by_name "x[1][1]*x[2][2]") [("removed", CBool false)] ;;;
  shows (by_name "x[3][3]") [("removed", CBool true)] ;;;
  shows (by_name "x[0][0] (before fixed: x[0][0]*x[1][1])") [("coefficient", numb 11)] ;;; offset_is (qz 44)).
Proof. vm_compute. reflexivity. Qed.
(** 664-697 *)
Definition one (k : string) : query := QAnd (QEq "body" (LNum 1%Qc)) (QEq "key_0" (LText k)).
Definition two (a b : string) : query := QAnd (QAnd (QEq "body" (LNum (qz 2))) (QEq "key_0" (LText a))) (QEq "key_1" (LText b)).
Definition vars_are (l : list string) : LM unit := check (fun m => if list_eq_dec string_dec (dkeys (m_vars m)) l then true else false).
Definition cq (n : Z) (d : positive) : list (string * cell) := [("coefficient", CNumb (fl n d))].
Example test_logical_model_merge_x22_and_a22 : does ising_x22 (
  merges qubo_a22 ;;; is_type Ising ;;; vars_are ["x"; "a"] ;;;
  shows (one "x[0][0]") (cq 10 1) ;;; shows (two "x[0][0]" "x[1][1]") (cq 11 1) ;;;
  shows (one "a[0][0]") (cq 5 1) ;;; shows_at 1 (one "a[0][0]") (cq 11 4) ;;; shows (one "a[1][1]") (cq 11 4) ;;;
  shows (two "a[0][0]" "a[1][1]") (cq 11 4) ;;; offset_is (fl 31 4)).
Proof. vm_compute. reflexivity. Qed.
Example test_logical_model_merge_a22_and_x22 : does qubo_a22 (
  merges ising_x22 ;;; is_type Qubo ;;; vars_are ["a"; "x"] ;;;
  shows (one "a[0][0]") (cq 10 1) ;;; shows (two "a[0][0]" "a[1][1]") (cq 11 1) ;;;
  shows (one "x[0][0]") (cq 20 1) ;;; shows_at 1 (one "x[0][0]") (cq (-22) 1) ;;; shows (one "x[1][1]") (cq (-22) 1) ;;;
  shows (two "x[0][0]" "x[1][1]") (cq 44 1) ;;; offset_is 1%Qc).
Proof. vm_compute. reflexivity. Qed.
(** 700-715 *)
Example test_logical_model_merge_x22_x999_invalid :
  does ising_x22 (raises ValueError (merges ising_x999)) /\ does ising_x999 (raises ValueError (merges ising_x22)) /\
  raised_by TypeError (snd (merge_checked (later_ 1) (later_ 2) 0 ising_x999 None)) = true.
Proof. repeat split; vm_compute; reflexivity. Qed.

(** ** tests/model/test_physical_model.py *)
(** 25-43 *)
Definition physical_fixture (v : vtype) : LM physical :=
  vs "x" [3]%Z ;;; delete_variable (TVar (el v "x" [0])) ;;; add (TVar (el v "x" [1])) 1 ;;; add (TVar (el v "x" [2])) 2 ;;; add (pr (el v "x" [1]) (el v "x" [2])) 3 ;;;
  physical_of 0 [].
(** 51-55 *)
Example test_physical_model_constructor :
  (match physical_model (MtStr "ising") with Ok p => mtype_eqb (p_mtype p) Ising | _ => false end) &&
  (match physical_model (MtStr "qubo") with Ok p => mtype_eqb (p_mtype p) Qubo | _ => false end) = true.
Proof. vm_compute. reflexivity. Qed.
(** 63-86 *)
Definition test_bqm (v : vtype) : LM unit :=
  p <- physical_fixture v ;; b <- lift (to_bqm (- (1))%Qc p) ;;
  expect (all [("x[1]", -1); ("x[2]", -2)]%Z (fun c => match dget (fst c) (b_linear b) with Some q => Qc_eqb q (qz (snd c)) | None => false end) &&
          match dget ("x[1]", "x[2]") (b_quad b) with Some q => Qc_eqb q (qz (-3)) | None => false end && Qc_eqb (b_offset b) 0%Qc).
Example test_convert_to_bqm : passes Ising (test_bqm Spin) /\ passes Qubo (test_bqm Binary).
Proof. split; vm_compute; reflexivity. Qed.
(** 89-99 *)
Example test_convert_to_polynomial : passes Ising (
  p <- physical_fixture Spin ;; expect (index_is p ["x[1]"; "x[2]"]) ;;;
  l <- lift (to_polynomial p) ;;
  expect (Nat.eqb (length l) 3 && all [(0, 0, qz (-1)); (1, 1, qz (-2)); (0, 1, qz (-3))]
    (fun t => existsb (fun u => Nat.eqb (fst (fst t)) (fst (fst u)) && Nat.eqb (snd (fst t)) (snd (fst u)) && Qc_eqb (snd t) (snd u)) l))).
Proof. vm_compute. reflexivity. Qed.
(** 107-117 *)
Example test_physical_model_eq :
  match physical_model (MtStr "ising"), physical_model (MtStr "qubo"), snd (physical_fixture Spin (new_model Ising)) with
  | Ok p, Ok q, Ok r => physical_eqb p p && negb (physical_eqb p q) && physical_eqb r r
  | _, _, _ => false end = true.
Proof. vm_compute. reflexivity. Qed.

(** ** tests/model/constraint *)
Definition same_set (a b : list var) : bool := set_eqb a b && Nat.eqb (length a) (length b).
Definition x0 : var := mkVar "x0" Spin.
Definition x1 : var := mkVar "x1" Spin.
Definition x2 : var := mkVar "x2" Binary.
Definition y0 : var := mkVar "y0" Binary.
Definition y1 : var := mkVar "y1" Binary.
Definition opt (l : list var) : list (option var) := map Some l.
Definition on_constr (r : res constr) (c : M constr unit) : Prop := match r with Ok x => snd (c x) = Ok tt | Err _ => False end.
Definition members (l : list var) : M constr unit := c <- get ;;
  expect (match c with NHot v _ _ _ | ZeroOrOne v _ _ => same_set v l | Equality _ _ _ _ => false end).
Definition sides (l r : list var) : M constr unit := c <- get ;;
  expect (match c with Equality v w _ _ => same_set v l && same_set w r | _ => false end).
Definition nhot0 (vs : option varsarg) (n : option Z) (l : option string) (s : option Qc) : res constr := mk_nhot vs n l s.
Definition d1 : option string := Some default_nhot.
Definition d2 : option string := Some default_zero_or_one.
Definition d3 : option string := Some default_equality.
Definition s1 : option Qc := Some 1%Qc.
Definition n1 : option Z := Some 1%Z.
(** test_n_hot_constraint.py 24-53, test_zero_or_one_hot_constraint.py 24-52 *)
Definition adding : M constr unit :=
  members [] ;;; c_add_variable (VA_one x0) ;;; members [x0] ;;; c_add_variable (VA_list (opt [x1; x2])) ;;; members [x0; x1; x2] ;;;
  c_add_variable (VA_set (opt [x0])) ;;; members [x0; x1; x2] ;;; c_add_variable (VA_list (opt [x0; x1])) ;;; members [x0; x1; x2] ;;;
  c_remove_variable (VA_list (opt [x0])) ;;; members [x1; x2] ;;; raises ValueError (c_remove_variable (VA_list (opt [x0]))).
Example test_n_hot_constraint : on_constr (mk_nhot None n1 d1 s1) adding /\ on_constr (mk_zero_or_one None d2 s1) adding.
Proof. split; vm_compute; reflexivity. Qed.
Definition arr_a : list var := [S_ "a" [0; 0]; S_ "a" [0; 1]; S_ "a" [1; 0]; S_ "a" [1; 1]].
(** test_n_hot_constraint.py 56-108 *)
Example test_n_hot_constraint_constructors :
  match mk_nhot (Some (VA_array arr_a)) n1 d1 s1, mk_nhot None (Some 2%Z) d1 s1, mk_nhot None n1 (Some "my label") s1, mk_nhot None n1 d1 (Some (qz 20)) with
  | Ok (NHot v 1%Z l s), Ok (NHot [] 2%Z _ _), Ok (NHot [] 1%Z l3 _), Ok (NHot [] 1%Z _ s4) =>
      same_set v arr_a && String.eqb l default_nhot && Qc_eqb s 1%Qc && String.eqb l3 "my label" && Qc_eqb s4 (qz 20)
  | _, _, _, _ => false end = true.
Proof. vm_compute. reflexivity. Qed.
Definition integers : varsarg := VA_set [None; None; None].
Example test_n_hot_constraint_errors :
  raised_by ValueError (mk_nhot None (Some (-10)%Z) d1 s1) && raised_by ValueError (mk_nhot None (Some 0%Z) d1 s1) &&
  raised_by ValueError (mk_nhot None n1 (Some "") s1) && raised_by TypeError (mk_nhot (Some VA_bad) n1 d1 s1) &&
  raised_by TypeError (mk_nhot (Some integers) n1 d1 s1) && raised_by TypeError (mk_nhot None None d1 s1) &&
  raised_by TypeError (mk_nhot None n1 None s1) && raised_by TypeError (mk_nhot None n1 d1 None) &&
  raised_by TypeError (mk_zero_or_one (Some VA_bad) d2 s1) && raised_by TypeError (mk_zero_or_one (Some integers) d2 s1) &&
  raised_by TypeError (mk_zero_or_one None None s1) && raised_by TypeError (mk_zero_or_one None d2 None) &&
  raised_by TypeError (mk_equality (Some VA_bad) None d3 s1) && raised_by TypeError (mk_equality (Some integers) None d3 s1) &&
  raised_by TypeError (mk_equality None (Some VA_bad) d3 s1) && raised_by TypeError (mk_equality None (Some integers) d3 s1) &&
  raised_by TypeError (mk_equality None None None s1) && raised_by TypeError (mk_equality None None d3 None) = true.
Proof. vm_compute. reflexivity. Qed.
(** Every two of the constraints differ; each equals itself. *)
Definition constr_res_eqb (a b : res constr) : bool := match a, b with Ok c, Ok d => constr_eqb c d | _, _ => false end.
Definition all_differ (l : list (res constr)) : bool :=
  all l (fun c => constr_res_eqb c c) && all (pairs_of l) (fun cd => negb (constr_res_eqb (fst cd) (snd cd))).
Definition va : var := mkVar "a" Spin.
Definition vb : var := mkVar "b" Binary.
Definition my : option string := Some "my label".
Definition s20 : option Qc := Some (qz 20).
(** test_n_hot_constraint.py 116-145, test_zero_or_one_hot_constraint.py 97-124 *)
Example test_n_hot_constraint_eq :
  constr_res_eqb (mk_nhot (Some (VA_set (opt [va; vb]))) (Some 2%Z) my s20) (mk_nhot (Some (VA_list (opt [va; vb]))) (Some 2%Z) my s20) &&
  all_differ [mk_nhot None n1 d1 s1; mk_nhot (Some (VA_list (opt [va; vb]))) (Some 2%Z) my s20; mk_nhot (Some (VA_set (opt [va; vb]))) n1 d1 s1;
    mk_nhot (Some (VA_one va)) n1 d1 s1; mk_nhot None (Some 2%Z) d1 s1; mk_nhot None n1 my s1; mk_nhot None n1 d1 s20] &&
  constr_res_eqb (mk_zero_or_one (Some (VA_set (opt [va; vb]))) my s20) (mk_zero_or_one (Some (VA_list (opt [va; vb]))) my s20) &&
  all_differ [mk_zero_or_one None d2 s1; mk_zero_or_one (Some (VA_list (opt [va; vb]))) my s20; mk_zero_or_one (Some (VA_set (opt [va; vb]))) d2 s1;
    mk_zero_or_one (Some (VA_one va)) d2 s1; mk_zero_or_one None my s1; mk_zero_or_one None d2 s20] = true.
Proof. vm_compute. reflexivity. Qed.
(** test_equality_constraint.py 24-63 *)
Example test_equality_constraint : on_constr (mk_equality None None d3 s1) (
  sides [] [] ;;; c_eq_add true (VA_one x0) ;;; sides [x0] [] ;;; c_eq_add true (VA_list (opt [x1])) ;;; sides [x0; x1] [] ;;;
  c_eq_add false (VA_set (opt [y0])) ;;; sides [x0; x1] [y0] ;;; c_eq_add false (VA_list (opt [y0; y1])) ;;; sides [x0; x1] [y0; y1] ;;;
  c_eq_remove true (VA_one x0) ;;; sides [x1] [y0; y1] ;;; c_eq_remove false (VA_one y1) ;;; sides [x1] [y0] ;;;
  raises ValueError (c_eq_remove true (VA_list (opt [x0]))) ;;; raises ValueError (c_eq_remove false (VA_list (opt [y1])))).
Proof. vm_compute. reflexivity. Qed.
(** test_equality_constraint.py 66-91, 120-149 *)
Example test_equality_constraint_constructors :
  on_constr (mk_equality (Some (VA_array arr_a)) None d3 s1) (sides arr_a []) /\ on_constr (mk_equality None (Some (VA_array arr_a)) d3 s1) (sides [] arr_a).
Proof. split; vm_compute; reflexivity. Qed.
Example test_equality_constraint_eq :
  let la := Some (VA_list (opt [va])) in let lb := Some (VA_list (opt [vb])) in let ab := Some (VA_set (opt [va; vb])) in
  constr_res_eqb (mk_equality (Some (VA_set (opt [va]))) (Some (VA_one vb)) my s20) (mk_equality la (Some (VA_one vb)) my s20) &&
  all_differ [mk_equality None None d3 s1; mk_equality la lb my s20; mk_equality la lb d3 s1; mk_equality ab None d3 s1; mk_equality None ab d3 s1;
    mk_equality (Some (VA_one va)) None d3 s1; mk_equality None (Some (VA_one va)) d3 s1; mk_equality (Some (VA_one vb)) None d3 s1;
    mk_equality None (Some (VA_one vb)) d3 s1; mk_equality None None my s1; mk_equality None None d3 s20] = true.
Proof. vm_compute. reflexivity. Qed.
