(** * ConformanceRun: the tests of tests/solver, tests/utils and tests/algorithm that
    do not depend on a random generator's numbers, run on the model (see Conformance). *)
From Verif Require Import PyBase PyLemmas Numbers Constraint LogicalModel Physical ModelEq Entry Samples Solver Services Npp Stream NppStream Conformance ConformanceModel.
Local Open Scope string_scope.
Local Open Scope list_scope.

(** ** tests/utils/test_functions.py 20-95 *)
Definition seq_is (r : res seqval) (s : seqval) : bool :=
  match r, s with
  | Ok (TupleV a), TupleV b | Ok (ListV a), ListV b => if list_eq_dec Qc_eq_dec a b then true else false
  | _, _ => false end.
Definition zs (l : list Z) : list Qc := map qz l.
Definition elementwise_case (op : seqval -> seqval -> res seqval) (c : list Z * list Z * list Z) : bool :=
  let '(a, b, y) := c in seq_is (op (TupleV (zs a)) (TupleV (zs b))) (TupleV (zs y)) && seq_is (op (ListV (zs a)) (ListV (zs b))) (ListV (zs y)).
Example test_elementwise :
  (all [([2], [1], [3]); ([44; 33], [22; 11], [66; 44]); ([66; 55; 44], [33; 22; 11], [99; 77; 55])]%Z (elementwise_case Services.elementwise_add) &&
  all [([2], [1], [1]); ([44; 33], [22; 11], [22; 22]); ([66; 55; 44], [33; 22; 11], [33; 33; 33])]%Z (elementwise_case Services.elementwise_sub) &&
  all [([2], [1], [2]); ([44; 33], [22; 11], [44; 33]); ([66; 55; 44], [33; 22; 11], [66; 55; 44])]%Z (elementwise_case Services.elementwise_max) &&
  all [([2], [1], [1]); ([44; 33], [22; 11], [22; 11]); ([66; 55; 44], [33; 22; 11], [33; 22; 11])]%Z (elementwise_case Services.elementwise_min) &&
  all [Services.elementwise_add; Services.elementwise_sub; Services.elementwise_max; Services.elementwise_min] (fun op => raised_by TypeError (op OtherV OtherV)))%bool = true.
Proof. vm_compute. reflexivity. Qed.

(** ** tests/utils/test_npp.py 21-81 *)
Definition found (l : list (list nat)) (g : list nat) : bool := existsb (fun x => if list_eq_dec Nat.eq_dec x g then true else false) l.
Definition npp_case (numbers : list Z) (ans : bool) (golden : list (list nat)) : bool :=
  match solve_npp_with_dp numbers true with
  | Ok (Some (b, p, q)) => Bool.eqb b ans && all golden (fun g => found p g && (if ans then found q g else true))
  | _ => false end.
Example test_solve_npp_with_dp :
  npp_case [1; 2; 4; 5]%Z true [[0; 3]; [1; 2]] && npp_case [1; 2; 4; 9]%Z false [[0; 1; 2]] && npp_case [1; 2; 4; 6]%Z false [[1; 2]; [3]] = true.
Proof. vm_compute. reflexivity. Qed.
Example test_solve_npp_with_dp_with_dp_table :
  npp_case [1; 1; 2; 3; 5; 8; 13; 21]%Z true
    [[0; 4; 7]; [1; 4; 7]; [0; 2; 3; 7]; [1; 2; 3; 7]; [0; 4; 5; 6]; [1; 4; 5; 6]; [0; 2; 3; 5; 6]; [1; 2; 3; 5; 6]] = true.
Proof. vm_compute. reflexivity. Qed.
(** The printed table's last cell lists the partitions in this order (line 81). *)
Example test_solve_npp_with_dp_order :
  match solve_npp_with_dp [1; 1; 2; 3; 5; 8; 13; 21]%Z true with
  | Ok (Some (_, p, _)) => p = [[0; 4; 7]; [1; 4; 7]; [0; 2; 3; 7]; [1; 2; 3; 7]; [0; 4; 5; 6]; [1; 4; 5; 6]; [0; 2; 3; 5; 6]; [1; 2; 3; 5; 6]]
  | _ => False end.
Proof. vm_compute. reflexivity. Qed.

(** ** tests/solver/test_local_solver.py *)
Definition no_neal : sampler := fun _ => Err (UserError 1).
Definition sample_is (ls : list string) (xs : list Z) (s : dict string Z) : bool :=
  all (combine ls xs) (fun lx => match dget (fst lx) s with Some z => Z.eqb z (snd lx) | None => false end) && Nat.eqb (length s) (length ls).
Definition exact_case (v : vtype) (n : string) (j : Z) (ground : list Z) (e : Z) : LM unit :=
  vs n [2]%Z ;;; add (TVar (el v n [0])) 1 ;;; add (TVar (el v n [1])) 2 ;;; add (pr (el v n [0]) (el v n [1])) j ;;;
  p <- physical_of 0 [] ;; rows <- lift (local_solve true no_neal (Some p)) ;;
  expect (Nat.eqb (length rows) 4 &&
    existsb (fun r => sample_is [ix n 0; ix n 1] ground (fst (fst r)) && Qc_eqb (snd (fst r)) (qz e) && Nat.eqb (snd r) 1) rows &&
    all rows (fun r => Qcle_bool (qz e) (snd (fst r)))).
(** 24-64 *)
Example test_local_solver_exact : passes Ising (exact_case Spin "s" (-3) [-1; 1]%Z (-4)) /\ passes Qubo (exact_case Binary "x" (-5) [0; 1]%Z (-2)).
Proof. split; vm_compute; reflexivity. Qed.
(** 117-131, 149-154 *)
Example test_local_solver_fails :
  raised_by TypeError (local_solve false no_neal None) = true /\
  passes Ising (p <- physical_of 0 [] ;; expect (raised_by ValueError (local_solve false no_neal (Some p)) && raised_by ValueError (default_beta_range (fun _ => tt) (Some p)))).
Proof. split; vm_compute; reflexivity. Qed.

(** ** tests/solver/test_sawatabi_solver.py *)
(** A generator whose numbers are all 1/2. exp(-diff / temperature) is 0 or 1: the
    tests below do not depend on the values in between. *)
Definition requested (t : trace) : nat := match t with RIntegers n :: _ | RRandom n :: _ | RPermutation n :: _ => n | [] => 0 end.
Definition half_gen : generator := mkGen (fun t => repeat true (requested t)) (fun t => repeat (fl 1 2) (requested t)) (fun t => seq 0 (requested t)).
Definition cold : world := mkWorld (fun _ => half_gen) half_gen (fun d t => Ok (if Qclt_bool 0%Qc d then 0%Qc else 1%Qc)).
Definition default_options : options := mkOptions 1 100 (fl 9 10) (qz 100) None RNone "random" None.
Definition fields (v : vtype) (n : nat) (c : Z) : LM physical :=
  vs "x" [Z.of_nat n] ;;; mfor (seq 0 n) (fun i => add (TVar (el v "x" [i])) c) ;;; physical_of 0 [].
Definition labels_x (n : nat) : list string := map (ix "x") (seq 0 n).
(** 193-209 *)
Example test_sawatabi_solver_errors :
  raised_by TypeError (snd (solve cold None default_options)) = true /\
  passes Ising (p <- physical_of 0 [] ;; expect (raised_by ValueError (snd (solve cold (Some p) default_options)))).
Proof. split; vm_compute; reflexivity. Qed.
(** 212-240 *)
Example test_sawatabi_solver_with_initial_states_ising : passes Ising (
  p <- fields Spin 12 (-1) ;;
  o <- lift (snd (solve cold (Some p) (mkOptions 1 1 (fl 9 10) (qfrac 1 1000000000) (Some [combine (labels_x 12) (1%Z :: repeat (-1)%Z 11)]) RNone "sequential" None))) ;;
  expect (match out_set o with [(s, e, k)] => sample_is (labels_x 12) (repeat (-1)%Z 12) s && Qc_eqb e (qz (-12)) && Nat.eqb k 1 | _ => false end)).
Proof. vm_compute. reflexivity. Qed.
(** 243-268, 271-305: at any temperature that accepts no rise. *)
Example test_sawatabi_solver_with_initial_states_qubo : passes Qubo (
  p <- fields Binary 6 (-1) ;;
  o <- lift (snd (solve cold (Some p) (mkOptions 1 10 (fl 1 2) (qz 100) (Some [combine (labels_x 6) [1; 0; 1; 0; 1; 0]%Z]) RNone "random" (Some 12345%Z)))) ;;
  expect (match out_set o with [(s, e, k)] => sample_is (labels_x 6) (repeat 0%Z 6) s && Qc_eqb e 0%Qc && Nat.eqb k 1 | _ => false end)).
Proof. vm_compute. reflexivity. Qed.
Example test_sawatabi_solver_with_initial_states_reverse : passes Ising (
  p <- fields Spin 6 10 ;;
  o <- lift (snd (solve cold (Some p) (mkOptions 1 10 (fl 9 10) (qz 100) (Some [combine (labels_x 6) (repeat (-1)%Z 6)]) (RDict [("reverse_period", qz 5); ("reverse_temperature", qz 10)]) "random" (Some 12345%Z)))) ;;
  expect (match out_set o with [(s, e, k)] => sample_is (labels_x 6) (repeat 1%Z 6) s && Qc_eqb e (qz (-60)) && Nat.eqb k 1 | _ => false end)).
Proof. vm_compute. reflexivity. Qed.
(** 325-366 *)
Example test_sawatabi_solver_invalid : passes Ising (
  p <- fields Spin 2 (-1) ;;
  let refused o := raised_by ValueError (snd (solve cold (Some p) o)) in
  expect (refused (mkOptions 2 100 (fl 9 10) (qz 100) (Some [combine (labels_x 2) [1; 1]%Z]) RNone "random" None) &&
          refused (mkOptions 1 100 (fl 9 10) (qz 100) None RNone "invalid" None) &&
          refused (mkOptions 1 100 (fl 9 10) (qz 100) None (RDict [("reverse_period", qz 5)]) "random" None) &&
          refused (mkOptions 1 100 (fl 9 10) (qz 100) None (RDict [("reverse_temperature", qz 10)]) "random" None))).
Proof. vm_compute. reflexivity. Qed.
(** 369-381 *)
Example test_sawatabi_solver_with_stats : passes Ising (
  p <- fields Spin 2 (-1) ;;
  o <- lift (snd (solve cold (Some p) (mkOptions 1 10 (fl 1 2) (qz 100) None RNone "random" (Some 12345%Z)))) ;;
  expect (match out_reads o with
    | [r] => Nat.eqb (last (d_ahist r) 1) 0 && Qc_eqb (last (d_ehist r) 0%Qc) (qz (-2)) &&
             (if list_eq_dec Qc_eq_dec (d_thist r) (map (fl 100) [1; 2; 4; 8; 16; 32; 64; 128; 256; 512]%positive) then true else false)
    | _ => false end)).
Proof. vm_compute. reflexivity. Qed.

(** ** tests/algorithm *)
(** numbers_100.txt *)
Definition numbers_100 : list Z := [47; 60; 87; 60; 91; 71; 28; 37; 7; 65; 28; 29; 38; 55; 6; 75; 57; 49; 34; 83; 30; 46; 78; 29; 99; 32; 86; 82; 7; 81; 90; 12; 20; 65; 42; 20; 47; 7; 52; 78; 2; 74; 51; 75; 26; 7; 36; 46; 65; 29; 20; 27; 76; 55; 68; 93; 9; 67; 78; 19; 23; 76; 63; 81; 5; 22; 99; 79; 44; 99; 2; 61; 14; 37; 1; 62; 64; 62; 30; 6; 27; 12; 28; 67; 18; 94; 29; 79; 16; 49; 87; 95; 6; 42; 41; 23; 73; 67; 74; 27]%Z.
Definition stream_100 : list num_el := match npp_elements numbers_100 with Ok l => l | Err _ => [] end.
(** The element with index i has timestamp i; a window [start, start + size) is stamped
    start + size - 0.001. *)
Definition window (size start : Z) : win Qc :=
  mkWin (fl ((start + size) * 1000 - 1) 1000)
    (filter (fun e => Qcle_bool (qz start) (el_ts e) && Qclt_bool (el_ts e) (qz (start + size))) stream_100) true now (fun k => later_ k).
(** The order in which the DirectRunner hands over the windows of a bounded input: the
    windows of the first element from the latest to the earliest (Beam's SlidingWindows
    assigns them in that order), then the others as time goes on. *)
Definition sliding (size period : Z) (last : nat) : list (win Qc) :=
  map (fun k => window size (- period * Z.of_nat k)) (seq 0 (Z.to_nat (size / period))) ++
  map (fun k => window size (period * Z.of_nat k)) (seq 1 last).
(** A solver that sets every variable to 1. *)
Definition ones : physical -> res (list srow) := fun p => Ok [(map (fun l => (l, 1%Z)) (dkeys (p_l2i p)), 0%Qc, 1)].
Definition around : surroundings := mkSur (fun _ => "") (fun _ _ => now) now (fun k => later_ k) ones.
Definition streamed (a : algorithm) (o : aoptions Qc) (ws : list (win Qc)) : list (output npp_answer) :=
  match snd (npp_stream a o (map (fun w => (w, around)) ws) no_bags) with Ok outs => concat outs | Err _ => [] end.
Definition inputs (l : list (output npp_answer)) : list (list Qc) := flat_map (fun o => match o with Solved r => [an_input r] | _ => [] end) l.
Definition outdated (l : list (output npp_answer)) : nat := length (filter (fun o => match o with Outdated _ _ => true | _ => false end) l).
Definition solved (l : list (output npp_answer)) : nat := length (inputs l).
Definition slice (lo hi : nat) : list Qc := zs (firstn (hi - lo + 1) (skipn (lo - 1) numbers_100)).
Definition input_in (l : list (output npp_answer)) (x : list Qc) : bool := existsb (fun y => if list_eq_dec Qc_eq_dec x y then true else false) (inputs l).
Definition plain_options : aoptions Qc := mkAo None None None.
(** test_window.py 27-82 *)
Example test_window_algorithm_npp_100 :
  let l := streamed Window plain_options (sliding 30 5 19) in
  (solved l, outdated l, map (input_in l) [slice 1 30; slice 6 35; slice 11 40]) = (20, 5, [true; true; true]).
Proof. vm_compute. reflexivity. Qed.
(** test_window.py 128-209: a callback that raises. *)
Definition failing (m s u : bool) : callbacks Qc (list srow) npp_answer :=
  let c := npp_callbacks around in
  mkCb (if m then fun pm _ _ _ _ => (pm, Err (UserError 7)) else cb_map c) (if s then fun pm _ _ _ _ => (pm, Err (UserError 7)) else cb_solve c)
       (if u then fun _ _ _ _ => Err (UserError 7) else cb_unmap c).
Definition failures (m s u : bool) : list (output npp_answer) :=
  match snd (run Window plain_options (failing m s u) Ising (sliding 30 10 9) no_bags) with Ok outs => concat outs | Err _ => [] end.
Definition count (p : output npp_answer -> bool) (l : list (output npp_answer)) : nat := length (filter p l).
Example test_window_algorithm_npp_fails :
  let a := failures true false false in let b := failures false true false in let c := failures false false true in
  (count (fun o => match o with MapFailed _ => true | _ => false end) a, outdated a,
   count (fun o => match o with SolveFailed _ => true | _ => false end) b, outdated b,
   count (fun o => match o with UnmapFailed _ => true | _ => false end) c, outdated c) = (10, 2, 10, 2, 10, 2).
Proof. vm_compute. reflexivity. Qed.
(** test_window.py 98-126, test_attenuation.py, test_delta.py: the initial model type. *)
Example test_window_algorithm_npp_invalid_mtype :
  raised_by ValueError (check_initial_mtype (Some "invalid")) && raised_by TypeError (check_initial_mtype None) = true.
Proof. vm_compute. reflexivity. Qed.
(** test_attenuation.py 23-73 *)
Example test_attenuation_algorithm_npp_100 :
  let l := streamed Attenuation (mkAo None (Some "attributes.attn_ts") (Some (fl 1 10))) (sliding 20 5 19) in
  (solved l, outdated l, map (input_in l) [slice 1 20; slice 6 25; slice 11 30]) = (20, 3, [true; true; true]).
Proof. vm_compute. reflexivity. Qed.
(** test_delta.py 23-70 *)
Example test_delta_algorithm_npp_100 :
  let l := streamed Delta plain_options (sliding 10 10 9) in
  (solved l, outdated l, map (input_in l) [slice 1 10; slice 11 20; slice 21 30]) = (10, 0, [true; true; true]).
Proof. vm_compute. reflexivity. Qed.
(** test_incremental.py 23-74: the first five windows. *)
Example test_incremental_algorithm_npp_100 :
  let l := streamed Incremental plain_options (sliding 10 10 4) in
  (solved l, outdated l, map (input_in l) [slice 1 10; slice 1 20; slice 1 30; slice 1 40; slice 1 50]) = (5, 0, [true; true; true; true; true]).
Proof. vm_compute. reflexivity. Qed.
(** test_partial.py 23-87: kept elements are those over 90. *)
Definition over_90 : element Qc -> res bool := fun e => Ok (Qclt_bool (qz 90) (el_val e)).
Example test_partial_algorithm_npp_100 :
  let l := streamed Partial (mkAo (Some over_90) None None) (sliding 10 10 9) in
  (solved l, outdated l, inputs l) = (10, 0, map zs
    [[47; 60; 87; 60; 91; 71; 28; 37; 7; 65]; [91; 28; 29; 38; 55; 6; 75; 57; 49; 34; 83]; [91; 30; 46; 78; 29; 99; 32; 86; 82; 7; 81];
     [91; 99; 90; 12; 20; 65; 42; 20; 47; 7; 52; 78]; [91; 99; 2; 74; 51; 75; 26; 7; 36; 46; 65; 29]; [91; 99; 20; 27; 76; 55; 68; 93; 9; 67; 78; 19];
     [91; 99; 93; 23; 76; 63; 81; 5; 22; 99; 79; 44; 99]; [91; 99; 93; 99; 99; 2; 61; 14; 37; 1; 62; 64; 62; 30; 6];
     [91; 99; 93; 99; 99; 27; 12; 28; 67; 18; 94; 29; 79; 16; 49]; [91; 99; 93; 99; 99; 94; 87; 95; 6; 42; 41; 23; 73; 67; 74; 27]]%Z).
Proof. vm_compute. reflexivity. Qed.
