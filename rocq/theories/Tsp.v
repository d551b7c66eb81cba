(** * Tsp: sample/algorithm/tsp_window.py, the travelling salesman problem on a
    stream of cities.

    Line numbers refer to /repo/sample/algorithm/tsp_window.py. *)
From Verif Require Import PyBase Constraint LogicalModel Solver Services Stream Npp NppStream.
Open Scope string_scope.
Open Scope list_scope.

(** ** PyQUBO expressions (external)

    The constructions the sample uses: numbers, placeholders, elements of an
    array, sums, products and labelled constraints. *)
Inductive expr :=
| ENum (q : Qc)
| EPlace (p : string)
| EBit (name : string) (idx : list nat)
| EAdd (a b : expr)
| EMul (a b : expr)
| EConstr (label : string) (e : expr).
(** [acc + f(x0) + f(x1) + ..]: the [+=] loops, and pyqubo.Sum with acc = 0. *)
Definition esum {X} (f : X -> expr) (acc : expr) (l : list X) : expr :=
  fold_left (fun a x => EAdd a (f x)) l acc.

(** ** Cities

    The data of an element: {name: [longitude, latitude]}. *)
Definition city_data := dict string (list Qc).
Notation city_el := (element city_data).
(** list(c[1][1].values())[0] (93), list(e[1][1].keys())[0] (141). *)
Definition coordinates (e : city_el) : res (list Qc) :=
  match el_val e with [] => Err IndexError | (_, v) :: _ => Ok v end.
Definition city_name (e : city_el) : res string :=
  match el_val e with [] => Err IndexError | (k, _) :: _ => Ok k end.
(** geopy.distance.geodesic(a, b).km (external) on (latitude, longitude); it
    raises for coordinates it does not accept. *)
Definition geodesic := Qc * Qc -> Qc * Qc -> res Qc.
(** Line 99. *)
Definition leg (geo : geodesic) (a b : list Qc) : res Qc :=
  rbind (item a 1) (fun a1 => rbind (item a 0) (fun a0 =>
  rbind (item b 1) (fun b1 => rbind (item b 0) (fun b0 =>
  rbind (geo (a1, a0) (b1, b0)) (fun km => Ok (km / qz 100)%Qc))))).

(** ** tsp_mapping (28-109) *)

(** binary_vector[i, j] (85, 90, 100). Every index the sample uses is inside the
    array, so that the element exists. *)
Definition bit (i j : nat) : expr := EBit "city" [i; j].
(** (pyqubo.Sum(0, n, f) - 1) ** 2 *)
Definition one_hot (n : nat) (f : nat -> expr) : expr :=
  let d := EAdd (esum f (ENum 0%Qc) (seq 0 n)) (ENum (- (1))%Qc) in EMul d d.
(** Lines 83-85 and 88-90. *)
Definition time_const (n : nat) : expr :=
  esum (fun i => EConstr ("time" +++ str_of_nat i) (one_hot n (fun j => bit i j))) (ENum 0%Qc) (seq 0 n).
Definition city_const (n : nat) : expr :=
  esum (fun j => EConstr ("city" +++ str_of_nat j) (one_hot n (fun i => bit i j))) (ENum 0%Qc) (seq 0 n).
(** Lines 94-100: the three nested loops. *)
Definition traveling_distance (geo : geodesic) (cs : list (list Qc)) (n : nat) : res expr :=
  rfold (fun acc i => rfold (fun acc j => rfold (fun acc k =>
    rbind (leg geo (nth i cs []) (nth j cs [])) (fun d =>
      Ok (EAdd acc (EMul (EMul (ENum d) (bit k i)) (bit ((k + 1) mod n) j)))))
    acc (seq 0 n)) acc (seq 0 n)) (ENum 0%Qc) (seq 0 n).
(** Line 103. *)
Definition hamiltonian (n : nat) (distance : expr) : expr :=
  EAdd (EAdd distance (EMul (EPlace "time") (time_const n))) (EMul (EPlace "city") (city_const n)).

(** Express.compile() (external): see TspSpec.v for what is assumed of it. *)
Definition compiler := expr -> pqmodel.

(** prev_model is not modified: the model is built from prev_model.empty(). *)
Definition tsp_mapping (compile : compiler) (geo : geodesic) (ev : env) (prev : lmodel)
    (elements : list city_el) : res lmodel :=
  let m0 := empty_of prev in
  let n := length elements in
  match elements with
  | [] => Ok m0                                                                    (* 77-80 *)
  | _ =>
      match append (VName "city") (ShTuple [ShInt (Z.of_nat n); ShInt (Z.of_nat n)]) m0 with
      | (_, Err e) => Err e
      | (m1, Ok _) =>
          rbind (rmap coordinates elements) (fun cs =>                             (* 93 *)
          rbind (traveling_distance geo cs n) (fun d =>
            match from_pyqubo ev m1 (compile (hamiltonian n d)) with               (* 106 *)
            | (m2, _, Ok _) => Ok m2
            | (_, _, Err e) => Err e
            end))
      end
  end.

(** ** tsp_solving (147-172): the placeholders of line 166. *)
Definition tsp_feed : feed := [("time", (qz 35 / qz 2)%Qc); ("city", qz 15)].
Definition tsp_solving {SS} (ev : env) (evs : nat -> env) (solver : physical -> res SS) (m : lmodel)
  : lmodel * res SS :=
  match to_physical ev evs tsp_feed m with
  | (m', Ok p) => (m', solver p)
  | (m', Err e) => (m', Err e)
  end.

(** ** tsp_unmapping (112-144)

    The result is order_to_visit; the text is tsp_text in Layout.v. *)

(** The inner loop (139-142): the first element whose variable is 1. *)
Fixpoint visited (sol : dict string Z) (i j : nat) (els : list city_el) : res (list string) :=
  match els with
  | [] => Ok []
  | e :: r =>
      match dget ("city" +++ brackets [i; j]) sol with
      | None => Err KeyError
      | Some z => if Z.eqb z 1 then rbind (city_name e) (fun k => Ok [k])
                  else visited sol i (S j) r
      end
  end.
Definition tsp_unmapping (rows : list srow) (elements : list city_el) : res (list string) :=
  rbind (first_sample rows) (fun sol =>
    rfold (fun order i => rbind (visited sol i 0 elements) (fun k => Ok (order ++ k))) []
          (seq 0 (length elements))).

(** The three functions handed to create_pipeline (233-243), in one window. *)
Record tsp_surroundings := mkTsp {
  ts_env0 : env; ts_env : env; ts_envs : nat -> env; ts_solver : physical -> res (list srow) }.
Definition tsp_callbacks (compile : compiler) (geo : geodesic) (u : tsp_surroundings)
  : callbacks city_data (list srow) (list string) :=
  mkCb (fun m _ els _ _ => (m, tsp_mapping compile geo (ts_env0 u) m els))
       (fun m _ _ _ _ => tsp_solving (ts_env u) (ts_envs u) (ts_solver u) m)
       (fun ss els _ _ => tsp_unmapping ss els).
Fixpoint tsp_stream (compile : compiler) (geo : geodesic) (a : algorithm) (o : aoptions city_data)
    (ws : list (win city_data * tsp_surroundings)) : M (bags city_data (list srow)) (list (list (output (list string)))) :=
  match ws with
  | [] => ret []
  | (w, u) :: r =>
      x <- process a o (tsp_callbacks compile geo u) Qubo w ;;
      y <- tsp_stream compile geo a o r ;; ret (x :: y)
  end.
