(** * Rounded: sawatabi/solver/sawatabi_solver.py in floating-point arithmetic.

    Line numbers refer to /repo/sawatabi/solver/sawatabi_solver.py. Every operation on coefficients, energies and temperatures is
    followed by a rounding, in the order of the code. *)
From Verif Require Import PyBase Constraint LogicalModel Physical Solver.
Open Scope string_scope.
Open Scope list_scope.

(** [ar_round]: the rounding of the results of operations on coefficients and energies; [ar_temp]: on temperatures (one and the
    same on a machine, see [machine]); [ar_order]: the order in which dimod adds up a list (external). *)
Record arith := mkArith { ar_round : Qc -> Qc; ar_temp : Qc -> Qc; ar_order : list Qc -> list Qc }.
Definition machine (rnd : Qc -> Qc) (order : list Qc -> list Qc) : arith := mkArith rnd rnd order.

(** Adding up in floating point. *)
Definition add_up (a : arith) (l : list Qc) : Qc := fold_left (fun s v => ar_round a (s + v)%Qc) (ar_order a l) 0%Qc.

(** to_bqm(sign=1.0) (sawatabi/model/physical_model.py:56-72) and dimod's constructor (external): Physical.v's [to_bqm], rounded. *)
Definition fl_add_variable (a : arith) (v : string) (c : Qc) (b : bqm) : bqm :=
  mkBqm (b_spin b)
    (dset v (match dget v (b_linear b) with Some d => ar_round a (d + c) | None => c end)%Qc (b_linear b))
    (b_quad b) (b_offset b).
Definition fl_add_interaction (a : arith) (u v : string) (c : Qc) (b : bqm) : res bqm :=
  if String.eqb u v then Err ValueError
  else
    let b1 := fl_add_variable a v 0 (fl_add_variable a u 0 b) in
    let k := pair_key u v (b_quad b1) in
    Ok (mkBqm (b_spin b1) (b_linear b1)
          (dset k (match dget k (b_quad b1) with Some d => ar_round a (d + c) | None => c end)%Qc (b_quad b1))
          (b_offset b1)).
Fixpoint fl_interactions (a : arith) (q : dict (string * string) Qc) (b : bqm) : res bqm :=
  match q with
  | [] => Ok b
  | ((u, v), c) :: r =>
      match fl_add_interaction a u v c b with Ok b' => fl_interactions a r b' | Err e => Err e end
  end.
Definition fl_to_bqm (a : arith) (p : physical) : res bqm :=
  fl_interactions a (map (fun kv => (fst kv, ar_round a (1 * snd kv))%Qc) (p_quad p))
    (fold_left (fun b kv => fl_add_variable a (fst kv) (snd kv) b)
       (map (fun kv => (fst kv, ar_round a (1 * snd kv))%Qc) (p_linear p))
       (mkBqm (match p_mtype p with Ising => true | Qubo => false end) [] [] (p_offset p))).

(** change_vartype(SPIN) (external), line 78. *)
Definition fl_to_spin (a : arith) (b : bqm) : bqm :=
  if b_spin b then b
  else mkBqm true
    (map (fun kv => (fst kv, add_up a (ar_round a (half * snd kv) :: map (fun j => ar_round a (quarter * snd j)) (bqm_adj b (fst kv)))))%Qc (b_linear b))
    (map (fun kv => (fst kv, ar_round a (quarter * snd kv)))%Qc (b_quad b))
    (add_up a (b_offset b :: map (fun kv => ar_round a (half * snd kv)) (b_linear b) ++ map (fun kv => ar_round a (quarter * snd kv)) (b_quad b)))%Qc.

(** Lines 235-245. *)
Fixpoint fl_adj_diff (a : arith) (x : list Z) (xi : Z) (d : dict nat Qc) (diff : Qc) : res Qc :=
  match d with
  | [] => Ok diff
  | (i, j) :: r => rbind (item x i) (fun xa => fl_adj_diff a x xi r (ar_round a (diff + ar_round a (qz (xi * xa) * j)))%Qc)
  end.
Definition fl_calc (a : arith) (lin : list Qc) (adj : list (dict nat Qc)) (idx : nat) (x : list Z) : res Qc :=
  rbind (item x idx) (fun xi => rbind (item lin idx) (fun h => rbind (item adj idx) (fun d =>
    rbind (fl_adj_diff a x xi d (ar_round a (qz xi * h)%Qc)) (fun t => Ok (ar_round a (qz 2 * t)%Qc))))).
(** Lines 203-214. *)
Definition fl_flip (a : arith) (w : world) (lin : list Qc) (adj : list (dict nat Qc)) (randoms : list Qc) (temp : Qc) (k : walk) (idx : nat) : res walk :=
  rbind (fl_calc a lin adj idx (k_x k)) (fun diff =>
    rbind (is_acceptable w randoms (k_used k) diff temp) (fun au =>
      if fst au
      then Ok (mkWalk (upd_nth idx Z.opp (k_x k)) (ar_round a (k_energy k + diff)%Qc) (snd au) (S (k_acc k)))
      else Ok (mkWalk (k_x k) (k_energy k) (snd au) (k_acc k)))).
Fixpoint fl_flips a w lin adj randoms temp (k : walk) (idxs : list nat) : res walk :=
  match idxs with
  | [] => Ok k
  | i :: r => rbind (fl_flip a w lin adj randoms temp k i) (fun k' => fl_flips a w lin adj randoms temp k' r)
  end.
(** Lines 185-222. *)
Definition fl_sweep (a : arith) (w : world) (g : generator) (o : options) (lin : list Qc) (adj : list (dict nat Qc))
    (n : nat) (randoms : list Qc) (st : sweepst) (sweep : nat) : res sweepst :=
  rbind (if s_reversing st
         then rbind (rev_get "reverse_period" (o_reverse o)) (fun per =>
                Ok (negb (Qcle_bool per (qz (Z.of_nat sweep)))))
         else Ok false) (fun reversing =>
  let '(idxs, tr) := pickups g (o_pickup o) n (s_trace st) in
  let k0 := mkWalk (k_x (s_walk st)) (k_energy (s_walk st)) (k_used (s_walk st)) 0 in
  rbind (fl_flips a w lin adj randoms (s_temp st) k0 idxs) (fun k =>
  rbind (if reversing
         then rbind (rev_get "reverse_temperature" (o_reverse o)) (fun rt =>
                let tgt := ar_temp a (s_target st * o_rate o)%Qc in Ok (ar_temp a (rt - tgt)%Qc, tgt))
         else Ok (ar_temp a (s_temp st * o_rate o)%Qc, s_target st)) (fun tt =>
  Ok (mkSweep tr k (fst tt) reversing (snd tt)
        (s_ehist st ++ [k_energy (s_walk st)]) (s_thist st ++ [s_temp st]) (s_ahist st ++ [k_acc k]))))).
Fixpoint fl_sweeps a w g o lin adj n randoms (st : sweepst) (ks : list nat) : res sweepst :=
  match ks with
  | [] => Ok st
  | k :: r => rbind (fl_sweep a w g o lin adj n randoms st k) (fun st' => fl_sweeps a w g o lin adj n randoms st' r)
  end.

(** BQM.energy(sample) (external). *)
Fixpoint lin_terms (a : arith) (s : dict string Z) (d : dict string Qc) : res (list Qc) :=
  match d with
  | [] => Ok []
  | (l, c) :: r => rbind (spin_in s l) (fun v => rbind (lin_terms a s r) (fun t => Ok (ar_round a (c * v)%Qc :: t)))
  end.
Fixpoint quad_terms (a : arith) (s : dict string Z) (d : dict (string * string) Qc) : res (list Qc) :=
  match d with
  | [] => Ok []
  | ((i, j), c) :: r =>
      rbind (spin_in s i) (fun u => rbind (spin_in s j) (fun v =>
        rbind (quad_terms a s r) (fun t => Ok (ar_round a (c * (u * v))%Qc :: t))))
  end.
Definition fl_bqm_energy (a : arith) (b : bqm) (s : dict string Z) : res Qc :=
  rbind (lin_terms a s (b_linear b)) (fun l => rbind (quad_terms a s (b_quad b)) (fun q => Ok (add_up a (b_offset b :: l ++ q)))).

(** Lines 150-233. *)
Definition fl_annealing (a : arith) (w : world) (g : generator) (o : options) (p : physical) (orig b : bqm)
    (lin : list Qc) (adj : list (dict nat Qc)) (s0 : option (dict string Z)) (tr : trace) : res (read * trace) :=
  let n := length (b_linear b) in
  rbind (initial_spins g p b s0 tr) (fun xt =>
  rbind (fl_bqm_energy a b (make_sample p (fst xt))) (fun e0 =>
  rbind (if rev_truthy (o_reverse o)
         then rbind (rev_get "reverse_temperature" (o_reverse o)) (fun rt => Ok (ar_temp a tiny, rt))
         else Ok (o_temp o, 0%Qc)) (fun tt =>
  if (o_sweeps o * Z.of_nat n <? 0)%Z then Err ValueError   (* numpy: negative size *)
  else
    let m := Z.to_nat (o_sweeps o * Z.of_nat n) in
    let tr1 := RRandom m :: snd xt in
    let randoms := g_floats g tr1 in
    let st0 := mkSweep tr1 (mkWalk (fst xt) (ar_round a (- (1) * e0)%Qc) 0 0) (fst tt)
                 (match o_reverse o with RNone => false | _ => true end) (snd tt) [] [] [] in
    rbind (fl_sweeps a w g o lin adj n randoms st0 (seq 0 (Z.to_nat (o_sweeps o)))) (fun st =>
    Ok (mkRead (make_sample p (k_x (s_walk st))) (ar_round a (k_energy (s_walk st) + ar_round a (b_offset orig * qz 2))%Qc)
          (s_ehist st) (s_thist st) (s_ahist st), s_trace st))))).
(** Lines 108-133. *)
Fixpoint fl_reads a w g o p orig b lin adj (inits : list (option (dict string Z))) (tr : trace) : res (list read) :=
  match inits with
  | [] => Ok []
  | s0 :: r => rbind (fl_annealing a w g o p orig b lin adj s0 tr) (fun rt =>
                 rbind (fl_reads a w g o p orig b lin adj r (snd rt)) (fun l => Ok (fst rt :: l)))
  end.
(** Lines 37-148. *)
Definition fl_solve (a : arith) (w : world) (mo : option physical) (o : options) : option (list (dict string Z)) * res outcome :=
  match mo with
  | None => (o_init o, Err TypeError)
  | Some p =>
      match check_args p o with
      | Err e => (o_init o, Err e)
      | Ok _ =>
          match pick_rng w (o_seed o) with
          | Err e => (o_init o, Err e)
          | Ok g =>
              match fl_to_bqm a p with
              | Err e => (o_init o, Err e)
              | Ok orig =>
                  let b := fl_to_spin a orig in
                  let init' := if negb (b_spin orig) && has_init o
                               then Some (map to_spin_state (init_list o)) else o_init o in
                  let inits := if has_init o
                               then map Some (match init' with Some l => l | None => [] end)
                               else repeat None (Z.to_nat (o_reads o)) in
                  let n := length (b_linear b) in
                  (init',
                   rbind (fill_linear p (b_linear b) (repeat 0%Qc n)) (fun lin =>
                   rbind (fill_adj p b (bqm_variables b) (repeat [] n)) (fun adj =>
                   rbind (fl_reads a w g o p orig b lin adj inits []) (fun l =>
                   Ok (mkOutcome (sampleset (b_spin orig) l) l)))))
              end
          end
      end
  end.
