(** * Solver: sawatabi/solver/sawatabi_solver.py.

    Line numbers refer to /repo/sawatabi/solver/sawatabi_solver.py. Numbers are
    exact rationals (no rounding); spins are integers. *)
From Verif Require Import PyBase Constraint LogicalModel Physical.
Open Scope string_scope.
Open Scope list_scope.

(** ** numpy.random.Generator (external)

    What a generator returns may depend on every request made so far (most
    recent first). [g_bits]: integers(2, size=n); [g_floats]: random(size=n);
    [g_perm]: permutation(n). *)
Inductive request := RIntegers (n : nat) | RRandom (n : nat) | RPermutation (n : nat).
Definition trace := list request.
Record generator := mkGen {
  g_bits : trace -> list bool;
  g_floats : trace -> list Qc;
  g_perm : trace -> list nat }.

(** The outside world of one call of solve: default_rng(seed), default_rng()
    and [math.exp(-diff / temperature)], which may raise (overflow). *)
Record world := mkWorld {
  w_seeded : Z -> generator;
  w_fresh : generator;
  w_boltz : Qc -> Qc -> res Qc }.

(** ** Arguments of solve (37-49)

    reverse_options: None, a dict, or some other object (true or false in a
    condition). Simplification: dict values are numbers; the values of initial
    states are integers; a seed is None or an int. *)
Inductive revarg := RNone | RDict (d : dict string Qc) | ROther (truthy : bool).
Record options := mkOptions {
  o_reads : Z; o_sweeps : Z; o_rate : Qc; o_temp : Qc;
  o_init : option (list (dict string Z));
  o_reverse : revarg; o_pickup : string; o_seed : option Z }.

Definition rev_truthy (r : revarg) : bool :=
  match r with RNone => false | RDict d => negb (Nat.eqb (length d) 0) | ROther t => t end.
(** [reverse_options[k]] *)
Definition rev_get (k : string) (r : revarg) : res Qc :=
  match r with
  | RDict d => match dget k d with Some v => Ok v | None => Err KeyError end
  | _ => Err TypeError
  end.

(** ** Coefficient arrays (92-104) *)
Fixpoint fill_linear (p : physical) (d : dict string Qc) (arr : list Qc) : res (list Qc) :=
  match d with
  | [] => Ok arr
  | (l, c) :: r =>
      rbind (l2i p l) (fun i =>
        match set_nth i c arr with None => Err IndexError | Some arr' => fill_linear p r arr' end)
  end.
Fixpoint adj_dict (p : physical) (l : list (string * Qc)) (acc : dict nat Qc) : res (dict nat Qc) :=
  match l with
  | [] => Ok acc
  | (a, c) :: r => rbind (l2i p a) (fun i => adj_dict p r (dset i c acc))
  end.
Fixpoint fill_adj (p : physical) (b : bqm) (ls : list string) (arr : list (dict nat Qc))
  : res (list (dict nat Qc)) :=
  match ls with
  | [] => Ok arr
  | l :: r =>
      rbind (l2i p l) (fun i =>
        rbind (adj_dict p (bqm_adj b l) []) (fun d =>
          match set_nth i d arr with None => Err IndexError | Some arr' => fill_adj p b r arr' end))
  end.

(** ** One flip *)
Definition item {A} (l : list A) (i : nat) : res A :=
  match nth_error l i with Some v => Ok v | None => Err IndexError end.

(** Lines 235-245. *)
Fixpoint adj_diff (x : list Z) (xi : Z) (d : dict nat Qc) : res Qc :=
  match d with
  | [] => Ok 0%Qc
  | (a, j) :: r => rbind (item x a) (fun xa => rbind (adj_diff x xi r) (fun t => Ok (qz xi * qz xa * j + t)%Qc))
  end.
Definition calc_energy_diff (lin : list Qc) (adj : list (dict nat Qc)) (idx : nat) (x : list Z) : res Qc :=
  rbind (item x idx) (fun xi => rbind (item lin idx) (fun h => rbind (item adj idx) (fun d =>
    rbind (adj_diff x xi d) (fun t => Ok (qz 2 * (qz xi * h + t))%Qc)))).

(** Lines 247-257. [used]: how many of the random values were consumed. *)
Definition is_acceptable (w : world) (randoms : list Qc) (used : nat) (diff temp : Qc) : res (bool * nat) :=
  if Qcle_bool diff 0 then Ok (true, used)
  else rbind (w_boltz w diff temp) (fun pr =>
    rbind (item randoms used) (fun r => Ok (Qclt_bool r pr, S used))).

(** Lines 203-214: the walker and one iteration of the inner loop. *)
Record walk := mkWalk { k_x : list Z; k_energy : Qc; k_used : nat; k_acc : nat }.
Definition flip (w : world) (lin : list Qc) (adj : list (dict nat Qc)) (randoms : list Qc) (temp : Qc)
    (k : walk) (idx : nat) : res walk :=
  rbind (calc_energy_diff lin adj idx (k_x k)) (fun diff =>
    rbind (is_acceptable w randoms (k_used k) diff temp) (fun au =>
      if fst au
      then Ok (mkWalk (upd_nth idx Z.opp (k_x k)) (k_energy k + diff)%Qc (snd au) (S (k_acc k)))
      else Ok (mkWalk (k_x k) (k_energy k) (snd au) (k_acc k)))).
Fixpoint flips w lin adj randoms temp (k : walk) (idxs : list nat) : res walk :=
  match idxs with
  | [] => Ok k
  | i :: r => rbind (flip w lin adj randoms temp k i) (fun k' => flips w lin adj randoms temp k' r)
  end.

(** ** Sweeps (185-222) *)
Record sweepst := mkSweep {
  s_trace : trace; s_walk : walk; s_temp : Qc; s_reversing : bool; s_target : Qc;
  s_ehist : list Qc; s_thist : list Qc; s_ahist : list nat }.

(** Lines 196-200. *)
Definition pickups (g : generator) (mode : string) (n : nat) (tr : trace) : list nat * trace :=
  if String.eqb mode "random" then (g_perm g (RPermutation n :: tr), RPermutation n :: tr)
  else (seq 0 n, tr).

Definition sweep_once (w : world) (g : generator) (o : options) (lin : list Qc) (adj : list (dict nat Qc))
    (n : nat) (randoms : list Qc) (st : sweepst) (sweep : nat) : res sweepst :=
  rbind (if s_reversing st
         then rbind (rev_get "reverse_period" (o_reverse o)) (fun per =>
                Ok (negb (Qcle_bool per (qz (Z.of_nat sweep)))))
         else Ok false) (fun reversing =>
  let '(idxs, tr) := pickups g (o_pickup o) n (s_trace st) in
  let k0 := mkWalk (k_x (s_walk st)) (k_energy (s_walk st)) (k_used (s_walk st)) 0 in
  rbind (flips w lin adj randoms (s_temp st) k0 idxs) (fun k =>
  rbind (if reversing
         then rbind (rev_get "reverse_temperature" (o_reverse o)) (fun rt =>
                let tgt := (s_target st * o_rate o)%Qc in Ok (rt - tgt, tgt)%Qc)
         else Ok (s_temp st * o_rate o, s_target st)%Qc) (fun tt =>
  Ok (mkSweep tr k (fst tt) reversing (snd tt)
        (s_ehist st ++ [k_energy (s_walk st)]) (s_thist st ++ [s_temp st]) (s_ahist st ++ [k_acc k]))))).
Fixpoint sweeps w g o lin adj n randoms (st : sweepst) (ks : list nat) : res sweepst :=
  match ks with
  | [] => Ok st
  | k :: r => rbind (sweep_once w g o lin adj n randoms st k) (fun st' => sweeps w g o lin adj n randoms st' r)
  end.

(** ** One read: annealing (150-233) *)

(** Lines 152-158: the initial spins. *)
Fixpoint fill_state (p : physical) (vs : list string) (s0 : dict string Z) (x : list Z) : res (list Z) :=
  match vs with
  | [] => Ok x
  | v :: r =>
      rbind (l2i p v) (fun i =>
        match dget v s0 with
        | None => Err KeyError
        | Some z => match set_nth i z x with None => Err IndexError | Some x' => fill_state p r s0 x' end
        end)
  end.
Definition spin_of_bit (b : bool) : Z := if b then 1%Z else (-1)%Z.
Definition initial_spins (g : generator) (p : physical) (b : bqm) (s0 : option (dict string Z)) (tr : trace)
  : res (list Z * trace) :=
  let n := length (b_linear b) in
  match s0 with
  | None => Ok (map spin_of_bit (g_bits g (RIntegers n :: tr)), RIntegers n :: tr)
  | Some s => rbind (fill_state p (bqm_variables b) s (repeat 1%Z n)) (fun x => Ok (x, tr))
  end.
(** Lines 160, 224: dict(zip(index_to_label.values(), x)). *)
Definition make_sample (p : physical) (x : list Z) : dict string Z :=
  dupdate [] (combine (dvals (p_i2l p)) x).
(** BQM.energy(sample) (external): a variable without a value raises. *)
Definition spin_in (s : dict string Z) (l : string) : res Qc :=
  match dget l s with Some z => Ok (qz z) | None => Err KeyError end.
Fixpoint lin_energy (s : dict string Z) (d : dict string Qc) : res Qc :=
  match d with
  | [] => Ok 0%Qc
  | (l, c) :: r => rbind (spin_in s l) (fun v => rbind (lin_energy s r) (fun t => Ok (c * v + t)%Qc))
  end.
Fixpoint quad_energy (s : dict string Z) (d : dict (string * string) Qc) : res Qc :=
  match d with
  | [] => Ok 0%Qc
  | ((a, b), c) :: r =>
      rbind (spin_in s a) (fun u => rbind (spin_in s b) (fun v =>
        rbind (quad_energy s r) (fun t => Ok (c * (u * v) + t)%Qc)))
  end.
Definition bqm_energy (b : bqm) (s : dict string Z) : res Qc :=
  rbind (lin_energy s (b_linear b)) (fun l => rbind (quad_energy s (b_quad b)) (fun q =>
    Ok (l + q + b_offset b)%Qc)).

Record read := mkRead {
  d_sample : dict string Z; d_energy : Qc;
  d_ehist : list Qc; d_thist : list Qc; d_ahist : list nat }.

(** 1e-9 (line 170). *)
Definition tiny : Qc := qfrac 1 1000000000.

Definition annealing (w : world) (g : generator) (o : options) (p : physical) (orig b : bqm)
    (lin : list Qc) (adj : list (dict nat Qc)) (s0 : option (dict string Z)) (tr : trace) : res (read * trace) :=
  let n := length (b_linear b) in
  rbind (initial_spins g p b s0 tr) (fun xt =>
  rbind (bqm_energy b (make_sample p (fst xt))) (fun e0 =>
  rbind (if rev_truthy (o_reverse o)
         then rbind (rev_get "reverse_temperature" (o_reverse o)) (fun rt => Ok (tiny, rt))
         else Ok (o_temp o, 0%Qc)) (fun tt =>
  if (o_sweeps o * Z.of_nat n <? 0)%Z then Err ValueError   (* numpy: negative size *)
  else
    let m := Z.to_nat (o_sweeps o * Z.of_nat n) in
    let tr1 := RRandom m :: snd xt in
    let randoms := g_floats g tr1 in
    let st0 := mkSweep tr1 (mkWalk (fst xt) (- (1) * e0)%Qc 0 0) (fst tt)
                 (match o_reverse o with RNone => false | _ => true end) (snd tt) [] [] [] in
    rbind (sweeps w g o lin adj n randoms st0 (seq 0 (Z.to_nat (o_sweeps o)))) (fun st =>
    Ok (mkRead (make_sample p (k_x (s_walk st))) (k_energy (s_walk st) + b_offset orig * qz 2)%Qc
          (s_ehist st) (s_thist st) (s_ahist st), s_trace st))))).

(** ** solve (37-148) *)

(** Lines 108-133: the reads, one after the other on the same generator. *)
Fixpoint reads w g o p orig b lin adj (inits : list (option (dict string Z))) (tr : trace) : res (list read) :=
  match inits with
  | [] => Ok []
  | s0 :: r => rbind (annealing w g o p orig b lin adj s0 tr) (fun rt =>
                 rbind (reads w g o p orig b lin adj r (snd rt)) (fun l => Ok (fst rt :: l)))
  end.

(** Lines 138-145: SampleSet.from_samples(aggregate_samples=True) (external)
    merges equal samples (energy of the first, number of occurrences), then the
    samples are converted to the original variable type: (s + 1) // 2.
    Simplification: the columns are not sorted by label (a sample is a dict). *)
Definition srow := (dict string Z * Qc * nat)%type.
Definition sample_eqb (a b : dict string Z) : bool := dict_eqb a b.
Fixpoint aggregate_add (s : dict string Z) (e : Qc) (l : list srow) : list srow :=
  match l with
  | [] => [(s, e, 1)]
  | (s', e', c) :: r => if sample_eqb s' s then (s', e', S c) :: r else (s', e', c) :: aggregate_add s e r
  end.
Definition aggregate (l : list read) : list srow :=
  fold_left (fun acc r => aggregate_add (d_sample r) (d_energy r) acc) l [].
Definition spin_to (sp : bool) (z : Z) : Z := if sp then z else ((z + 1) / 2)%Z.
Definition convert_sample (sp : bool) (s : dict string Z) : dict string Z :=
  map (fun kv => (fst kv, spin_to sp (snd kv))) s.
Definition sampleset (sp : bool) (l : list read) : list srow :=
  map (fun r => match r with (s, e, c) => (convert_sample sp s, e, c) end) (aggregate l).

(** Lines 55 and 70: [if initial_states], [if seed]. *)
Definition init_list (o : options) : list (dict string Z) :=
  match o_init o with Some l => l | None => [] end.
Definition has_init (o : options) : bool := negb (Nat.eqb (length (init_list o)) 0).
(** Lines 82-87: the caller's dictionaries are updated in place. *)
Definition to_spin_state (s : dict string Z) : dict string Z :=
  map (fun kv => (fst kv, if Z.eqb (snd kv) 0 then (-1)%Z else snd kv)) s.
(** Lines 70-73. A negative seed is rejected by numpy. *)
Definition pick_rng (w : world) (seed : option Z) : res generator :=
  match seed with
  | None => Ok (w_fresh w)
  | Some z => if Z.eqb z 0 then Ok (w_fresh w)
              else if (z <? 0)%Z then Err ValueError else Ok (w_seeded w z)
  end.
(** Lines 52-67. *)
Definition check_reverse (r : revarg) : res unit :=
  if rev_truthy r then
    match r with
    | RDict d => if negb (dmem "reverse_period" d) then Err ValueError
                 else if negb (dmem "reverse_temperature" d) then Err ValueError else Ok tt
    | _ => Err TypeError
    end
  else Ok tt.
Definition check_args (p : physical) (o : options) : res unit :=
  if Nat.eqb (length (p_linear p)) 0 && Nat.eqb (length (p_quad p)) 0 then Err ValueError
  else if has_init o && negb (Z.eqb (Z.of_nat (length (init_list o))) (o_reads o)) then Err ValueError
  else if negb (String.eqb (o_pickup o) "random" || String.eqb (o_pickup o) "sequential") then Err ValueError
  else check_reverse (o_reverse o).

(** What solve returns with need_stats=True: the sample set and, per read, the
    statistics ([d_sample], [d_energy]: what went into the sample set). *)
Record outcome := mkOutcome { out_set : list srow; out_reads : list read }.
(** The initial states after the call, and the result. The model argument is
    [None] when it is not a PhysicalModel. *)
Definition solve (w : world) (mo : option physical) (o : options) : option (list (dict string Z)) * res outcome :=
  match mo with
  | None => (o_init o, Err TypeError)
  | Some p =>
      match check_args p o with
      | Err e => (o_init o, Err e)
      | Ok _ =>
          match pick_rng w (o_seed o) with
          | Err e => (o_init o, Err e)
          | Ok g =>
              match to_bqm 1 p with
              | Err e => (o_init o, Err e)
              | Ok orig =>
                  let b := bqm_to_spin orig in
                  let init' := if negb (b_spin orig) && has_init o
                               then Some (map to_spin_state (init_list o)) else o_init o in
                  let inits := if has_init o
                               then map Some (match init' with Some l => l | None => [] end)
                               else repeat None (Z.to_nat (o_reads o)) in
                  let n := length (b_linear b) in
                  (init',
                   rbind (fill_linear p (b_linear b) (repeat 0%Qc n)) (fun lin =>
                   rbind (fill_adj p b (bqm_variables b) (repeat [] n)) (fun adj =>
                   rbind (reads w g o p orig b lin adj inits []) (fun l =>
                   Ok (mkOutcome (sampleset (b_spin orig) l) l)))))
              end
          end
      end
  end.
