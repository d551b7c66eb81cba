(** * RoundedLogical: LogicalModel.to_physical in floating-point arithmetic.

    Line numbers refer to /repo/sawatabi/model/logical_model.py. The model covers what to_physical returns (not what it does to
    the logical model, see LogicalModel.v) for models without constraints whose coefficients, scales and offset are plain
    numbers; a constraint is ignored and anything but a plain number is an error here. *)
From Verif Require Import PyBase Constraint LogicalModel Physical.
Open Scope string_scope.
Open Scope list_scope.

(** linear[key] += coeff (541-544, 547-550), rounded. *)
Definition fl_dadd (rnd : Qc -> Qc) {K} `{Eqb K} (k : K) (q : Qc) (d : dict K Qc) : dict K Qc :=
  match dget k d with
  | Some x => dset k (rnd (x + q)%Qc) d
  | None => dset k q d
  end.
(** Lines 522-550, one interaction: the product of coefficient and scale is rounded (535); 536-538 leave a number as it is. *)
Definition fl_agg_row (rnd : Qc -> Qc) (g : agg) (r : row) : res agg :=
  if r_removed r then Ok (mkAgg (g_lin g) (g_quad g) (g_remove g ++ [r_name r]))
  else match r_coef r, r_scale r with
       | CNum c, CNum s =>
           let q := rnd (c * s)%Qc in
           match r_key r with
           | K1 l => Ok (mkAgg (fl_dadd rnd l q (g_lin g)) (g_quad g) (g_remove g))
           | K2 a b => Ok (mkAgg (g_lin g) (fl_dadd rnd (a, b) q (g_quad g)) (g_remove g))
           end
       | _, _ => Err PlaceholderError
       end.
Fixpoint fl_agg_rows (rnd : Qc -> Qc) (g : agg) (l : list row) : res agg :=
  match l with
  | [] => Ok g
  | r :: rest => match fl_agg_row rnd g r with Ok g' => fl_agg_rows rnd g' rest | Err e => Err e end
  end.
(** Lines 498-581. *)
Definition fl_to_physical (rnd : Qc -> Qc) (m : lmodel) : res physical :=
  rbind (visited m) (fun rows =>
  rbind (fl_agg_rows rnd (mkAgg [] [] []) rows) (fun g =>
  match m_offset m with
  | CNum off => Ok (build_physical (m_mtype m) (m_vars m) (m_deleted m) (g_lin g) (g_quad g) off)
  | _ => Err PlaceholderError
  end)).
