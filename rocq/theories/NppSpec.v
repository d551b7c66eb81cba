(** * NppSpec: what partitioning numbers means, independently of the code. *)
From Coq Require Import List ZArith Permutation Sorted.
Import ListNotations.
Local Open Scope Z_scope.

(** The numbers at the positions [p], added up. *)
Definition total (numbers : list Z) (p : list nat) : Z :=
  fold_right Z.add 0 (map (fun k => nth k numbers 0) p).
(** Two groups that together contain each of the positions 0..n-1 once. *)
Definition split (n : nat) (p q : list nat) : Prop := Permutation (p ++ q) (seq 0 n).
Definition difference (numbers : list Z) (p q : list nat) : Z :=
  Z.abs (total numbers p - total numbers q).
(** A split whose difference no other split beats. *)
Definition optimal (numbers : list Z) (p q : list nat) : Prop :=
  split (length numbers) p q /\
  forall p' q', split (length numbers) p' q' -> difference numbers p q <= difference numbers p' q'.
Definition exact (numbers : list Z) (p q : list nat) : Prop :=
  split (length numbers) p q /\ total numbers p = total numbers q.
Definition ascending (p : list nat) : Prop := StronglySorted lt p.
