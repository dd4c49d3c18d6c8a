(** * Cells around positions *)
From Coq Require Import ZArith QArith List.

(** [x] lies in the half-open box of side one centred at [c]. *)
Definition in_unit_box (c x : list Q) : Prop :=
  Forall2 (fun m v => m - (1#2) <= v /\ v < m + (1#2))%Q c x.
