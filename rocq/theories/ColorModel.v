(** Model of fast_independent_sets and maximum_independent_sets (graph/Coloring.hpp 10-88, 94-219).
    The compressed matrix is given by its adjacency rows (row v: _inds[_ptrs[v] .. _ptrs[v+1]]); row indices beyond the matrix are empty, so a
    symmetric adjacency has all indices below n.  Weights are integers (only compared).  In every kernel iteration v writes entry v only
    of arrays that the kernel does not read at other indices, and stores the constant 1 into done/expanded, so the result does not depend
    on the schedule: each kernel is a table over v.  top: numeric_max of the colour type (28: initial colour). *)
From Verif Require Import Prelude.
Open Scope Z_scope.

Section Col.
Variables (adj : list (list nat)) (ws : list Z) (top : Z).
(** n = range_size(weights) (Coloring.hpp 20, 104) *)
Definition nverts : nat := length ws.
(** the columns stored in row v of spmat (Coloring.hpp 11, 95) *)
Definition nb (v : nat) : list nat := nth v adj [].
(** weights[v] (Coloring.hpp 12, 96) *)
Definition wt (v : nat) : Z := nth v ws 0.
(** scaffolding: a range with one entry per vertex (Coloring.hpp 12, 96) *)
Definition tab {X} (g : nat -> X) : list X := map g (seq 0 nverts).

(** kernel 45-69: colorMax, colorMin over the neighbours not masked out *)
Definition color_max (mask : list bool) (v : nat) : bool := forallb (fun u => nth u mask false || negb (wt v <? wt u)) (nb v).
Definition color_min (mask : list bool) (v : nat) : bool := forallb (fun u => nth u mask false || negb (wt u <? wt v)) (nb v).
Definition fast_colors (mask : list bool) (colors : list Z) (color : Z) : list Z :=
  tab (fun v => if nth v mask false then nth v colors top
                else if color_max mask v then color + 1 else if color_min mask v then color + 2 else nth v colors top).
(** done[0], done[1] *)
Definition done0 (mask : list bool) : bool := existsb (fun v => negb (nth v mask false) && color_max mask v) (seq 0 nverts).
Definition done1 (mask : list bool) : bool := existsb (fun v => negb (nth v mask false) && negb (color_max mask v) && color_min mask v) (seq 0 nverts).
(** kernel 78-82 *)
Definition fast_mask (mask : list bool) (colors : list Z) (color : Z) : list bool :=
  tab (fun v => if nth v mask false then true else (nth v colors top =? color + 1) || (nth v colors top =? color + 2)).
(** the loop 37-83; None: fuel exhausted *)
Fixpoint fast_loop (fuel : nat) (mask : list bool) (colors : list Z) (color : Z) : option (list Z * Z) :=
  match fuel with
  | O => None
  | S f =>
    let colors' := fast_colors mask colors color in
    if negb (done0 mask) then Some (colors', color)
    else if negb (done1 mask) then Some (colors', color + 1)
    else fast_loop f (fast_mask mask colors' color) colors' (color + 2)
  end.
Definition fast_independent_sets (fuel : nat) : option (list Z * Z) := fast_loop fuel (tab (fun _ => false)) (tab (fun _ => top)) 0.

(** maximum_independent_sets: mask 0 free, 1 coloured, 2 excluded for this colour *)
Definition free (mask : list nat) (v : nat) : bool := Nat.eqb (nth v mask 0%nat) 0.
Definition free_min (mask : list nat) (v : nat) : bool := forallb (fun u => negb (free mask u) || negb (wt u <? wt v)) (nb v).
(** kernels 135-158 and 182-204 *)
Definition max_colors (mask : list nat) (colors : list Z) (color : Z) : list Z :=
  tab (fun v => if negb (free mask v) then nth v colors top else if free_min mask v then color + 1 else nth v colors top).
Definition expanded (mask : list nat) : bool := existsb (fun v => free mask v && free_min mask v) (seq 0 nverts).
(** kernels 161-165 and 206-210 *)
Definition max_mask (mask : list nat) (colors : list Z) (color : Z) : list nat :=
  tab (fun v => if negb (free mask v) then nth v mask 0%nat else if nth v colors top =? color + 1 then 1%nat else nth v mask 0%nat).
(** kernel 171-180 *)
Definition exclude (mask : list nat) (colors : list Z) (color : Z) : list nat :=
  tab (fun v => if negb (free mask v) then nth v mask 0%nat else if existsb (fun u => nth u colors top =? color + 1) (nb v) then 2%nat else nth v mask 0%nat).
(** do-while 168-212 *)
Fixpoint expand (fuel : nat) (mask : list nat) (colors : list Z) (color : Z) : option (list nat * list Z) :=
  match fuel with
  | O => None
  | S f =>
    let m1 := exclude mask colors color in
    let c1 := max_colors m1 colors color in
    let m2 := max_mask m1 c1 color in
    if expanded m1 then expand f m2 c1 color else Some (m2, c1)
  end.
(** 215-217 *)
Definition unexclude (mask : list nat) : list nat := tab (fun v => if Nat.eqb (nth v mask 0%nat) 2 then 0%nat else nth v mask 0%nat).
(** the loop 131-218 *)
Fixpoint max_loop (fuel : nat) (mask : list nat) (colors : list Z) (color : Z) : option (list Z * Z) :=
  match fuel with
  | O => None
  | S f =>
    let c1 := max_colors mask colors color in
    if negb (expanded mask) then Some (c1, color)
    else match expand (S (S nverts)) (max_mask mask c1 color) c1 color with
         | None => None
         | Some (m2, c2) => max_loop f (unexclude m2) c2 (color + 1)
         end
  end.
Definition maximum_independent_sets (fuel : nat) : option (list Z * Z) := max_loop fuel (tab (fun _ => 0%nat)) (tab (fun _ => top)) 0.
End Col.
