(** Model of LBvs (container/Bvs.hpp): boxes kept sorted by their lower bound on one axis.
    Coordinates are integers standing for finite floating-point values: the code only compares them, except for the two subtractions of
    the axis choice, on whose outcome nothing below depends.  A box is the pair of its _min and _max vectors (lists of length dim).
    The parallel loops write cell i of an array from iteration i only, so they are maps.
    build() sorts with radix_sort_pair on floating-point keys: on the sequential and OpenMP policies this does not compile (operator^ on a
    float at ExecutionPolicy.hpp 563-566, static_assert(is_integral_v<KeyT>) at omp/execution/ExecutionPolicy.hpp 1035), so the sort of
    build() is a device primitive, here the variable [dsort].  refit() uses merge_sort_pair, modelled in SortModel. *)
From Verif Require Import Prelude SortModel.
Open Scope Z_scope.

(** an element of bvs (Bvs.hpp 187): _min and _max (AnalyticLevelSet.h 65-67) *)
Definition box := (list Z * list Z)%type.
(** _min of a box (AnalyticLevelSet.h 66) *)
Definition bmin (b : box) (d : nat) : Z := nth d (fst b) 0.
(** _max of a box (AnalyticLevelSet.h 67) *)
Definition bmax (b : box) (d : nat) : Z := nth d (snd b) 0.

(** geometry/AnalyticLevelSet.h 262-266 *)
Definition overlaps (dim : nat) (a b : box) : bool :=
  forallb (fun d => negb ((bmax a d <? bmin b d) || (bmax b d <? bmin a d))) (seq 0 dim).

(** the members of LBvs: bvs, axis, sts, auxIndices (Bvs.hpp 187-190) *)
Record lbvs := mkLbvs { bvs : list box; ax : nat; sts : list Z; aux : list nat }.

Section Build.
Variable dim : nat.
Variable dsort : list (Z * nat) -> list (Z * nat).

(** getBox 54-74: bounds of all boxes on dimension d, from numeric_max / lowest (here the first box, same result on non-empty input) *)
Definition glow (l : list box) (d : nat) : Z := match l with [] => 0 | b :: r => fold_left Z.min (map (fun b => bmin b d) r) (bmin b d) end.
Definition ghigh (l : list box) (d : nat) : Z := match l with [] => 0 | b :: r => fold_left Z.max (map (fun b => bmax b d) r) (bmax b d) end.
(** 99-116: the given axis if valid, else the longest dimension *)
Definition pick_axis (prims : list box) (axis : Z) : nat :=
  if (0 <=? axis) && (axis <? Z.of_nat dim) then Z.to_nat axis
  else fst (fold_left (fun ad d => let t := ghigh prims d - glow prims d in if snd ad <? t then (d, t) else ad)
              (seq 1 (dim - 1)) (0%nat, ghigh prims 0 - glow prims 0)).

(** 151-158, 181-188: bvs[i] = primBvs[auxIndices[i]]; None if an index is outside primBvs *)
Fixpoint gather (prims : list box) (idx : list nat) : option (list box) :=
  match idx with
  | [] => Some []
  | i :: r => match nth_error prims i with Some b => bind (gather prims r) (fun l => Some (b :: l)) | None => None end
  end.

(** build 76-159 *)
Definition build (prims : list box) (axis : Z) : option lbvs :=
  let a := pick_axis prims axis in
  let s := dsort (combine (map (fun b => bmin b a) prims) (seq 0 (length prims))) in
  bind (gather prims (map snd s)) (fun l => Some (mkLbvs l a (map fst s) (map snd s))).
End Build.

(** refit 161-189 (sequential policy): None also when the counts differ (the code throws) *)
Definition refit (t : lbvs) (prims : list box) (tmp : list (Z * nat)) : option lbvs :=
  if negb (length prims =? length (bvs t))%nat then None else
  bind (gather prims (aux t)) (fun l0 =>
  bind (merge_sort (fun p q : Z * nat => fst p <? fst q) (combine (map (fun b => bmin b (ax t)) l0) (aux t)) tmp) (fun s =>
  bind (gather prims (map snd s)) (fun l => Some (mkLbvs l (ax t) (map fst s) (map snd s))))).

(** locate 227-238: the loop; None: access outside _bvs or fuel exhausted *)
Fixpoint locate_loop (fuel : nat) (t : lbvs) (v left right : Z) : option Z :=
  match fuel with
  | O => None
  | S f =>
    if left <=? right then
      let mid := left + (right - left) / 2 in
      if mid <? 0 then None else
      match nth_error (bvs t) (Z.to_nat mid) with
      | None => None
      | Some b => if v <? bmin b (ax t) then locate_loop f t v left (mid - 1) else locate_loop f t v (mid + 1) right
      end
    else Some right
  end.
Definition locate (t : lbvs) (v : Z) : option Z := locate_loop (S (length (bvs t))) t v 0 (Z.of_nat (length (bvs t)) - 1).

(** the loops of 243-246 and 252-255 from index i, n steps: the primitives reported, in order *)
Fixpoint sweep (dim : nat) (t : lbvs) (q : box) (i n : nat) : option (list nat) :=
  match n with
  | O => Some []
  | S m => match nth_error (aux t) i, nth_error (bvs t) i with
           | Some p, Some b => bind (sweep dim t q (S i) m) (fun r => Some (if overlaps dim b q then p :: r else r))
           | _, _ => None
           end
  end.
(** iter_neighbors 241-248 *)
Definition iter_neighbors (dim : nat) (t : lbvs) (q : box) : option (list nat) :=
  bind (locate t (bmax q (ax t))) (fun ed => sweep dim t q 0 (Z.to_nat (ed + 1))).
(** self_iter_neighbors 249-257 *)
Definition self_iter_neighbors (dim : nat) (t : lbvs) (node : nat) : option (list nat) :=
  match nth_error (bvs t) node with
  | None => None
  | Some q => bind (locate t (bmax q (ax t))) (fun ed => sweep dim t q (S node) (Z.to_nat (ed - Z.of_nat node)))
  end.
(** self_iter_neighbors over all nodes, each report paired with the primitive of the node it was called on *)
Fixpoint self_all (dim : nat) (t : lbvs) (nodes : list nat) : option (list (nat * nat)) :=
  match nodes with
  | [] => Some []
  | i :: r => match nth_error (aux t) i with
              | None => None
              | Some p => bind (self_iter_neighbors dim t i) (fun l => bind (self_all dim t r) (fun rest => Some (map (pair p) l ++ rest)))
              end
  end.

(** the states a user can reach: build from some boxes, then refit with new boxes any number of times.
    [live prims t]: t was last built or refitted from prims. *)
Inductive live (dim : nat) (dsort : list (Z * nat) -> list (Z * nat)) : list box -> lbvs -> Prop :=
| live_build prims axis t : build dim dsort prims axis = Some t -> live dim dsort prims t
| live_refit prims0 t prims tmp t' : live dim dsort prims0 t -> length prims = length prims0 -> length tmp = length prims ->
    refit t prims tmp = Some t' -> live dim dsort prims t'.
