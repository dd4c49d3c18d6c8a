(** * Cells of a SparseLevelSet view (include/zensim/geometry/SparseLevelSet.hpp 379-416)

    Positions are lists of exact rationals in index space, one entry per direction; [lower_trunc] is that
    of KernModel (floor). *)

From Coq Require Import ZArith QArith List.
From Verif Require Import KernModel.
Import ListNotations.

(** grid_e, the categories a level set has. *)
Inductive category := cellcentered | collocated | staggered.

(** RetT::init with the index of the direction. *)
Definition init {A B : Type} (f : nat -> A -> B) (x : list A) : list B :=
  map (fun dv => f (fst dv) (snd dv)) (combine (seq 0 (length x)) x).

(** cellToIndex (379-387), and for a face (388-397). *)
Definition cellToIndex (cate : category) (X : list Z) : list Q :=
  match cate with
  | cellcentered => map (fun v => inject_Z v + (1#2))%Q X
  | _ => map inject_Z X
  end.
Definition cellToIndex_face (X : list Z) (f : nat) : list Q :=
  init (fun d v => if negb (Nat.eqb d f) then inject_Z v + (1#2) else inject_Z v)%Q X.

(** indexToCell (398-406), and for a face (407-416). *)
Definition indexToCell (cate : category) (x : list Q) : list Z :=
  match cate with
  | cellcentered => map (fun v => lower_trunc v) x
  | _ => map (fun v => lower_trunc (v + (1#2))%Q) x
  end.
Definition indexToCell_face (x : list Q) (f : nat) : list Z :=
  init (fun d v => if negb (Nat.eqb d f) then lower_trunc v else lower_trunc (v + (1#2))%Q) x.
