(** The index arithmetic of zs::vec and zs::tensor views: include/zensim/math/VecInterface.hpp 10-57 and the sums and products it is built on,
    include/zensim/ZpcMathUtils.hpp 266-281, 1784-1804. The parameter packs are lists; the index type is unbounded. *)
From Coq Require Import ZArith List Arith.
Import ListNotations.
Open Scope Z_scope.

(** ZpcMathUtils.hpp 269-272, 1784-1786: (... + ((sint_t)Is <= I ? args : 0)) *)
Definition incl_prefix_sum (I : Z) (args : list Z) : Z :=
  fold_right (fun p s => (if Z.of_nat (fst p) <=? I then snd p else 0) + s) 0 (combine (seq 0 (length args)) args).
(** 273-276, 1787-1789 *)
Definition excl_prefix_sum (I : Z) (args : list Z) : Z :=
  fold_right (fun p s => (if Z.of_nat (fst p) <? I then snd p else 0) + s) 0 (combine (seq 0 (length args)) args).
(** 277-280, 1790-1792 *)
Definition excl_suffix_mul (I : Z) (args : list Z) : Z :=
  fold_right (fun p s => (if I <? Z.of_nat (fst p) then snd p else 1) * s) 1 (combine (seq 0 (length args)) args).

Section Indexer.
Variables (ns : list Z) (orders : list nat).
(** VecInterface.hpp 17 *)
Definition extent : Z := fold_right Z.mul 1 ns.
(** 20: the position of i among the storage orders *)
Fixpoint position (i : nat) (l : list nat) : nat := match l with [] => 0%nat | x :: r => if Nat.eqb x i then 0%nat else S (position i r) end.
Definition lookup_orders : list nat := map (fun i => position i orders) (seq 0 (length ns)).
(** 22-23 *)
Definition storage_extents : list Z := map (fun o => nth o ns 0) orders.
(** 24 *)
Definition storage_bases : list Z := map (fun i => excl_suffix_mul (Z.of_nat i) storage_extents) (seq 0 (length ns)).
(** 25-26 *)
Definition lookup_bases : list Z := map (fun i => nth (nth i lookup_orders 0%nat) storage_bases 0) (seq 0 (length ns)).
(** 28-35 *)
Definition storage_range (i : nat) : Z := nth (nth i orders 0%nat) ns 0.
Definition range (i : nat) : Z := nth i ns 0.
(** 37-48: offset of at most dim arguments *)
Definition offset (args : list Z) : Z := fold_left Z.add (map (fun p => fst p * snd p) (combine args lookup_bases)) 0.
End Indexer.
(** 51-53: the indexer in the order of the extents *)
Definition natural (ns : list Z) : list nat := seq 0 (length ns).
