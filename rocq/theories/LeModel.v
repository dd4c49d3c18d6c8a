(** * extend_level_set_domain driven by another level set
    (include/zensim/geometry/LevelSetUtils.tpp 327-435): the blocks of the domain.

    The state is that of [LdModel]; the sign of the other level set at an index coordinate is a
    parameter.  The marks and the averaged properties of the new blocks (lines 374-430) are left
    out: they do not influence which blocks are inserted. *)

From Coq Require Import List ZArith Arith Bool.
From Verif Require Import LdModel.
Import ListNotations.

(** cellid_to_coord of grid_traits (Structure.hpp 309-318), side_length 8, dimension 3. *)
Definition cellid_to_coord (ci : nat) : key :=
  let c := Z.of_nat ci in
  (Z.land (Z.shiftr (Z.shiftr c 3) 3) 7, Z.land (Z.shiftr c 3) 7, Z.land c 7).

(** Sums and differences of coordinates. *)
Definition add (a b : key) : key :=
  let '(x, y, z) := a in let '(x', y', z') := b in (x + x', y + y', z + z')%Z.

(** cb = c - (c & (side_length - 1)) (LevelSetUtils.tpp 363). *)
Definition block_of (c : key) : key :=
  let '(x, y, z) := c in (x - Z.land x 7, y - Z.land y 7, z - Z.land z 7)%Z.

(** One neighbour of one cell of one block (LevelSetUtils.tpp 359-367); [neg] is
    sdfLsv.getSignedDistance(ls.indexToWorld(c)) < 0. *)
Definition visit (neg : key -> bool) (s : spls) (v : nat * (nat * key)) : spls :=
  let '(bi, (ci, o)) := v in
  let c := add (add (akeys s bi) (cellid_to_coord ci)) o in
  let cb := block_of c in
  match tab s cb with
  | Some _ => s
  | None => if neg c then insert s cb else s
  end.

(** A round over the blocks from base on (LevelSetUtils.tpp 354-368), in the order in which the
    visits take effect.  A key inserted between query and insert by another thread makes insert
    do nothing, as the query would. *)
Definition visits (neg : key -> bool) (order : list (nat * (nat * key))) (s : spls) : spls :=
  fold_left (visit neg) order s.

(** Done, more insertions than the reserve allows, or still running. *)
Inductive outcome := Done (s : spls) | Overflow | Running.

(** The outer loop (LevelSetUtils.tpp 345-434): [orders] gives the order of each round from its
    base and number of blocks.  The reserve is at least expectedNum = (nbs - base) * 26 + nbs. *)
Fixpoint expand (neg : key -> bool) (orders : nat -> nat -> list (nat * (nat * key))) (fuel base : nat) (s : spls) : outcome :=
  match fuel with
  | 0 => Running
  | S f =>
      let s' := visits neg (orders base (cnt s)) s in
      if Nat.ltb ((cnt s - base) * 26 + cnt s) (cnt s') then Overflow
      else if Nat.eqb (cnt s') (cnt s) then Done s'
      else expand neg orders f (cnt s) s'
  end.

(** extend_level_set_domain(pol, ls, sdfLsv) (LevelSetUtils.tpp 327-435). *)
Definition extend_sdf (neg : key -> bool) (orders : nat -> nat -> list (nat * (nat * key))) (fuel : nat) (s : spls) : outcome :=
  expand neg orders fuel 0 s.

(** The visits of a round: every block from b to m, cell and neighbour. *)
Definition round (b m : nat) : list (nat * (nat * key)) := list_prod (seq b (m - b)) (list_prod (seq 0 512) offs).
