(** * What the domain of a sparse level set is: a finite map from block coordinates to blocks *)

From Coq Require Import List ZArith Arith.
From Verif Require Import LdModel.
Import ListNotations.

(** The table and the list of active keys describe the same numbering of blocks. *)
Definition consistent (s : spls) : Prop :=
  forall k i, tab s k = Some i <-> i < cnt s /\ akeys s i = k.

(** The value of channel ch of cell ci in the block at k. *)
Definition value (s : spls) (k : key) (ch ci : nat) : option Z :=
  match tab s k with Some i => Some (grid s i ch ci) | None => None end.

(** A value counts as active: an sdf below the background, another property away from zero. *)
Definition active_value (c : setup) (thr : Z) (k : kind) (x : Z) : Prop :=
  (k = Sdf /\ (x < background c + thr)%Z) \/ (k = Other /\ (thr < Z.abs x)%Z).

(** The block at k holds an active value. *)
Definition active_block (c : setup) (thr : Z) (s : spls) (k : key) : Prop :=
  exists p chn ci x, In p (props c) /\ chn < p_size p /\ ci < bsize c /\
    value s k (p_off p + chn) ci = Some x /\ active_value c thr (p_kind p) x.

(** k lies within n blocks of block j, in every direction. *)
Definition within_blocks (n : Z) (j k : key) : Prop :=
  exists a b c, (Z.abs a <= n /\ Z.abs b <= n /\ Z.abs c <= n)%Z /\
    let '(x, y, z) := j in k = (x + 8 * a, y + 8 * b, z + 8 * c)%Z.
