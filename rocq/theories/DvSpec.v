(** * What a view of degrees of freedom is

    A view presents its structure as entries of dim components each; degree of freedom number
    e * dim + d is component d of entry e.  Where that component lives depends on the structure:
    in a plain array of scalars it is the scalar number e * dim + d, in a structure of vectors it
    is component d of element e, in a multi-channel structure of scalars it is element e of
    channel chn + d. *)

From Coq Require Import List Arith.
From Verif Require Import DvModel.
Import ListNotations.

Definition component (v : view) (e d : nat) : loc :=
  match v_chn v, v_entry v with
  | None, Scalar => (v_sid v, 0, e * v_dim v + d, 0)
  | None, Vector => (v_sid v, 0, e, d)
  | Some c, Scalar => (v_sid v, c + d, e, 0)
  | Some c, Vector => (v_sid v, c, e, d)
  end.

(** The view fits its structure: positive dimension, the channels it uses exist, and the
    static_assert on the dimension of vector entries holds. *)
Definition fits (v : view) : Prop :=
  0 < v_dim v /\
  (v_entry v = Vector -> v_dim v = v_ded v) /\
  match v_chn v, v_entry v with
  | None, _ => 0 < v_nchn v
  | Some c, Scalar => c + v_dim v <= v_nchn v
  | Some c, Vector => c < v_nchn v
  end.

(** Location l is degree of freedom number k. *)
Definition is_dof (v : view) (k : nat) (l : loc) : Prop :=
  exists e d, d < v_dim v /\ k = e * v_dim v + d /\ l = component v e d.

(** The places of a view. *)
Definition owns (v : view) (l : loc) : Prop := exists k, k < numEntries v /\ is_dof v k l.

(** An input view and an output view either are the same degrees of freedom, or share none. *)
Definition same_dofs (a b : view) : Prop := forall k l, k < numEntries b -> (is_dof a k l <-> is_dof b k l).
Definition apart (a b : view) : Prop := forall l, ~ (owns a l /\ owns b l).
