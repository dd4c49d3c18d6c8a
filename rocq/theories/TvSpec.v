(** Specification for C107, with the index boxes and storage orders of [IdxSpec]. *)
From Coq Require Import ZArith List Arith.
From Verif Require Import IdxSpec TvModel.
Import ListNotations.
Open Scope Z_scope.

(** The number of a coordinate counted with the last one fastest *)
Fixpoint rowmajor (ns a : list Z) : Z :=
  match ns, a with _ :: ns', x :: a' => x * product ns' + rowmajor ns' a' | _, _ => 0 end.

(** A tensor type that compiles: a storage order, and storage at least as large as the tensor *)
Definition tensor_ok (t : tensor) : Prop :=
  storage_order (length (t_sto t)) (t_ord t) /\ Forall2 (fun n m => 0 < n <= m) (t_ext t) (t_sto t) /\ t_ext t <> [].

(** A view whose prefix and base name coordinates of the tensor *)
Definition view_ok (t : tensor) (v : view) : Prop :=
  v_ext v <> [] /\ length (v_base v) = length (v_ext v) /\ (length (v_pre v) + length (v_ext v) = length (t_ext t))%nat /\
  Forall (fun n => 0 < n) (v_ext v).

(** The coordinates in the tensor of element c of a view: the prefix, then the base plus c *)
Fixpoint plus (b c : list Z) : list Z := match b, c with x :: b', y :: c' => x + y :: plus b' c' | _, _ => [] end.
Definition within (v : view) (c : list Z) : list Z := v_pre v ++ plus (v_base v) c.
