(** Tensors and views into them: include/zensim/math/Tensor.hpp 10-197, with index_to_coord (ZpcTuple.hpp 381-399) and
    the index arithmetic of [IdxModel].  The index type is unbounded; a place is an offset into _data.  The arithmetic
    of whole tensors (VecInterface) and variant_vec are left out. *)
From Coq Require Import ZArith List Arith.
From Verif Require Import IdxModel.
Import ListNotations.
Open Scope Z_scope.

(** ZpcTuple.hpp 388-393; scan<2> is the product of the later extents (ZpcFunctional.hpp 537-538) *)
Fixpoint peel (I : Z) (bases : list Z) : list Z :=
  match bases with [] => [] | b :: r => let c := I / b in c :: peel (I - b * c) r end.
(** ZpcTuple.hpp 382-399 *)
Definition index_to_coord (I : Z) (ns : list Z) : list Z :=
  peel I (map (fun i => excl_suffix_mul (Z.of_nat i) ns) (seq 0 (length ns))).

(** tensor_impl (Tensor.hpp 108-128): the extents, the storage extents and the storage order *)
Record tensor := Tensor { t_ext : list Z; t_sto : list Z; t_ord : list nat }.
(** tensor_view (Tensor.hpp 10-45): its extents, _prefix and _base *)
Record view := Vw { v_ext : list Z; v_pre : list Z; v_base : list Z }.

(** tensor_impl::operator() (Tensor.hpp 160-169) *)
Definition t_call (t : tensor) (args : list Z) : Z := offset (t_sto t) (t_ord t) args.
(** tensor_impl::do_val (Tensor.hpp 190-195) *)
Definition t_val (t : tensor) (i : Z) : Z := offset (t_sto t) (t_ord t) (index_to_coord i (t_ext t)).

(** The constructor without coordinates (Tensor.hpp 34-37) *)
Definition root (t : tensor) (ext : list Z) : view :=
  Vw ext (repeat 0 (length (t_ext t) - length ext)) (repeat 0 (length ext)).
(** getTensorCoord (Tensor.hpp 46-50): only with as many coordinates as the view has dimensions *)
Definition coord (v : view) (c : list Z) : option (list Z) :=
  if Nat.eqb (length c) (length (v_ext v)) then Some (v_pre v ++ map (fun p => fst p + snd p) (combine (v_base v) c)) else None.
(** tensor_view::operator() (Tensor.hpp 52-65); None does not compile *)
Definition v_call (t : tensor) (v : view) (args : list Z) : option Z := option_map (t_call t) (coord v args).
(** tensor_view::do_val (Tensor.hpp 90-99) *)
Definition v_val (t : tensor) (v : view) (i : Z) : option Z := option_map (t_call t) (coord v (index_to_coord i (v_ext v))).

(** What operator[] yields: a reference or a view of one dimension less *)
Inductive item := Ref (place : Z) | Sub (v : view).
(** tensor_impl::operator[] (Tensor.hpp 170-188) *)
Definition t_at (t : tensor) (i : Z) : option item :=
  match t_ext t with
  | [] => None
  | [_] => Some (Ref (offset (t_sto t) (t_ord t) [i]))
  | _ :: r => Some (Sub (Vw r [i] (repeat 0 (length r))))
  end.
(** tensor_view::operator[] (Tensor.hpp 66-88) *)
Definition v_at (t : tensor) (v : view) (i : Z) : option item :=
  match v_ext v with
  | [] => None
  | [_] => option_map (fun c => Ref (t_call t c)) (coord v [i])
  | _ :: r => Some (Sub (Vw r (v_pre v ++ [i + nth 0 (v_base v) 0]) (tl (v_base v))))
  end.
(** v[i][j]... and t[i][j]... *)
Fixpoint v_chain (t : tensor) (it : item) (a : list Z) : option item :=
  match a with
  | [] => Some it
  | i :: r => match it with
              | Ref _ => None
              | Sub v => match v_at t v i with Some it' => v_chain t it' r | None => None end
              end
  end.
Definition t_chain (t : tensor) (a : list Z) : option item :=
  match a with
  | [] => None
  | i :: r => match t_at t i with Some it => v_chain t it r | None => None end
  end.
