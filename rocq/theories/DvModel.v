(** * Views of degrees of freedom and the operators over them
    (include/zensim/types/View.h, include/zensim/math/linear/LinearOperators.hpp).

    Indices and channels are unbounded: size_type and the channel counter (int for a TileVector,
    TileVector.hpp 31; unsigned char for structures without one, View.h 29-30) are assumed not to
    wrap.  An access outside the structure is None. *)

From Coq Require Import List Arith Bool Lia.
Import ListNotations.

(** A place in memory: structure, channel, entry, component of the entry.  The tiling of a
    TileVector in memory is TileModel's subject. *)
Definition loc := (nat * nat * nat * nat)%type.
Definition loc_eqb (a b : loc) : bool :=
  let '(s, c, e, d) := a in let '(s', c', e', d') := b in
  Nat.eqb s s' && Nat.eqb c c' && Nat.eqb e e' && Nat.eqb d d'.

(** The memory shared by all structures. *)
Definition mem (A : Type) := loc -> A.
Definition put {A} (m : mem A) (l : loc) (x : A) : mem A := fun l' => if loc_eqb l' l then x else m l'.

(** attrib_e::scalar and attrib_e::vector, the entry kinds used by dof_traits (View.h 31-32). *)
Inductive attrib := Scalar | Vector.

(** DofView (View.h 76-173 without, 175-283 with a channel): the structure behind it (its
    identity, its number of channels, its _size), entry_e, dim, traits::deduced_dim (33-35) and,
    for the second form, _chn. *)
Record view := View {
  v_sid : nat; v_nchn : nat; v_size : nat; v_entry : attrib; v_dim : nat; v_ded : nat; v_chn : option nat }.

(** What get returns and set takes: a scalar or a vec. *)
Inductive val (A : Type) := Sc (x : A) | Ve (xs : list A).
Arguments Sc {A} x. Arguments Ve {A} xs.

(** numEntries (View.h 101-103 without, 201 with a channel). *)
Definition numEntries (v : view) : nat :=
  match v_chn v with
  | None => match v_entry v with Scalar => v_size v | Vector => v_size v * v_dim v end
  | Some _ => v_size v * v_dim v
  end.

(** traits::ref(obj, i) (View.h 43-48), read as channel 0, and traits::ref(obj, chn, i) (62-68),
    then operator[] of the entry: component k of the entry, 0 for a scalar entry. *)
Definition tref (v : view) (c i k : nat) : option loc :=
  if Nat.ltb c (v_nchn v) && Nat.ltb i (v_size v)
     && match v_entry v with Scalar => Nat.eqb k 0 | Vector => Nat.ltb k (v_dim v) end
  then Some (v_sid v, c, i, k) else None.

(** iterator_impl::dereference (View.h 123-128 without, 222-227 with a channel). *)
Definition dereference (v : view) (idx : nat) : option loc :=
  match v_chn v, v_entry v with
  | None, Scalar => tref v 0 idx 0
  | None, Vector => tref v 0 (idx / v_dim v) (idx mod v_dim v)
  | Some c, Scalar => tref v (c + idx mod v_dim v) (idx / v_dim v) 0
  | Some c, Vector => tref v c (idx / v_dim v) (idx mod v_dim v)
  end.

(** Reads and writes of several places: None as soon as one is out of bounds. *)
Fixpoint places (ls : list (option loc)) : option (list loc) :=
  match ls with
  | [] => Some []
  | o :: r => match o, places r with Some l, Some ls' => Some (l :: ls') | _, _ => None end
  end.
(** The loops ret(d) = get(..) (View.h 155, 257). *)
Definition loads {A} (m : mem A) (ls : list (option loc)) : option (val A) :=
  match places ls with Some l => Some (Ve (map m l)) | None => None end.
(** The loops ref(..) = v[d] (View.h 170, 274, 277). *)
Fixpoint stores {A} (m : mem A) (ls : list (option loc)) (xs : list A) : option (mem A) :=
  match ls, xs with
  | o :: ls', x :: xs' => match o with Some l => stores (put m l x) ls' xs' | None => None end
  | _, _ => Some m
  end.
Definition load {A} (m : mem A) (o : option loc) : option (val A) :=
  match o with Some l => Some (Sc (m l)) | None => None end.
Definition store {A} (m : mem A) (o : option loc) (x : A) : option (mem A) :=
  match o with Some l => Some (put m l x) | None => None end.

(** The components of entry i of a structure of vectors, channel c (the copy made by
    traits::get and traits::set of a vector entry, View.h 37-53 and 56-73). *)
Definition whole (v : view) (c i : nat) : list (option loc) := map (tref v c i) (seq 0 (v_dim v)).

(** get(i, wrapv<AccessEntry>) (View.h 146-158 without, 248-261 with a channel). *)
Definition get {A} (m : mem A) (v : view) (access : attrib) (i : nat) : option (val A) :=
  let dim := v_dim v in
  match v_chn v with
  | None =>
      match access, v_entry v with
      | Scalar, Scalar => load m (tref v 0 i 0)
      | Vector, Vector => loads m (whole v 0 i)
      | Scalar, Vector => load m (tref v 0 (i / dim) (i mod dim))
      | Vector, Scalar => loads m (map (fun d => tref v 0 (i * dim + d) 0) (seq 0 dim))
      end
  | Some c =>
      match access, v_entry v with
      | Scalar, Scalar => load m (tref v (c + i mod dim) (i / dim) 0)
      | Scalar, Vector => load m (tref v c (i / dim) (i mod dim))
      | Vector, Scalar => loads m (map (fun d => tref v (c + d) i 0) (seq 0 dim))
      | Vector, Vector => loads m (whole v c i)
      end
  end.

(** set(i, v) (View.h 159-172 without, 262-282 with a channel).  A vec of another extent than the
    entry does not compile for a structure of vectors and is None; the channel form over scalars
    ignores it (271).  ref(base + d) at 277 stays in channel _chn (202). *)
Definition set {A} (m : mem A) (v : view) (i : nat) (x : val A) : option (mem A) :=
  let dim := v_dim v in
  match v_chn v with
  | None =>
      match x, v_entry v with
      | Sc a, Scalar => store m (tref v 0 i 0) a
      | Ve xs, Vector => if Nat.eqb (length xs) dim then stores m (whole v 0 i) xs else None
      | Sc a, Vector => store m (tref v 0 (i / dim) (i mod dim)) a
      | Ve xs, Scalar => stores m (map (fun d => tref v 0 (i * length xs + d) 0) (seq 0 (length xs))) xs
      end
  | Some c =>
      match x, v_entry v with
      | Sc a, Scalar => store m (tref v (c + i mod dim) (i / dim) 0) a
      | Sc a, Vector => store m (tref v c (i / dim) (i mod dim)) a
      | Ve xs, Scalar =>
          if Nat.eqb (length xs) dim then
            if Nat.eqb (v_ded v) dim
            then stores m (map (fun d => tref v (c + d) i 0) (seq 0 dim)) xs
            else stores m (map (fun d => tref v c (i * dim + d) 0) (seq 0 dim)) xs
          else Some m
      | Ve xs, Vector => if Nat.eqb (length xs) dim then stores m (whole v c i) xs else None
      end
  end.

(** Reading through the iterators from begin to end (View.h 140-143, 240-245). *)
Definition iterate (v : view) : list (option loc) := map (dereference v) (seq 0 (numEntries v)).

(** policy(range(n), body): the body runs once for each index, in the order given; C22 to C24
    cover the policies.  None: an access out of bounds. *)
Fixpoint launch {A} (body : nat -> mem A -> option (mem A)) (order : list nat) (m : mem A) : option (mem A) :=
  match order with
  | [] => Some m
  | i :: r => match body i m with Some m' => launch body r m' | None => None end
  end.

(** What an operator ends with: an exception, undefined behaviour, or a memory. *)
Inductive outcome (A : Type) := Throws | Undefined | Done (m : mem A).
Arguments Throws {A}. Arguments Undefined {A}. Arguments Done {A} m.
Definition finish {A} (r : option (mem A)) : outcome A :=
  match r with Some m => Done m | None => Undefined end.

(** DofCompwiseOp::ComputeOp::operator() (LinearOperators.hpp 51-53). *)
Definition compute {A} (op : A -> A -> A) (va vb vc : view) (i : nat) (m : mem A) : option (mem A) :=
  match get m va Scalar i, get m vb Scalar i with
  | Some (Sc a), Some (Sc b) => set m vc i (Sc (op a b))
  | _, _ => None
  end.

(** DofCompwiseOp::operator() (LinearOperators.hpp 61-69); [order] is the order in which the
    policy runs the indices of range(va.numEntries()). *)
Definition compwise {A} (op : A -> A -> A) (va vb vc : view) (order : list nat) (m : mem A) : outcome A :=
  if Nat.eqb (numEntries va) (numEntries vb) && Nat.eqb (numEntries va) (numEntries vc)
  then finish (launch (compute op va vb vc) order m) else Throws.

(** DofCompwiseUnaryOp::ComputeOp::operator() (LinearOperators.hpp 107); the same with
    op(_, v) bound for DofCompwiseCustomUnaryOp (79). *)
Definition compute1 {A} (op : A -> A) (va vb : view) (i : nat) (m : mem A) : option (mem A) :=
  match get m va Scalar i with Some (Sc a) => set m vb i (Sc (op a)) | _ => None end.

(** DofCompwiseUnaryOp::operator() and DofCompwiseCustomUnaryOp::operator()
    (LinearOperators.hpp 114-121, 87-92). *)
Definition compwise1 {A} (op : A -> A) (va vb : view) (order : list nat) (m : mem A) : outcome A :=
  if Nat.eqb (numEntries va) (numEntries vb)
  then finish (launch (compute1 op va vb) order m) else Throws.

(** DofFill::operator() (LinearOperators.hpp 26) with a scalar. *)
Definition fill {A} (v : view) (x : A) (i : nat) (m : mem A) : option (mem A) := set m v i (Sc x).

(** DofAssign::operator() (LinearOperators.hpp 17). *)
Definition assign {A} (va vb : view) (i : nat) (m : mem A) : option (mem A) :=
  match get m va (v_entry vb) i with Some x => set m vb i x | None => None end.

(** IdentitySystem::multiply and precondition (LinearOperators.hpp 127-131, 136-139); [order] is
    the order in which the policy runs range(out.size()). *)
Definition identity {A} (vin vout : view) (order : list nat) (m : mem A) : outcome A :=
  finish (launch (assign vin vout) order m).

(** The solvers copy between the caller's view and their own scalars with DofAssign over
    range(numDofs), where numDofs = xinout.numEntries() (ConjugateResidual.hpp 76, 148;
    MinimumResidual.hpp 120, 141, 189); [order] is the order in which the policy runs that range. *)
Definition copy_dofs {A} (va vb : view) (order : list nat) (m : mem A) : outcome A :=
  finish (launch (assign va vb) order m).
