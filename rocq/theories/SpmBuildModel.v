(** Model of the parallel construction of SparseMatrix (math/matrix/SparseMatrix.hpp): build from triplets (168-208, 394-465), build of
    the topology (216-256, 468-530), fastBuild (261-307, 532-577), transposeFrom (312-356, 579-642).
    An execution of a parallel loop is the order of its atomic operations plus any order of its plain stores.
    Simplifications: see SpmModel.  A table lookup followed by localOffsets[id] is the ticket of the key (the numbering is injective,
    C27).  The retry loop after an unsuccessful table build, which starts over with fresh tables, is not modelled.  Values are scalars or
    blocks with an abstract transpose [tr]. *)
From Verif Require Import Prelude SortModel CountModel SpmModel.

(** row and column of an entry (math/matrix/SparseMatrix.hpp) *)
Definition coord_t := (nat * nat)%type.
(** equality of such pairs *)
Definition ceq (a b : coord_t) : bool := (fst a =? fst b) && (snd a =? snd b).
(** row and column exchanged *)
Definition swap (c : coord_t) : coord_t := (snd c, fst c).
Section B.
Context {V : Type}.
Variable row_major : bool.
(** the outer index, by is_row_major (SparseMatrix.hpp 26) *)
Definition oc (c : coord_t) : nat := if row_major then fst c else snd c.
(** the inner index, by is_row_major (SparseMatrix.hpp 26) *)
Definition ic (c : coord_t) : nat := if row_major then snd c else fst c.
(** SparseMatrix.hpp 412, 486, 549 *)
Definition nsegs (nr nc : nat) : nat := if row_major then nr else nc.

(** counters, pointers and target positions of the items, whose atomic_add operations happen in the order [ord]: kernel one,
    exclusive_scan, dst = ptrs[seg] + localOffset *)
Definition layout {E} (seg : E -> nat) (n : nat) (ord : list E) : option (list nat * list (nat * E)) :=
  bind (tickets seg (repeat 0 (S n)) ord) (fun '(cs, ts) => bind (targets seg (escan 0 cs) ts) (fun ws => Some (escan 0 cs, ws))).
(** ptrs[i] + localOffsets[tab.query(key)] *)
Definition dst_of (ws : list (nat * coord_t)) (c : coord_t) : option nat := option_map fst (find (fun w => ceq c (snd w)) ws).

(** *** build with values *)
(** atomic_add(&vals[offset], vs[k]) for the triplets in the given order *)
Fixpoint add_values (add : V -> V -> V) (ws : list (nat * coord_t)) (vs : list V) (order : list (coord_t * V)) : option (list V) :=
  match order with
  | [] => Some vs
  | (c, v) :: r => bind (dst_of ws c) (fun d => bind (nth_error vs d) (fun x => bind (upd vs d (add x v)) (fun vs' => add_values add ws vs' r)))
  end.
(** inds[offset] = inner index, for the triplets in the given order *)
Fixpoint index_stores (ws : list (nat * coord_t)) (order : list (coord_t * V)) : option (list (nat * nat)) :=
  match order with
  | [] => Some []
  | (c, _) :: r => bind (dst_of ws c) (fun d => bind (index_stores ws r) (fun l => Some ((d, ic c) :: l)))
  end.
(** [tab] is the set of keys of the table (active keys), [ord] the order of the counters' atomic operations, [o1] that of the index
    stores, [o2] that of the value additions, [a] the uninitialised index array *)
Definition build_run (add : V -> V -> V) (zero : V) (nr nc : nat) (trip : list (coord_t * V)) (r : option csr) : Prop :=
  exists tab ord o1 o2, NoDup tab /\ (forall c, In c tab <-> In c (map fst trip)) /\ Permutation ord tab /\ Permutation o1 trip /\ Permutation o2 trip /\
    match layout oc (nsegs nr nc) ord with
    | None => r = None
    | Some (ps, ws) => exists a, length a = nth (nsegs nr nc) ps 0 /\
        r = bind (index_stores ws o1) (fun st => bind (run_stores a st) (fun is => bind (add_values add ws (repeat zero (nth (nsegs nr nc) ps 0)) o2) (fun vs =>
              Some {| rm := row_major; nrows := nr; ncols := nc; ptrs := ps; inds := is; vals := vs |})))
    end.

(** *** topology *)
(** a call of tab.insert still to be made: (coordinate, true if it spawns the mirrored entry) *)
Definition task := (coord_t * bool)%type.
(** one pending call is made (in any order): the key is new and is entered, spawning the mirrored call (216-241), or is present *)
Inductive hash_step (mirror : bool) : list task * list coord_t -> list task * list coord_t -> Prop :=
| HS_new p1 p2 c b tab : ~ In c tab ->
    hash_step mirror (p1 ++ (c, b) :: p2, tab) (p1 ++ (if b && mirror && negb (fst c =? snd c) then [(swap c, false)] else []) ++ p2, tab ++ [c])
| HS_old p1 p2 c b tab : In c tab -> hash_step mirror (p1 ++ (c, b) :: p2, tab) (p1 ++ p2, tab).
Inductive hash_run (mirror : bool) : list task * list coord_t -> list task * list coord_t -> Prop :=
| HR_refl s : hash_run mirror s s
| HR_step s1 s2 s3 : hash_run mirror s1 s2 -> hash_step mirror s2 s3 -> hash_run mirror s1 s3.
Definition topo_run (mirror : bool) (nr nc : nat) (cs : list coord_t) (r : option (@csr V)) : Prop :=
  exists tab ord, hash_run mirror (map (fun c => (c, true)) cs, []) ([], tab) /\ Permutation ord tab /\
    match layout oc (nsegs nr nc) ord with
    | None => r = None
    | Some (ps, ws) => exists a st, length a = nth (nsegs nr nc) ps 0 /\ Permutation st (map (fun w => (fst w, ic (snd w))) ws) /\
        r = bind (run_stores a st) (fun is => Some {| rm := row_major; nrows := nr; ncols := nc; ptrs := ps; inds := is; vals := [] |})
    end.

(** *** fastBuild: no table; the entries of a doublet (261-307) *)
Definition expand (mirror : bool) (c : coord_t) : list coord_t := c :: (if mirror && negb (fst c =? snd c) then [swap c] else []).
Definition fast_run (mirror : bool) (nr nc : nat) (cs : list coord_t) (r : option (@csr V)) : Prop :=
  exists ord, Permutation ord (flat_map (expand mirror) cs) /\
    match layout oc (nsegs nr nc) ord with
    | None => r = None
    | Some (ps, ws) => exists a st, length a = nth (nsegs nr nc) ps 0 /\ Permutation st (map (fun w => (fst w, ic (snd w))) ws) /\
        r = bind (run_stores a st) (fun is => Some {| rm := row_major; nrows := nr; ncols := nc; ptrs := ps; inds := is; vals := [] |})
    end.
End B.

(** *** transposeFrom without post-ordering *)
Section T.
Context {V : Type}.
Variable tr : V -> V.      (* transpose of a block; the identity for scalars *)
(** the (outer, position) pairs visited by the two kernels *)
Definition visits (o : @csr V) : list (nat * nat) :=
  flat_map (fun i => map (fun k => (i, k)) (seq (nth i (ptrs o) 0) (nth (S i) (ptrs o) 0 - nth i (ptrs o) 0))) (seq 0 (outer o)).
(** same layout (RowMajor == ORowMajor, 611-640): b is *this, distinct from o and holding anything.  Note that the code assigns neither
    _nrows nor _ncols here.  Values are written only if o has values, otherwise the old ones stay. *)
Definition transpose_run (b o : @csr V) (r : option csr) : Prop :=
  exists ord, Permutation ord (visits o) /\
    match layout (fun w => nth (snd w) (inds o) 0) (inner o) ord with
    | None => r = None
    | Some (ps, ws) => exists ai av si sv, length ai = length (inds o) /\ length av = length (inds o) /\
        Permutation si (map (fun w => (fst w, fst (snd w))) ws) /\ Permutation sv ws /\
        r = bind (run_stores ai si) (fun is =>
              if (length (vals o) =? length (inds o)) && (0 <? length (vals o)) then
                bind (fold_left (fun acc w => bind acc (fun a => bind (nth_error (vals o) (snd (snd w))) (fun x => upd a (fst w) (tr x)))) sv (Some av)) (fun vs =>
                  Some {| rm := rm b; nrows := nrows b; ncols := ncols b; ptrs := ps; inds := is; vals := vs |})
              else Some {| rm := rm b; nrows := nrows b; ncols := ncols b; ptrs := ps; inds := is; vals := vals b |})
    end.
(** opposite layout (RowMajor != ORowMajor, 593-610), scalar values: the arrays are copied.  (The branch compares pointers to
    different class types, this != &o, so the instantiation is rejected by the compiler; this is what its statements would do.) *)
Definition transpose_copy (b o : @csr V) : csr :=
  {| rm := rm b; nrows := ncols o; ncols := nrows o; ptrs := ptrs o; inds := inds o;
     vals := if (length (vals o) =? length (inds o)) && (0 <? length (vals o)) then vals o else vals b |}.
(** same layout with o being *this (the member function transpose, 353-355).  When the second kernel runs, o._ptrs is the new pointer array
    and o._inds the new index array, whose contents [a] nobody has set: it reads the inner index from there and stores into the same
    array.  [lo] are the tickets of the first kernel by position.  One thread; the values are left out. *)
Definition self_step (ps lo : list nat) (acc : option (list nat)) (w : nat * nat) : option (list nat) :=
  bind acc (fun a => bind (nth_error a (snd w)) (fun x => bind (nth_error ps x) (fun p => bind (nth_error lo (snd w)) (fun t => upd a (p + t) (fst w))))).
Definition transpose_self (o : @csr V) (ps lo a : list nat) : option (@csr V) :=
  if outer o <? length ps then
    bind (fold_left (self_step ps lo) (flat_map (fun i => map (fun k => (i, k)) (seq (nth i ps 0) (nth (S i) ps 0 - nth i ps 0))) (seq 0 (outer o))) (Some a)) (fun is =>
      Some {| rm := rm o; nrows := nrows o; ncols := ncols o; ptrs := ps; inds := is; vals := vals o |})
  else None.
End T.
