(** Model of container/SpatialHash.hpp: SpatialHash::build (137-230) and SpatialHashView::iter_neighbors for a box (96-112) and for a point
    (114-125).
    Coordinates and the cell size are integers (a common multiple of the floating-point numbers): x * (1 / dx) and floor / ceil of it are
    exact, so rounding is not modelled; casts to int do not overflow.  The table is the bht of BhtModel under any schedule; each parallel
    loop over the primitives is any interleaving of its atomic operations and any order of its stores. *)
From Verif Require Import Prelude CollapseModel SortModel CountModel BhtModel.
From Verif Require BhtSpec.
Local Open Scope Z_scope.

(** lower_trunc (ZpcMathUtils.hpp 1811-1815) and ceil of x * dxinv *)
Definition cfloor (dx x : Z) : Z := x / dx.
Definition cceil (dx x : Z) : Z := - ((- x) / dx).
Fixpoint vadd (a b : list Z) : list Z := match a, b with x :: a', y :: b' => (x + y) :: vadd a' b' | _, _ => [] end.
Fixpoint vsub (a b : list Z) : list Z := match a, b with x :: a', y :: b' => (x - y) :: vsub a' b' | _, _ => [] end.
(** AABBBox: _min and _max *)
Notation box := (list Z * list Z)%type (only parsing).
Definition cell := list Z.

(** 161-168 (and 189-196, 214-221, 97-105): the cells visited by [for (auto loc : Collapse(ma - mi)) ... mi + loc] *)
Definition cells_run (dx : Z) (bv : box) (l : list cell) : Prop :=
  let mi := map (cfloor dx) (fst bv) in let ma := map (cceil dx) (snd bv) in
  exists fuel l0, visits fuel (vsub ma mi) (col_begin (vsub ma mi)) = Some l0 /\ l = map (vadd mi) l0.

(** scaffolding: equality of cells (SpatialHash.hpp 137-230) *)
Definition ceq : forall a b : cell, {a = b} + {a <> b} := list_eq_dec Z.eq_dec.

Section M.
Variable sent : cell.                     (* key_sentinel_v of the table *)
Variable h : nat -> cell -> nat.
Variable B : nat.
Variable W : Z.
Notation table := (@table cell).

(** one execution of the parallel loop 158-169: the insertions are distributed over threads in any way *)
Definition insert_run (t : table) (cells : list cell) (t' : table) : Prop :=
  exists progs n s, Permutation (concat progs) cells /\
    steps ceq sent h B W n (start t (map (map BhtSpec.plain) progs)) s /\ finished s /\ t' = tab s.
(** the table at the head of the do-while loop (157-179): freshly constructed for the number of primitives, or grown after a trial that
    left _buildSuccess unset.  resize does nothing when the new size is not larger; no reinsertion of resize fails.  The limit of 5 trials (an exception) is left out. *)
Inductive trial (cells : list cell) : table -> Prop :=
| T_first t e : (0 < e)%nat -> fresh sent t (table_size B e) -> trial cells t
| T_again t t1 c t2 progs n s : trial cells t -> insert_run t cells t1 -> succ t1 = false ->
    regrown sent B t1 t2 c -> Permutation (concat progs) (reinsert t2) -> steps ceq sent h B W n (start t2 progs) s -> finished s ->
    BhtSpec.no_failure W (log s) -> trial cells (tab s)
| T_same t t1 c : trial cells t -> insert_run t cells t1 -> succ t1 = false -> (table_size B c <= tsize t1)%nat -> trial cells t1.
(** the table with which the loop is left (171); its size is a value of size_type *)
Definition table_run (cells : list cell) (t : table) : Prop :=
  exists t0, trial cells t0 /\ insert_run t0 cells t /\ succ t = true /\ Z.of_nat (tsize t) <= W.

(** cno = table.query(cell), used as an index (197-199, 222-224) *)
Definition cno (t : table) (c : cell) : option nat :=
  match query ceq h B t c with Some z => if z <? 0 then None else Some (Z.to_nat z) | None => None end.
Fixpoint resolve (t : table) (its : list (cell * nat)) : option (list (nat * nat)) :=
  match its with
  | [] => Some []
  | (c, i) :: r => bind (cno t c) (fun k => bind (resolve t r) (fun l => Some ((k, i) :: l)))
  end.
(** no = atomic_add(&counts[cno], -1) - 1 (224), in the order of the atomic operations *)
Fixpoint downs (cs : list nat) (ord : list (nat * nat)) : option (list ((nat * nat) * nat)) :=
  match ord with
  | [] => Some []
  | x :: r => bind (nth_error cs (fst x)) (fun c => match c with
              | O => None
              | S c' => bind (upd cs (fst x) c') (fun cs' => bind (downs cs' r) (fun ts => Some ((x, c') :: ts)))
              end)
  end.
(** the kernel 185-201, the scan 203-204 and the kernel 209-227, for the items (cell number, primitive) *)
Definition place_run (nc : nat) (items : list (nat * nat)) (r : option (list nat * list nat)) : Prop :=
  exists o1 o3 order garbage, Permutation o1 items /\ Permutation o3 items /\
  match bind (tickets fst (repeat O (S nc)) o1) (fun '(cs, _) => bind (nth_error (escan 0 cs) nc) (fun ne =>
        bind (downs cs o3) (fun ts => bind (targets fst (escan 0 cs) ts) (fun ws => Some (escan 0 cs, ne, ws))))) with
  | None => r = None
  | Some (offs, ne, ws) => length garbage = ne /\ Permutation order (map (fun w => (fst w, snd (snd w))) ws) /\
      r = bind (run_stores garbage order) (fun inds => Some (offs, inds))
  end.

(** members of SpatialHash (56-61) *)
Record sh := { sdx : Z; stab : table; sinds : list nat; soffs : list nat }.
(** the items of the loops: primitive i in each of its cells *)
Definition items (css : list (list cell)) : list (cell * nat) := flat_map (fun p => map (fun c => (c, fst p)) (snd p)) (combine (seq 0 (length css)) css).
(** build (137-230); an empty input only sets _dx (146, 150) *)
Definition build_run (s : sh) (dx : Z) (prims : list box) (r : option sh) : Prop :=
  (prims = [] /\ r = Some {| sdx := dx; stab := stab s; sinds := sinds s; soffs := soffs s |}) \/
  (prims <> [] /\ exists css t, Forall2 (cells_run dx) prims css /\ table_run (concat css) t /\
    match resolve t (items css) with
    | None => r = None
    | Some its => exists p, place_run (cnt t) its p /\
        r = bind p (fun '(offs, inds) => Some {| sdx := dx; stab := t; sinds := inds; soffs := offs |})
    end).

(** for (no = st; no != ed; ++no) f(_indices[no]) (110) *)
Fixpoint read (inds : list nat) (st n : nat) : option (list nat) :=
  match n with O => Some [] | S n' => bind (nth_error inds st) (fun x => bind (read inds (S st) n') (fun l => Some (x :: l))) end.
(** 105-110: the primitives reported for one cell *)
Definition report (s : sh) (c : cell) : option (list nat) :=
  match query ceq h B (stab s) c with
  | None => None
  | Some z => if z <? 0 then Some []
              else bind (nth_error (soffs s) (Z.to_nat z)) (fun st => bind (nth_error (soffs s) (S (Z.to_nat z))) (fun ed =>
                   if (ed <? st)%nat then None else read (sinds s) st (ed - st)))
  end.
Fixpoint reports (s : sh) (l : list cell) : option (list nat) :=
  match l with [] => Some [] | c :: r => bind (report s c) (fun a => bind (reports s r) (fun b => Some (a ++ b))) end.
(** iter_neighbors(bv, f) (96-112): the arguments f is called with *)
Definition iter_box (s : sh) (bv : box) (r : option (list nat)) : Prop := exists l, cells_run (sdx s) bv l /\ r = reports s l.
(** iter_neighbors(p, f) (114-125) *)
Definition iter_point (s : sh) (p : list Z) : option (list nat) := report s (map (cfloor (sdx s)) p).
End M.
