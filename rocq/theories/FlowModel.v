(** Model of graph/MaximumFlow.hpp: find_augmented_path (13-79), the table of edges (81-91) and maximum_flow (93-134).
    The value type is Z, so sums do not overflow; [top] is numeric_limits<T>::max().  Vector accesses outside the vector: None.
    kernel_bfs_augmented_path runs once per vertex; [launch_any] is every interleaving of its shared-memory accesses (one access per step,
    sequentially consistent), [launch_apart] the executions in which invocations do not overlap (any order; the sequential policy is one).
    "auto &params = zs::make_tuple(...)" (59, 109) binds a reference to a temporary, which compilers other than MSVC reject: the model
    takes the evident meaning. *)
From Verif Require Import Prelude SortModel CountModel BhtModel.
From Verif Require BhtSpec.
Local Open Scope Z_scope.

(** compressed rows: _ptrs, _inds (the values are the mutable part) *)
Record csr := { ptrs : list nat; cols : list nat }.
Definition verts (m : csr) : nat := (length (ptrs m) - 1)%nat.        (* outerSize() *)
Definition nnz (m : csr) : nat := length (cols m).

(** the arrays of the search and isSinkFound *)
Record bst := { visited : list bool; frontier : list bool; parents : list Z; pflow : list Z; found : bool }.
Definition set_visited b x := {| visited := x; frontier := frontier b; parents := parents b; pflow := pflow b; found := found b |}.
Definition set_frontier b x := {| visited := visited b; frontier := x; parents := parents b; pflow := pflow b; found := found b |}.
Definition set_parents b x := {| visited := visited b; frontier := frontier b; parents := x; pflow := pflow b; found := found b |}.
Definition set_pflow b x := {| visited := visited b; frontier := frontier b; parents := parents b; pflow := x; found := found b |}.
Definition set_found b x := {| visited := visited b; frontier := frontier b; parents := parents b; pflow := pflow b; found := x |}.

(** where an invocation of the kernel (22-38) is *)
Inductive pc :=
| Enter                     (* 25: if (!frontier[vi]) return *)
| Clear                     (* 26 *)
| Edge (i : nat)            (* 27-30: loop test, value test, atomic_cas of visited[nvi] *)
| Mark (i : nat)            (* 32: frontier[nvi] = 1 *)
| Parent (i : nat)          (* 33: parents[nvi] = vi *)
| Fetch (i : nat)           (* 35: read potentialFlows[vi] *)
| Flow (i : nat) (x : Z)    (* 34: write potentialFlows[nvi] *)
| Sink (i : nat)            (* 36: if (nvi == sink) isSinkFound = 1 *)
| Done.
Notation thread := (nat * pc)%type (only parsing).

Section K.
Variable m : csr.
Variable vals : list Z.
Variable sink : nat.
(** one step of the invocation for vertex v *)
Definition kstep (b : bst) (v : nat) (p : pc) : option (bst * pc) :=
  match p with
  | Enter => bind (nth_error (frontier b) v) (fun f => if f then Some (b, Clear) else Some (b, Done))
  | Clear => bind (upd (frontier b) v false) (fun fr => bind (nth_error (ptrs m) v) (fun i => Some (set_frontier b fr, Edge i)))
  | Edge i => bind (nth_error (ptrs m) (S v)) (fun e => if (i <? e)%nat then
      bind (nth_error (cols m) i) (fun nv => bind (nth_error vals i) (fun c =>
        if c <=? 0 then Some (b, Edge (S i)) else
        bind (nth_error (visited b) nv) (fun seen => if seen : bool then Some (b, Edge (S i))
          else bind (upd (visited b) nv true) (fun vis => Some (set_visited b vis, Mark i)))))
      else Some (b, Done))
  | Mark i => bind (nth_error (cols m) i) (fun nv => bind (upd (frontier b) nv true) (fun fr => Some (set_frontier b fr, Parent i)))
  | Parent i => bind (nth_error (cols m) i) (fun nv => bind (upd (parents b) nv (Z.of_nat v)) (fun ps => Some (set_parents b ps, Fetch i)))
  | Fetch i => bind (nth_error (pflow b) v) (fun x => Some (b, Flow i x))
  | Flow i x => bind (nth_error (cols m) i) (fun nv => bind (nth_error vals i) (fun c =>
      bind (upd (pflow b) nv (if c <? x then c else x)) (fun pf => Some (set_pflow b pf, Sink i))))
  | Sink i => bind (nth_error (cols m) i) (fun nv => Some (if (nv =? sink)%nat then set_found b true else b, Edge (S i)))
  | Done => Some (b, Done)
  end.

(** every interleaving of the invocations of one launch *)
Inductive steps : nat -> bst * list thread -> bst * list thread -> Prop :=
| S_zero s : steps 0 s s
| S_one n b ths k v p b' p' ths' s : nth_error ths k = Some (v, p) -> p <> Done -> kstep b v p = Some (b', p') -> upd ths k (v, p') = Some ths' ->
    steps n (b', ths') s -> steps (S n) (b, ths) s.
Definition enter : list thread := map (fun v => (v, Enter)) (seq 0 (verts m)).
Definition all_done (ths : list thread) : Prop := Forall (fun th => snd th = Done) ths.
Definition launch_any (b b' : bst) : Prop := exists n ths, steps n (b, enter) (b', ths) /\ all_done ths.
(** invocations one after the other *)
Inductive alone : bst -> nat -> pc -> bst -> Prop :=
| A_done b v : alone b v Done b
| A_step b v p b' p' b'' : p <> Done -> kstep b v p = Some (b', p') -> alone b' v p' b'' -> alone b v p b''.
Inductive in_turn : list nat -> bst -> bst -> Prop :=
| I_nil b : in_turn [] b b
| I_cons v l b b' b'' : alone b v Enter b' -> in_turn l b' b'' -> in_turn (v :: l) b b''.
Definition launch_apart (b b' : bst) : Prop := exists order, Permutation order (seq 0 (verts m)) /\ in_turn order b b'.

(** the loop 56-77; kernel_check_empty_frontier (13-19) tells whether some frontier entry is set *)
Section L.
Variable launch : bst -> bst -> Prop.
Inductive find_loop : nat -> bst -> bst -> Prop :=
| F_empty b : forallb negb (frontier b) = true -> find_loop 0 b b
| F_sink b b' : forallb negb (frontier b) = false -> launch (set_found b false) b' -> found b' = true -> find_loop 1 b b'
| F_next n b b' b'' : forallb negb (frontier b) = false -> launch (set_found b false) b' -> found b' = false -> find_loop n b' b'' -> find_loop (S n) b b''.
(** the states at the head of the loop *)
Inductive searching (b0 : bst) : bst -> Prop :=
| B_start : searching b0 b0
| B_next b b' : searching b0 b -> forallb negb (frontier b) = false -> launch (set_found b false) b' -> found b' = false -> searching b0 b'.
End L.
End K.

(** scaffolding: the state at the head of the loop of find_augmented_path (MaximumFlow.hpp 13-79) *)
Definition top_of (top : Z) (n source : nat) (ps : list Z) : option bst :=
  bind (upd (repeat false n) source true) (fun v => bind (upd ps source (-1)) (fun ps' => bind (upd (repeat 0 n) source top) (fun pf =>
    Some {| visited := v; frontier := v; parents := ps'; pflow := pf; found := false |}))).
(** find_augmented_path (41-79): from the parents of earlier searches; k counts launches; the result is its return value *)
Definition find_run (launch : csr -> list Z -> nat -> bst -> bst -> Prop) (m : csr) (vals : list Z) (top : Z) (source sink : nat) (ps : list Z) (k : nat) (b : bst) (r : bool) : Prop :=
  exists b0, top_of top (verts m) source ps = Some b0 /\ find_loop (launch m vals sink) k b0 b /\ exists x, nth_error (pflow b) sink = Some x /\ r = (0 <? x).

Section H.
Variable sent : nat * nat.
Variable h : nat -> nat * nat -> nat.
Variable B : nat.
Variable W : Z.
(** scaffolding: equality of the keys of the table of edges (MaximumFlow.hpp 81-91) *)
Definition keq : forall a b : nat * nat, {a = b} + {a <> b}.
Proof. intros. decide equality; apply Nat.eq_dec. Defined.
Notation table := (@table (nat * nat)).
(** the positions of row u: for (j = _ptrs[vi]; j < _ptrs[vi + 1]; ++j) *)
Definition row (m : csr) (u : nat) : list nat := let a := nth u (ptrs m) O in seq a (nth (S u) (ptrs m) O - a).
Definition edges (m : csr) : list (nat * nat * nat) := flat_map (fun u => map (fun j => (u, nth j (cols m) O, j)) (row m u)) (seq 0 (verts m)).
(** kernel_initialize_hashtable (81-91): the insertions under any schedule, each followed by the store hashBuffer[cnt] = j; [None]: the
    store is outside hashBuffer *)
Fixpoint writes (l : list (@op (nat * nat) * Z)) (js : list nat) : option (list (nat * nat)) :=
  match l, js with
  | (_, r) :: l', j :: js' => if r <? 0 then None else bind (writes l' js') (fun ws => Some ((Z.to_nat r, j) :: ws))
  | [], [] => Some []
  | _, _ => None
  end.
Definition table_run (m : csr) (r : option (table * list nat)) : Prop :=
  exists t0 es progs n s js garbage, Permutation es (edges m) /\ concat progs = map fst es /\ fresh sent t0 (table_size B (nnz m)) /\
    BhtModel.steps keq sent h B W n (start t0 (map (map BhtSpec.plain) progs)) s /\ finished s /\ BhtSpec.no_failure W (log s) /\
    (* the store of each insertion carries its position j *)
    Forall2 (fun o j => In (okey (fst o), j) (edges m)) (log s) js /\ length garbage = nnz m /\
    match writes (log s) js with
    | None => r = None
    | Some ws => exists order, Permutation order ws /\ r = bind (run_stores garbage order) (fun buf => Some (tab s, buf))
    end.
(** hashBuffer.getVal(hashView.query({u, v})) (123-124) *)
Definition edge_id (t : table) (buf : list nat) (u v : nat) : option nat :=
  bind (query keq h B t (u, v)) (fun z => if z <? 0 then None else nth_error buf (Z.to_nat z)).
(** the loop 121-129: [None]: access out of bounds; out of fuel is [None] too *)
Fixpoint push (fuel : nat) (t : table) (buf : list nat) (ps : list Z) (d : Z) (v : nat) (vals : list Z) : option (list Z) :=
  match fuel with
  | O => None
  | S f =>
    bind (nth_error ps v) (fun p => if p <? 0 then Some vals else
    bind (edge_id t buf (Z.to_nat p) v) (fun e => bind (edge_id t buf v (Z.to_nat p)) (fun re =>
    bind (nth_error vals e) (fun x => bind (upd vals e (x - d)) (fun vals1 =>
    bind (nth_error vals1 re) (fun y => bind (upd vals1 re (y + d)) (fun vals2 => push f t buf ps d (Z.to_nat p) vals2)))))))
  end.
(** the loop 116-130; [None]: access out of bounds or a loop that does not end *)
Section X.
Variable launch : csr -> list Z -> nat -> bst -> bst -> Prop.
Variable m : csr.
Variables top : Z.
Variables source sink : nat.
Variable t : table.
Variable buf : list nat.
Inductive flow_loop : nat -> list Z -> list Z -> Z -> option (Z * list Z) -> Prop :=
| L_end k ps vals res b : find_run launch m vals top source sink ps k b false -> flow_loop 0 ps vals res (Some (res, vals))
| L_push n k ps vals res b x vals' r : find_run launch m vals top source sink ps k b true -> nth_error (pflow b) sink = Some x ->
    push (S (verts m)) t buf (parents b) x sink vals = Some vals' -> flow_loop n (parents b) vals' (res + x) r -> flow_loop (S n) ps vals res r
| L_crash k ps vals res b x : find_run launch m vals top source sink ps k b true -> nth_error (pflow b) sink = Some x ->
    push (S (verts m)) t buf (parents b) x sink vals = None -> flow_loop 0 ps vals res None.
End X.
(** maximum_flow (93-134): the value and the residual capacities; n counts the augmentations *)
Definition max_run launch (m : csr) (vals : list Z) (top : Z) (source sink : nat) (n : nat) (r : option (Z * list Z)) : Prop :=
  exists tr, table_run m tr /\
  match tr with
  | None => r = None
  | Some (t, buf) => exists ps, length ps = verts m /\ flow_loop launch m top source sink t buf n ps vals 0 r
  end.
End H.
