(** Model of union_find (graph/ConnectedComponents.hpp 8-61 and, with a skip predicate, 63-124).
    The matrix is given by its arrays _ptrs, _inds, _vals; the version without predicate is the one with a predicate that never skips.
    The second kernel runs one logical thread per vertex under an arbitrary interleaving of single loads, stores and compare-and-swaps
    (the plain loads and stores of the code race with the atomics; they are taken as indivisible and sequentially consistent).  Executing
    several vertices one after the other on one worker is one of these interleavings.  An access outside fas has no step. *)
From Verif Require Import Prelude.

Section UF.
Context {A : Type}.
Variables (ptrs inds : list nat) (vals : list A) (skip : A -> bool).

(** the entries _ptrs[v] .. _ptrs[v+1] of row v that are not skipped (72-75, 97-99) *)
Definition row (v : nat) : list nat :=
  let st := nth v ptrs 0 in let ed := nth (S v) ptrs 0 in
  map fst (filter (fun p => negb (skip (snd p))) (firstn (ed - st) (skipn st (combine inds vals)))).

(** init 70-78 (15-20): m = min(m, neighbour) while m == v *)
Fixpoint init_loop (v m : nat) (l : list nat) : nat :=
  match l with [] => m | u :: r => if m =? v then init_loop v (if m <? u then m else u) r else m end.
Definition init_fas (n : nat) : list nat := map (fun v => init_loop v v (row v)) (seq 0 n).

(** continuation of a call of representative: line 96 (own vertex) or line 101 (the neighbour, with the current vstat); rest: neighbours left *)
Inductive cont := Own (rest : list nat) | Other (vstat : nat) (rest : list nat).
Inductive pc :=
| Rep (k : cont) (idx : nat)              (* 85: about to load nstat[idx] *)
| Walk (k : cont) (prev curr : nat)       (* 88: about to load nstat[curr] *)
| Halve (k : cont) (prev curr next : nat) (* 89: about to store nstat[prev] = next *)
| Cas (vstat ostat : nat) (rest : list nat) (* 103-117: about to compare, or to CAS *)
| Done.

(** 97-100: the next neighbour smaller than v (rest holds only those) *)
Definition next_edge (vstat : nat) (rest : list nat) : pc :=
  match rest with [] => Done | u :: r => Rep (Other vstat r) u end.
Definition return_ (k : cont) (r : nat) : pc :=
  match k with Own rest => next_edge r rest | Other vstat rest => Cas vstat r rest end.
Definition start (v : nat) : pc := Rep (Own (filter (fun u => u <? v) (row v))) v.

(** one step of a thread: memory and pc before and after *)
Inductive tstep : list nat -> pc -> list nat -> pc -> Prop :=
| t_rep f k idx c : nth_error f idx = Some c -> tstep f (Rep k idx) f (if c =? idx then return_ k c else Walk k idx c)
| t_walk f k prev curr nx : nth_error f curr = Some nx -> tstep f (Walk k prev curr) f (if nx <? curr then Halve k prev curr nx else return_ k curr)
| t_halve f k prev curr nx f' : upd f prev nx = Some f' -> tstep f (Halve k prev curr nx) f' (Walk k curr nx)
| t_same f s rest : tstep f (Cas s s rest) f (next_edge s rest)
| t_hook_o f vs os rest f' : vs < os -> nth_error f os = Some os -> upd f os vs = Some f' -> tstep f (Cas vs os rest) f' (next_edge vs rest)
| t_fail_o f vs os rest x : vs < os -> nth_error f os = Some x -> x <> os -> tstep f (Cas vs os rest) f (Cas vs x rest)
| t_hook_v f vs os rest f' : os < vs -> nth_error f vs = Some vs -> upd f vs os = Some f' -> tstep f (Cas vs os rest) f' (next_edge vs rest)
| t_fail_v f vs os rest x : os < vs -> nth_error f vs = Some x -> x <> vs -> tstep f (Cas vs os rest) f (Cas x os rest).

(** scaffolding: the parents and the places of the threads (ConnectedComponents.hpp 8-61) *)
Definition state := (list nat * list pc)%type.
(** scaffolding: one step of some thread (ConnectedComponents.hpp 8-61) *)
Inductive step : state -> state -> Prop :=
| step_at f f' ps t p p' ps' : nth_error ps t = Some p -> tstep f p f' p' -> upd ps t p' = Some ps' -> step (f, ps) (f', ps').
(** scaffolding: n steps *)
Inductive steps : nat -> state -> state -> Prop :=
| steps_0 s : steps 0 s s
| steps_S n s s1 s2 : steps n s s1 -> step s1 s2 -> steps (S n) s s2.

(** start of the second kernel *)
Definition init_state (n : nat) : state := (init_fas n, map start (seq 0 n)).
Definition final (s : state) : Prop := forall p, In p (snd s) -> p = Done.
End UF.
