(** What a table of keys means, without reference to slots: the dictionary that numbers a list of distinct keys. *)
From Verif Require Import Prelude.
From Verif Require Import BhtModel.
Local Open Scope nat_scope.

(** position of a key in a list of distinct keys *)
Definition numbered {K} (ks : list K) (k : K) (i : Z) : Prop := (0 <= i)%Z /\ nth_error ks (Z.to_nat i) = Some k.

(** the table answers queries as the dictionary numbering [ks] in order, size() is its length and activeKeys begins with [ks] *)
Definition dictionary {K} keq sent h B (t : @table K) (ks : list K) : Prop :=
  NoDup ks /\ ~ In sent ks /\ cnt t = length ks /\ firstn (length ks) (act t) = ks
  /\ (forall k i, numbered ks k i -> query keq h B t k = Some i)
  /\ (forall k, k <> sent -> ~ In k ks -> query keq h B t k = Some (-1)%Z).

(** ordinary insertions: insert(key) with default arguments *)
Definition plain {K} (k : K) : op := {| okey := k; oidx := -1; oenq := true |}.

(** no call returned the failure token *)
Definition no_failure {K} W (l : list (@op K * Z)) : Prop := forall o r, In (o, r) l -> r <> failure W.
(** the indices handed out by the calls of a log *)
Definition handed {K} (l : list (@op K * Z)) : list Z := filter (fun r => 0 <=? r)%Z (map snd l).
(** every slot that insertion may use in the three buckets of k is taken by another key *)
Definition buckets_full {K} sent h B (t : @table K) (k : K) : Prop :=
  forall it ld, it < 3 -> ld < B - 1 -> exists k', nth_error (keys t) (off h B t k it + ld) = Some k' /\ k' <> sent /\ k' <> k.

(** the tables a program can obtain: construction, parallel insertion loops (whatever the calls return), resize during which no
    reinsertion fails, reset(true) *)
Section Reach.
Context {K : Type}.
Variable keq : forall a b : K, {a = b} + {a <> b}.
Variable sent : K.
Variable h : nat -> K -> nat.
Variable B : nat.
Variable W : Z.
Inductive reach : @table K -> Prop :=
| R_new t e : fresh sent t (table_size B e) -> reach t
| R_insert t progs n s : reach t -> Forall (Forall (fun k => k <> sent)) progs ->
    steps keq sent h B W n (start t (map (map plain) progs)) s -> finished s -> reach (tab s)
| R_resize t t' c progs n s : reach t -> regrown sent B t t' c -> Permutation (concat progs) (reinsert t') ->
    steps keq sent h B W n (start t' progs) s -> finished s -> no_failure W (log s) -> reach (tab s)
| R_reset t t' : reach t -> fresh sent t' (tsize t) -> reach t'.
End Reach.
