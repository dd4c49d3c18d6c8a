(** Specification for C92. *)
From Verif Require Import Prelude ItModel.
Open Scope Z_scope.

(** b, b + s, ..., k numbers *)
Definition steps (b s : Z) (k : nat) : list value := map (fun i => VInt (b + s * Z.of_nat i)) (seq 0 k).
(** the sequential loop ends after visiting l *)
Definition completes (r : iter * iter) (l : list value) : Prop := exists fuel, seq_for fuel (fst r) (snd r) = Visits l.
(** it never ends normally *)
Definition never_completes (r : iter * iter) : Prop := forall fuel l, seq_for fuel (fst r) (snd r) <> Visits l.

(** ranges built from integer intervals and arrays by zip and enumerate, to any depth *)
Inductive source :=
| Ints (t : ity) (b e : Z)
| Array (p : nat) (i n : Z)
| Zipped (ss : list source)
| Enumerated (ss : list source).
Fixpoint build (s : source) : option (iter * iter) :=
  match s with
  | Ints t b e => range2 t b e
  | Array p i n => Some (range_ptr p i n)
  | Zipped ss => obind (omap build ss) (fun rs => Some (zip rs))
  | Enumerated ss => obind (omap build ss) (fun rs => Some (enumerate rs))
  end.
(** row i of the lists *)
Definition row (ls : list (list value)) (i : nat) : list value := map (fun l => nth i l (VInt 0)) ls.
(** the length of the shortest list *)
Fixpoint shortest (ls : list (list value)) : nat :=
  match ls with [] => 0%nat | [l] => length l | l :: r => Nat.min (length l) (shortest r) end.
Fixpoint elements (s : source) : list value :=
  match s with
  | Ints _ b e => steps b 1 (Z.to_nat (e - b))
  | Array p i n => map (fun k => VRef p (i + Z.of_nat k)) (seq 0 (Z.to_nat n))
  | Zipped ss => let ls := map elements ss in map (fun i => VTup (row ls i)) (seq 0 (shortest ls))
  | Enumerated ss => let ls := map elements ss in map (fun i => VTup (VInt (Z.of_nat i) :: row ls i)) (seq 0 (shortest ls))
  end.
Definition wide (t : ity) : Prop := bits t = 32 \/ bits t = 64.
Fixpoint valid (s : source) : Prop :=
  match s with
  | Ints t b e => wide t /\ lo t <= b <= e /\ e <= hi (diff_t t) /\ e - b <= hi (diff_t t)
  | Array _ _ n => 0 <= n < 2 ^ 63
  | Zipped ss | Enumerated ss => ss <> [] /\ fold_right (fun x P => valid x /\ P) True ss
  end.
