(** A table of values: named property ranges of channels, a size, and a value (None = unspecified) per (channel, element). *)
From Verif Require Import Prelude.
From Verif Require TileModel.
Import TileModel(tag, top(..)).

Section S.
Context {A : Type}.
Variable zero : A.
Variable L : nat.
Record table := mktab { btags : list tag; bsize : nat; bval : nat -> nat -> option A }.
Definition channels (tags : list tag) : nat := list_sum (map snd tags).
Definition names (tags : list tag) : list nat := map fst tags.
(** properties appended: those whose name is new, in order; None if a name would change its channel count *)
Definition clash (tags : list tag) (n c : nat) : Prop := exists c', In (n, c') tags /\ c' <> c.
Fixpoint added (tags app : list tag) : list tag :=
  match app with
  | [] => tags
  | (n, c) :: r => if in_dec Nat.eq_dec n (names tags) then added tags r else added (tags ++ [(n, c)]) r
  end.
Fixpoint clashes (tags app : list tag) : Prop :=
  match app with
  | [] => False
  | (n, c) :: r => clash tags n c \/ clashes (if in_dec Nat.eq_dec n (names tags) then tags else tags ++ [(n, c)]) r
  end.
(** position of the first j in mp *)
Fixpoint index_of (mp : list nat) (j : nat) : nat :=
  match mp with [] => 0 | x :: r => if x =? j then 0 else S (index_of r j) end.
(** elements at or beyond n are unspecified *)
Definition clip (n : nat) (f : nat -> option A) (i : nat) : option A := if i <? n then f i else None.
Definition bstep (b : table) (o : top A) : table :=
  match o with
  | TSet c i x => mktab (btags b) (bsize b) (fun c' i' => if (c' =? c) && (i' =? i) then Some x else bval b c' i')
  | TResize n => mktab (btags b) n (fun c i => if i <? Nat.min (bsize b) n then bval b c i else None)
  | TClear => mktab (btags b) 0 (fun _ _ => None)
  | TReset x => mktab (btags b) (bsize b) (fun c i => if (c <? channels (btags b)) && (i <? bsize b) then Some x else None)
  | TAppend app => let tags := added (btags b) app in
      mktab tags (bsize b) (fun c i => if c <? channels (btags b) then bval b c i
                                       else if (c <? channels tags) && (i <? bsize b) then Some zero else None)
  | TReorder true mp =>   (* tile i goes to tile mp[i] *)
      mktab (btags b) (bsize b) (fun c => clip (bsize b) (fun i => bval b c (index_of mp (i / L) * L + i mod L)))
  | TReorder false mp =>  (* tile i comes from tile mp[i] *)
      mktab (btags b) (bsize b) (fun c => clip (bsize b) (fun i => bval b c (nth (i / L) mp 0 * L + i mod L)))
  | TCopy | TClone => b
  end.
(** operations that throw, leaving the table as it is *)
Definition throws (b : table) (o : top A) : Prop :=
  match o with
  | TAppend app => clashes (btags b) app
  | TReorder _ mp => length mp <> (bsize b + L - 1) / L
  | _ => False
  end.
(** preconditions: element writes in range; the reorder map, when of the right length, is a permutation of the tiles *)
Definition top_ok (b : table) (o : top A) : Prop :=
  match o with
  | TSet c i _ => c < channels (btags b) /\ i < bsize b
  | TReorder _ mp => length mp = (bsize b + L - 1) / L -> Permutation mp (seq 0 ((bsize b + L - 1) / L))
  | _ => True
  end.
(** the table after a sequence of legal operations *)
Inductive bruns : table -> list (top A) -> table -> Prop :=
| B_nil b : bruns b [] b
| B_throw b o os b' : top_ok b o -> throws b o -> bruns b os b' -> bruns b (o :: os) b'
| B_ok b o os b' : top_ok b o -> ~ throws b o -> bruns (bstep b o) os b' -> bruns b (o :: os) b'.
End S.
