(** * HashTable::resize and HashTable::preserve (include/zensim/container/HashTable.hpp 238-296)

    Extends HashTableModel, with its simplifications.  Loops run in the order of their range; new elements of a
    resized Vector have an arbitrary value [junk]. *)
From Verif Require Import Prelude HashTableModel.
Local Open Scope nat_scope.

Section M.
Context {K : Type}.
Variable keq : forall a b : K, {a = b} + {a <> b}.
Variable sent : K.
Variable hash : K -> Z.
Variable junk : K.
Notation table := (@table K).

(** HashTableView::insert with a given index, on the host (422-441). *)
Definition insert_id (fuel : nat) (t : table) (k : K) (id : Z) : res (table * bool) :=
  if tsize t =? 0 then Oob else
  match probe keq sent fuel t k (home hash t k) with
  | Ok (true, e) =>
      match upd (keys t) e k, upd (inds t) e id with
      | Some ks, Some xs => Ok ({| keys := ks; inds := xs; cnt := cnt t; act := act t; tsize := tsize t |}, true)
      | _, _ => Oob
      end
  | Ok (false, _) => Ok (t, false)
  | Oob => Oob
  | Fuel => Fuel
  end.
(** ReinsertHashTable (238-246) over the entries i, i + 1, .. of a range of m. *)
Fixpoint reinsert (fuel : nat) (t : table) (i m : nat) : res table :=
  match m with
  | 0 => Ok t
  | S m => match nth_error (act t) i with
           | Some k => match insert_id fuel t k (Z.of_nat i) with
                       | Ok (t', _) => reinsert fuel t' (S i) m
                       | Oob => Oob
                       | Fuel => Fuel
                       end
           | None => Oob
           end
  end.
(** RemoveHashTableEntries (247-262): a missing key only prints a message, then index -1 is written. *)
Fixpoint remove_entries (fuel : nat) (t : table) (i m : nat) : res table :=
  match m with
  | 0 => Ok t
  | S m => match nth_error (act t) i with
           | Some k =>
               match entry keq hash fuel t k with
               | Ok (Some e) =>
                   match upd (keys t) e sent, upd (inds t) e (-1)%Z with
                   | Some ks, Some xs =>
                       remove_entries fuel {| keys := ks; inds := xs; cnt := cnt t; act := act t; tsize := tsize t |} (S i) m
                   | _, _ => Oob
                   end
               | Ok None => Oob
               | Oob => Oob
               | Fuel => Fuel
               end
           | None => Oob
           end
  end.
(** Vector::resize *)
Definition vresize (l : list K) (n : nat) : list K := firstn n l ++ repeat junk (n - length l).
(** _table.resize and ResetHashTable without clearing the counter (221-237). *)
Definition emptied (n : nat) (c : nat) (a : list K) : table :=
  {| keys := repeat sent n; inds := repeat (-1)%Z n; cnt := c; act := a; tsize := n |}.

(** resize (285-296) *)
Definition resize (t : table) (expected : nat) : res table :=
  let n := table_size expected in
  if n <=? tsize t then Ok t else
  reinsert n (emptied n (cnt t) (vresize (act t) n)) 0 (cnt t).
(** preserve (264-283) *)
Definition preserve (t : table) (expected : nat) : res table :=
  let num := cnt t in
  if expected =? num then Ok t else
  let n := table_size expected in
  let a := vresize (act t) n in
  match (if tsize t <? n then Ok (emptied n expected a)
         else remove_entries (tsize t) {| keys := keys t; inds := inds t; cnt := expected; act := a; tsize := tsize t |} 0 num) with
  | Ok t' => reinsert (tsize t') t' 0 (Nat.min num expected)
  | Oob => Oob
  | Fuel => Fuel
  end.
End M.
