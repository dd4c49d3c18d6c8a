(** Model of container/HashTable.hpp on the host, one call at a time: evaluateTableSize (88-91), ResetHashTable (221-237), insert
    (380-398), query (447-456), entry (460-469).
    Simplifications: keys are an arbitrary type with decidable equality; the hash function is an arbitrary function to the index type
    (do_hash, 496-500); atomicKeyCAS (546-564) is a single step; the counter does not wrap.  The constructor leaves keys and indices
    uninitialised, so the model starts from a table that has been reset. *)
From Verif Require Import Prelude.
Local Open Scope nat_scope.

(** evaluateTableSize (88-91): next_2pow(entryCnt) * reserve_ratio_v *)
Definition table_size (e : nat) : nat := if e =? 0 then 0 else 2 ^ Nat.log2_up e * 16.

Section M.
Context {K : Type}.
Variable keq : forall a b : K, {a = b} + {a <> b}.
Variable sent : K.                  (* key_t::constant(key_scalar_sentinel_v) *)
Variable hash : K -> Z.             (* do_hash *)

(** _table.keys and indices (HashTable.hpp 56-57, 202), _cnt (204), _activeKeys (205), _tableSize (203) *)
Record table := { keys : list K; inds : list Z; cnt : nat; act : list K; tsize : nat }.
(** running a loop: a value, an access out of bounds (or % 0), or more iterations than the fuel *)
Inductive res (A : Type) := Ok (a : A) | Oob | Fuel.
Arguments Ok {A}. Arguments Oob {A}. Arguments Fuel {A}.

(** (do_hash(key) % _tableSize + _tableSize) % _tableSize, C remainder *)
Definition home (t : table) (k : K) : nat := let n := Z.of_nat (tsize t) in Z.to_nat (Z.rem (Z.rem (hash k) n + n) n).
(** the loop of insert (384-388): slot at which atomicKeyCAS returned the sentinel (claimed) or the key (existing) *)
Fixpoint probe (fuel : nat) (t : table) (k : K) (e : nat) : res (bool * nat) :=
  match nth_error (keys t) e with
  | None => Oob
  | Some c => if keq c sent then Ok (true, e) else if keq c k then Ok (false, e)
              else match fuel with 0 => Fuel | S f => probe f t k ((e + 127) mod tsize t) end
  end.
(** HashTableView::insert (380-398) *)
Definition insert (fuel : nat) (t : table) (k : K) : res (table * Z) :=
  if tsize t =? 0 then Oob else
  match probe fuel t k (home t k) with
  | Ok (true, e) =>
      match upd (keys t) e k, upd (inds t) e (Z.of_nat (cnt t)), upd (act t) (cnt t) k with
      | Some ks, Some xs, Some a => Ok ({| keys := ks; inds := xs; cnt := S (cnt t); act := a; tsize := tsize t |}, Z.of_nat (cnt t))
      | _, _, _ => Oob
      end
  | Ok (false, e) => Ok (t, (-1)%Z)
  | Oob => Oob
  | Fuel => Fuel
  end.
(** next slot of query and entry (453-454): += 127, reduced only if > _tableSize *)
Definition next_query (t : table) (e : nat) : nat := if tsize t <? e + 127 then (e + 127) mod tsize t else e + 127.
Fixpoint query_from (fuel : nat) (t : table) (k : K) (e : nat) : res (option nat) :=
  match nth_error (keys t) e, nth_error (inds t) e with
  | Some c, Some x => if keq k c then Ok (Some e) else if (x =? -1)%Z then Ok None
                      else match fuel with 0 => Fuel | S f => query_from f t k (next_query t e) end
  | _, _ => Oob
  end.
(** HashTableView::entry (460-469) *)
Definition entry (fuel : nat) (t : table) (k : K) : res (option nat) := if tsize t =? 0 then Oob else query_from fuel t k (home t k).
(** HashTableView::query (447-456) *)
Definition query (fuel : nat) (t : table) (k : K) : res Z :=
  match entry fuel t k with
  | Ok (Some e) => match nth_error (inds t) e with Some x => Ok x | None => Oob end
  | Ok None => Ok (-1)%Z
  | Oob => Oob
  | Fuel => Fuel
  end.
(** a sequence of insertions, with their results *)
Fixpoint insert_all (fuel : nat) (t : table) (l : list K) : res (table * list Z) :=
  match l with
  | [] => Ok (t, [])
  | k :: r => match insert fuel t k with
              | Ok (t', v) => match insert_all fuel t' r with Ok (t'', vs) => Ok (t'', v :: vs) | Oob => Oob | Fuel => Fuel end
              | Oob => Oob
              | Fuel => Fuel
              end
  end.
(** after reset(policy, true) (221-237, 299-303) of a table of n slots *)
Definition cleared (t : table) (n : nat) : Prop :=
  tsize t = n /\ keys t = repeat sent n /\ inds t = repeat (-1)%Z n /\ cnt t = 0 /\ length (act t) = n.
End M.
Arguments Ok {A}. Arguments Oob {A}. Arguments Fuel {A}.
