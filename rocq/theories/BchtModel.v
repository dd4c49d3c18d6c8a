(** Model of the bucketed cuckoo hash table container/Bcht.hpp, host (sequential) code with compare_key = true: constructor (279-304), reset
    (387-394), resize (408-426), mars_rng_32 (428-436), BCHTView::insert for host execution (1417-1523), BCHTView::query (1525-1569).
    Keys are an arbitrary type with a decidable equality; _hf0, _hf1, _hf2 are arbitrary functions into the unsigned numbers; bucket_size is
    arbitrary.  deduce_num_chains (272-277) is floating point, so _maxCuckooChains is a parameter of the table.  Numbers are unbounded.
    Not modelled: the variant that stores hashes instead of keys (compare_key = false), the GPU (tile) and OpenMP versions. *)
From Verif Require Import Prelude.
Local Open Scope Z_scope.

(** mars_rng_32 (428-436): one call; the seed is the same for every insertion *)
Definition rng_seed : N := 2463534242.
Definition rng_next (y : N) : N :=
  let y1 := N.lxor y (N.land (N.shiftl y 13) 4294967295) in
  let y2 := N.shiftr y1 17 in
  N.lxor y2 (N.land (N.shiftl y2 5) 4294967295).

(** what insert returns: an index; sentinel_v (the key exists); failure_token_v.  Spins: the do-while loop repeats without changing anything.
    OutOfRange: an access outside an array *)
Inductive outcome := Inserted (no : Z) | Exists | Failed | Spins | OutOfRange.

Section Bcht.
  Variable K : Type.
  Variable keqb : K -> K -> bool.
  (** compare_key_sentinel_v: the key every byte of which is 0x3f, marking an empty slot *)
  Variable sent : K.
  (** bucket_size *)
  Variable B : nat.
  Variables hf0 hf1 hf2 : K -> N.

  (** members: _table.keys, _table.indices, _activeKeys, _cnt, _numBuckets, _maxCuckooChains *)
  Record table := mkTable { tkeys : list K; tinds : list Z; tact : list K; tcnt : nat; tnb : nat; tmaxc : nat }.

  (** padded_capacity (197-200): round up to a multiple of the bucket size *)
  Definition padded (cap : nat) : nat := ((cap + B - 1) / B * B)%nat.
  (** constructor (279-304) *)
  Definition construct (cap maxc : nat) : table :=
    let c := (padded cap * 2)%nat in
    mkTable (repeat sent c) (repeat 0 c) (repeat sent c) 0 (c / B)%nat maxc.

  (** keys[bucket_offset + i] for i in 0 .. bucket_size - 1 *)
  Definition bucket (keys : list K) (off : nat) : list K := firstn B (skipn off keys).
  (** 1435-1437, equal_to on any slot *)
  Definition occurs (k : K) (b : list K) : bool := existsb (keqb k) b.
  (** 1440-1442: number of occupied slots *)
  Definition load (b : list K) : nat := length (filter (fun x => negb (keqb sent x)) b).

  (** hash, modulo the number of buckets, times bucket_size *)
  Definition slot_of (nb : nat) (h : K -> N) (k : K) : nat := N.to_nat (h k mod N.of_nat nb).
  Definition off_of (nb : nat) (h : K -> N) (k : K) : nat := (slot_of nb h k * B)%nat.
  (** 1506-1514: where an evicted key goes *)
  Definition next_off (nb off : nat) (k : K) : nat :=
    let b0 := slot_of nb hf0 k in let b1 := slot_of nb hf1 k in let b2 := slot_of nb hf2 k in
    let n := b0 in
    let n := if Nat.eqb off (b1 * B)%nat then b2 else n in
    let n := if Nat.eqb off (b0 * B)%nat then b1 else n in
    (n * B)%nat.

  (** assignments to _table.keys (Bcht.hpp 238, 400) *)
  Definition w_keys (t : table) ks : table := mkTable ks (tinds t) (tact t) (tcnt t) (tnb t) (tmaxc t).
  (** to _table.indices (239, 400) *)
  Definition w_inds (t : table) is : table := mkTable (tkeys t) is (tact t) (tcnt t) (tnb t) (tmaxc t).
  (** to _activeKeys (401) *)
  Definition w_act (t : table) ac : table := mkTable (tkeys t) (tinds t) ac (tcnt t) (tnb t) (tmaxc t).
  (** to _cnt (403) *)
  Definition w_cnt (t : table) n : table := mkTable (tkeys t) (tinds t) (tact t) n (tnb t) (tmaxc t).
  (** 1471-1474 and 1497-1500: draw the next index from _cnt if the key has none yet; returns (table, insertion_index, no) *)
  Definition number (t : table) (idx no : Z) : table * Z * Z :=
    if Z.eqb idx (-1) then (w_cnt t (S (tcnt t)), Z.of_nat (tcnt t), Z.of_nat (tcnt t)) else (t, idx, no).

  (** the do-while loop (1434-1521); [rest] is how often the loop condition cuckoo_counter < _maxCuckooChains will still hold;
      [key] is the argument of insert, [k] the variable insertion_key, [idx] insertion_index *)
  Fixpoint chain (rest : nat) (t : table) (y : N) (off : nat) (key k : K) (idx no : Z) (enq : bool) : outcome * table :=
    let b := bucket (tkeys t) off in
    if occurs k b then (Exists, t)
    else
      let l := load b in
      if negb (Nat.eqb l B) then
        match nth_error (tkeys t) (off + l) with
        | None => (OutOfRange, t)
        | Some x =>
          if keqb x sent then
            match upd (tkeys t) (off + l) k with
            | None => (OutOfRange, t)
            | Some ks =>
              let '(t1, idx1, no1) := number (w_keys t ks) idx no in
              match upd (tinds t1) (off + l) idx1 with
              | None => (OutOfRange, t1)
              | Some is =>
                let t2 := w_inds t1 is in
                if enq then
                  match upd (tact t2) (Z.to_nat no1) key with
                  | None => (OutOfRange, t2)
                  | Some ac => (Inserted no1, w_act t2 ac)
                  end
                else (Inserted no1, t2)
              end
            end
          else (Spins, t)
        end
      else
        let y' := rng_next y in
        let loc := (off + N.to_nat (y' mod N.of_nat B))%nat in
        match nth_error (tkeys t) loc, upd (tkeys t) loc k with
        | Some oldk, Some ks =>
          let '(t1, idx1, no1) := number (w_keys t ks) idx no in
          match nth_error (tinds t1) loc, upd (tinds t1) loc idx1 with
          | Some oldi, Some is =>
            let t2 := w_inds t1 is in
            match rest with
            | O => (Failed, t2)
            | S r => chain r t2 y' (next_off (tnb t) off oldk) key oldk oldi no1 enq
            end
          | _, _ => (OutOfRange, t1)
          end
        | _, _ => (OutOfRange, t)
        end.

  (** insert (1417-1523).  The loop condition is tested after cuckoo_counter has been incremented, so it holds _maxCuckooChains - 1 times *)
  Definition insert (t : table) (key : K) (idx : Z) (enq : bool) : outcome * table :=
    if Nat.eqb (tnb t) 0 then (Failed, t)
    else chain (tmaxc t - 1) t rng_seed (off_of (tnb t) hf0 key) key key idx idx enq.

  (** insert(key) with its default arguments *)
  Definition insert_key (t : table) (key : K) : outcome * table := insert t key (-1) true.

  (** position of the first slot equal to k (1539-1544) *)
  Fixpoint locate (k : K) (b : list K) : option nat :=
    match b with [] => None | x :: b' => if keqb k x then Some O else option_map S (locate k b') end.
  (** one round of query (1538-1564): Some r = return r; the offsets of the remaining rounds are passed on *)
  Fixpoint rounds (t : table) (key : K) (offs : list nat) : Z :=
    match offs with
    | [] => -1
    | off :: offs' =>
      let b := bucket (tkeys t) off in
      match locate key b with
      | Some i => nth (off + i) (tinds t) (-1)
      | None => if Nat.ltb (load b) B then -1 else rounds t key offs'
      end
    end.
  (** query (1525-1569), retrieve_index = true *)
  Definition query (t : table) (key : K) : Z :=
    if Nat.eqb (tnb t) 0 then -1
    else rounds t key [off_of (tnb t) hf0 key; off_of (tnb t) hf1 key; off_of (tnb t) hf2 key].

  (** size (385) *)
  Definition size (t : table) : nat := tcnt t.

  (** reset(true) (387-394): keys.reset(0x3f) makes every slot the sentinel *)
  Definition reset (t : table) : table :=
    mkTable (repeat sent (length (tkeys t))) (tinds t) (tact t) 0 (tnb t) (tmaxc t).

  (** reset(false) (387-394) after _table.resize (417): keys become the sentinel; Vector::resize keeps the prefix of the indices and
      leaves the rest unspecified (0 here) *)
  Definition regrow {A} (d : A) (c : nat) (l : list A) : list A := firstn c (l ++ repeat d c).
  (** the loop of resize (422-425), sequential policy; the results of insert are dropped *)
  Fixpoint reinsert (t : table) (i : nat) (n : nat) : list outcome * table :=
    match n with
    | O => ([], t)
    | S n' =>
      match nth_error (tact t) i with
      | None => ([OutOfRange], t)
      | Some k =>
        let '(o, t1) := insert t k (Z.of_nat i) false in
        let '(os, t2) := reinsert t1 (S i) n' in (o :: os, t2)
      end
    end.
  (** resize (408-426); maxc is the new deduce_num_chains(_capacity).  _capacity = _numBuckets * bucket_size *)
  Definition resize (t : table) (cap maxc : nat) : list outcome * table :=
    let c := (padded cap * 2)%nat in
    if (c <=? tnb t * B)%nat then ([], t)
    else
      let t1 := mkTable (repeat sent c) (regrow 0 c (tinds t)) (regrow sent c (tact t)) (tcnt t) (c / B)%nat maxc in
      reinsert t1 0 (tcnt t1).

  (** inserting a sequence of keys, one after the other *)
  Fixpoint insert_all (t : table) (ks : list K) : list outcome * table :=
    match ks with
    | [] => ([], t)
    | k :: ks' =>
      let '(o, t1) := insert_key t k in
      let '(os, t2) := insert_all t1 ks' in (o :: os, t2)
    end.
End Bcht.
