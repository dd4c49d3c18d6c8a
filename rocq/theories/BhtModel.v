(** Model of the bucketed hash table container/Bht.hpp on the host execution spaces: evaluateTableSize (154-158), constructor (159-174),
    reset (258-262), insert (610-664), query (667-698), BhtInsertionOp and resize (320-340).
    Simplifications: keys are an arbitrary type with decidable equality; the three hash functions are arbitrary functions to nat
    (universal_hash, py_interop/HashUtils.hpp); atomicLoad and atomicSwitchIfEqual (960-1071) of one slot are single indivisible steps
    (they are a machine load / compare-exchange for keys of 4 or 8 bytes, and a critical section of the slot's lock otherwise: see
    BhtLockModel for the latter); memory is sequentially consistent; [cnt] does not wrap (it is bounded by the table size, proved). *)
From Verif Require Import Prelude.
Local Open Scope nat_scope.

(** bht::evaluateTableSize (154-158), next_2pow from Bits (BitsModel) taken as "least power of two not below" *)
Definition pow2_ge (n : nat) : nat := 2 ^ Nat.log2_up n.
Definition table_size (B e : nat) : nat := if e =? 0 then 0 else let n := pow2_ge e * 2 in n + (B - n mod B).

Section M.
Context {K : Type}.
Variable keq : forall a b : K, {a = b} + {a <> b}.
Variable sent : K.                        (* key_sentinel_v (128-133) *)
Variable h : nat -> K -> nat.             (* _hf0, _hf1, _hf2 (255) *)
Variable B : nat.                         (* bucket_size (33) *)
Variable W : Z.                           (* 2 ^ width of size_type *)

Definition sentinel : Z := -1.            (* sentinel_v (137) *)
Definition failure : Z := - (W / 2).      (* failure_token_v (139): lowest value of the index type *)
Definition threshold : nat := B - 2.      (* 34 *)

(** the members of bht (249-255) that the operations use *)
Record table := { keys : list K; inds : list Z; cnt : nat; act : list K; succ : bool; tsize : nat }.
Definition nb (t : table) : nat := tsize t / B.        (* _numBuckets = _tableSize / bucket_size (constructor of the view) *)
Definition off (t : table) (k : K) (it : nat) : nat := h it k mod nb t * B.       (* bucketOffset (617, 653, 655) *)

(** one call insert(key, insertion_index, enqueueKey) *)
Record op := { okey : K; oidx : Z; oenq : bool }.
(** where a call is: at the load of slot [ld] of bucket [it]; at the compare-exchange of it; holding slot [s], at the atomic_add of the
    counter; at the write of indices[s]; at the write of activeKeys[n] *)
Inductive pc := Load (it ld : nat) | Cas (it ld : nat) | Count (s : nat) | WIdx (s : nat) (n : Z) | WAct (s : nat) (n : Z).
Inductive outcome := Goto (t : table) (p : pc) | Return (t : table) (r : Z) | Undef.

(** assignments to _table.keys (Bht.hpp 114, 266) *)
Definition set_keys t x := {| keys := x; inds := inds t; cnt := cnt t; act := act t; succ := succ t; tsize := tsize t |}.
(** to _table.indices (115, 266) *)
Definition set_inds t x := {| keys := keys t; inds := x; cnt := cnt t; act := act t; succ := succ t; tsize := tsize t |}.
(** to _cnt (268) *)
Definition set_cnt t x := {| keys := keys t; inds := inds t; cnt := x; act := act t; succ := succ t; tsize := tsize t |}.
(** to _activeKeys (269) *)
Definition set_act t x := {| keys := keys t; inds := inds t; cnt := cnt t; act := x; succ := succ t; tsize := tsize t |}.
(** _buildSuccess cleared (270) *)
Definition set_fail t := {| keys := keys t; inds := inds t; cnt := cnt t; act := act t; succ := false; tsize := tsize t |}.

(** 648-663: the bucket has no room: next hash function, or give up after the third *)
Definition next_bucket (t : table) (it : nat) : outcome :=
  if S it <? 3 then Goto t (Load (S it) 0) else Return (set_fail t) failure.
(** 640-645: proximity check (unsigned comparison of size_type) and return *)
Definition finish (t : table) (n : Z) : outcome :=
  if ((Z.of_nat (tsize t) - 20) mod W <=? n mod W)%Z then Return (set_fail t) failure else Return t n.
(** the call begins (613): without buckets it fails at once *)
Definition begin (t : table) : outcome := if nb t =? 0 then Return t failure else Goto t (Load 0 0).
(** one step of a call of insert (619-663) *)
Definition step_op (t : table) (o : op) (p : pc) : outcome :=
  match p with
  | Load it ld =>
      if ld =? B then next_bucket t it                                   (* 619 leaves the loop with load == bucket_size > threshold *)
      else match nth_error (keys t) (off t (okey o) it + ld) with
           | None => Undef
           | Some c => if keq c (okey o) then Return t sentinel          (* 623-625, 629-630 *)
                       else if keq c sent
                            then if ld <=? threshold then Goto t (Cas it ld) else next_bucket t it   (* 626-627, 631, 647 *)
                            else Goto t (Load it (S ld))
           end
  | Cas it ld =>
      let s := off t (okey o) it + ld in
      match nth_error (keys t) s with
      | None => Undef
      | Some c => if keq c sent
                  then match upd (keys t) s (okey o) with
                       | None => Undef
                       | Some ks => Goto (set_keys t ks) (if Z.eq_dec (oidx o) sentinel then Count s else WIdx s (oidx o))   (* 637-639 *)
                       end
                  else Goto t (Load it ld)                               (* 633: switch failed, scan again from the same slot *)
      end
  | Count s => Goto (set_cnt t (S (cnt t))) (WIdx s (Z.of_nat (cnt t)))     (* 639-640 *)
  | WIdx s n => match upd (inds t) s n with
                | None => Undef
                | Some xs => let t' := set_inds t xs in if oenq o then Goto t' (WAct s n) else finish t' n    (* 641-642 *)
                end
  | WAct s n => if (n <? 0)%Z then Undef else match upd (act t) (Z.to_nat n) (okey o) with
                | None => Undef
                | Some ks => finish (set_act t ks) n
                end
  end.

(** threads: the call in progress, and the calls still to make *)
Record thread := { cur : option (op * pc); todo : list op }.
Inductive thread_out := Run (t : table) (th : thread) (ret : option (op * Z)) | Crash | Done.
Definition after (o : op) (r : list op) (x : outcome) : thread_out :=
  match x with
  | Goto t p => Run t {| cur := Some (o, p); todo := r |} None
  | Return t v => Run t {| cur := None; todo := r |} (Some (o, v))
  | Undef => Crash
  end.
Definition thread_step (t : table) (th : thread) : thread_out :=
  match cur th with
  | Some (o, p) => after o (todo th) (step_op t o p)
  | None => match todo th with [] => Done | o :: r => after o r (begin t) end
  end.

(** any number of threads, scheduled in any order; the log has the calls in the order in which they return *)
Record state := { tab : table; threads : list thread; log : list (op * Z) }.
Inductive step : state -> state -> Prop :=
| Step s i th t th' ret ths : nth_error (threads s) i = Some th -> thread_step (tab s) th = Run t th' ret -> upd (threads s) i th' = Some ths ->
    step s {| tab := t; threads := ths; log := match ret with Some x => log s ++ [x] | None => log s end |}.
Inductive steps : nat -> state -> state -> Prop :=
| Steps0 s : steps 0 s s
| StepsS n s s' s'' : steps n s s' -> step s' s'' -> steps (S n) s s''.
Definition start (t : table) (progs : list (list op)) : state := {| tab := t; threads := map (fun p => {| cur := None; todo := p |}) progs; log := [] |}.
Definition finished (s : state) : Prop := forall th, In th (threads s) -> cur th = None /\ todo th = [].
(** some thread's next step is undefined behaviour *)
Definition crashes (s : state) : Prop := exists th, In th (threads s) /\ thread_step (tab s) th = Crash.

(** bht::query (667-698): the slot (retrieve_index = false), Some None if absent; None for an access out of bounds *)
Fixpoint find_slot (ks : list K) (k : K) (o loc n : nat) : option (option nat) :=
  match n with
  | 0 => Some None
  | S n' => match nth_error ks (o + loc) with
            | None => None
            | Some c => if keq c k then Some (Some (o + loc)) else find_slot ks k o (S loc) n'
            end
  end.
Fixpoint find_from (t : table) (k : K) (it n : nat) : option (option nat) :=
  match n with
  | 0 => Some None
  | S n' => match find_slot (keys t) k (off t k it) 0 B with
            | Some None => find_from t k (S it) n'
            | r => r
            end
  end.
Definition query_slot (t : table) (k : K) : option (option nat) := if nb t =? 0 then Some None else find_from t k 0 3.
(** bht::query with retrieve_index = true *)
Definition query (t : table) (k : K) : option Z :=
  match query_slot t k with
  | None => None
  | Some None => Some sentinel
  | Some (Some s) => nth_error (inds t) s
  end.

(** constructor (159-174) for n slots; indices and active keys start with unspecified contents *)
Definition fresh (t : table) (n : nat) : Prop :=
  tsize t = n /\ keys t = repeat sent n /\ length (inds t) = n /\ length (act t) = n /\ cnt t = 0 /\ succ t = true.
(** resize (326-340) up to the parallel loop: the state in which the loop starts; None: nothing to do *)
Definition regrown (t t' : table) (c : nat) : Prop :=
  let n := table_size B c in
  tsize t < n /\ tsize t' = n /\ keys t' = repeat sent n /\ length (inds t') = n /\ length (act t') = n
  /\ firstn (tsize t) (act t') = act t /\ cnt t' = cnt t /\ succ t' = true.
(** the parallel loop of resize: insert(activeKeys[i], i, false) for i < size() *)
Definition reinsert (t : table) : list op := map (fun p => {| okey := snd p; oidx := Z.of_nat (fst p); oenq := false |}) (combine (seq 0 (cnt t)) (act t)).
End M.
