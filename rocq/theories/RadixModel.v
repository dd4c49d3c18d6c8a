(** Model of radix_sort / radix_sort_pair, sequential (execution/ExecutionPolicy.hpp 457-608) and OpenMP
    (omp/execution/ExecutionPolicy.hpp 889-1160).  Key and value arrays are accessed at the same index, so they are one array of pairs;
    radix_sort without values is the case of a unit value.  Keys are the integers of a type of [w] bits (Z), so >> is arithmetic as in the
    code.  Bin arrays are functions with an explicit bound check.  None: access outside an array (or loop fuel exhausted). *)
From Verif Require Import Prelude UptrModel SortModel.

Section R.
Context {V : Type}.
Notation E := (Z * V)%type.
Variable w : nat.          (* bits of the key type *)
Variable sgn : bool.       (* is_signed_v *)

(** cur[i] = key ^ ((T)1 << (bits - 1)) when signed (486-491, 563-569); the constant is -2^(w-1) as a signed value *)
Definition tr (e : E) : E := ((if sgn then Z.lxor (fst e) (- 2 ^ (Z.of_nat w - 1)) else fst e)%Z, snd e).
(** (cur[i] >> st) & binMask *)
Definition digit (st : nat) (mask : Z) (e : E) : nat := Z.to_nat (Z.land (Z.shiftr (fst e) (Z.of_nat st)) mask).

(** histogram (500-501): fails if a digit is outside the bin array *)
Definition count1 (bc : nat) (dig : E -> nat) (o : option (nat -> nat)) (e : E) : option (nat -> nat) :=
  bind o (fun f => if dig e <? bc then Some (fset f (dig e) (S (f (dig e)))) else None).
Definition histogram (bc : nat) (dig : E -> nat) (l : list E) : option (nat -> nat) := fold_left (count1 bc dig) l (Some (fun _ => 0)).
(** binOffsets (503-511) *)
Fixpoint offsets (cnt : nat -> nat) (i : nat) : nat := match i with O => 0 | S j => offsets cnt j + cnt j end.
(** the scatter loop from the back (515-516): --end[digit], then the store; given the elements in the order visited *)
Fixpoint scatter_writes (dig : E -> nat) (rl : list E) (ends : nat -> nat) : option (list (nat * E)) :=
  match rl with
  | [] => Some []
  | e :: r => match ends (dig e) with
              | O => None
              | S p => bind (scatter_writes dig r (fset ends (dig e) p)) (fun ws => Some ((p, e) :: ws))
              end
  end.
Definition store1 (o : option (list E)) (we : nat * E) : option (list E) := bind o (fun a => upd a (fst we) (snd we)).
Definition run_writes (next : list E) (ws : list (nat * E)) : option (list E) := fold_left store1 ws (Some next).

(** one sequential pass (494-519); returns (cur, next) after the possible swap *)
Definition pass1 (bc : nat) (dig : E -> nat) (cur next : list E) : option (list E * list E) :=
  bind (histogram bc dig cur) (fun cnt =>
    if existsb (fun i => cnt i =? length cur) (seq 0 bc) then Some (cur, next)
    else bind (scatter_writes dig (rev cur) (fun i => cnt i + offsets cnt i)) (fun ws =>
         bind (run_writes next ws) (fun next' => Some (next', cur)))).

(** one OpenMP pass (936-1004) with nths threads: thread t counts its chunk, then (single) totals and offsets, then every thread
    scatters its chunk from the back with its own counters; the stores of all threads happen in the order [order] *)
Variable nths : nat.
Definition chunk (l : list E) (t : nat) : list E := let n := nwork nths (length l) in
  firstn (Nat.min (n * t + n) (length l) - n * t) (skipn (n * t) l).
Fixpoint histograms (bc : nat) (dig : E -> nat) (l : list E) (ts : list nat) : option (list (nat -> nat)) :=
  match ts with [] => Some [] | t :: r => bind (histogram bc dig (chunk l t)) (fun h => bind (histograms bc dig l r) (fun hs => Some (h :: hs))) end.
Definition total (hs : list (nat -> nat)) (i : nat) : nat := fold_left (fun a h => a + h i) hs 0.
(** binSizes[j][i] after the update: offset + counts of threads 0..j *)
Fixpoint all_writes (dig : E -> nat) (l : list E) (ts : list nat) (hs : list (nat -> nat)) (base : nat -> nat) : option (list (list (nat * E))) :=
  match ts, hs with
  | t :: ts', h :: hs' =>
    bind (scatter_writes dig (rev (chunk l t)) (fun i => h i + base i)) (fun ws =>
    bind (all_writes dig l ts' hs' (fun i => h i + base i)) (fun wss => Some (ws :: wss)))
  | _, _ => Some []
  end.
Inductive omp_pass (bc : nat) (dig : E -> nat) (cur next : list E) : option (list E * list E) -> Prop :=
| OP_fail_hist : histograms bc dig cur (seq 0 nths) = None -> omp_pass bc dig cur next None
| OP_skip hs : histograms bc dig cur (seq 0 nths) = Some hs -> existsb (fun i => total hs i =? length cur) (seq 0 bc) = true ->
    omp_pass bc dig cur next (Some (cur, next))
| OP_fail_writes hs : histograms bc dig cur (seq 0 nths) = Some hs -> existsb (fun i => total hs i =? length cur) (seq 0 bc) = false ->
    all_writes dig cur (seq 0 nths) hs (offsets (total hs)) = None -> omp_pass bc dig cur next None
| OP_run hs wss order : histograms bc dig cur (seq 0 nths) = Some hs -> existsb (fun i => total hs i =? length cur) (seq 0 bc) = false ->
    all_writes dig cur (seq 0 nths) hs (offsets (total hs)) = Some wss -> Permutation order (concat wss) ->
    omp_pass bc dig cur next (bind (run_writes next order) (fun next' => Some (next', cur))).

(** the mask and bin count of the pass at bit st (495-498); bits = 8 except possibly for the last pass *)
Definition pass_mask (st ebit : nat) (mask : Z) : Z := if ebit <? st + 8 then Z.shiftr mask (Z.of_nat (st + 8 - ebit)) else mask.
Definition pass_bins (st ebit bc : nat) : nat := if ebit <? st + 8 then Nat.div bc (2 ^ (st + 8 - ebit)) else bc.
Fixpoint radix_loop (fuel st ebit : nat) (mask : Z) (bc : nat) (cur next : list E) : option (list E) :=
  if st <? ebit then
    match fuel with
    | O => None
    | S f => let mask := pass_mask st ebit mask in let bc := pass_bins st ebit bc in
             bind (pass1 bc (digit st mask) cur next) (fun cn => radix_loop f (st + 8) ebit mask bc (fst cn) (snd cn))
    end
  else Some cur.
Inductive omp_loop (ebit : nat) : nat -> Z -> nat -> list E -> list E -> option (list E) -> Prop :=
| OL_done st mask bc cur next : ebit <= st -> omp_loop ebit st mask bc cur next (Some cur)
| OL_fail st mask bc cur next : st < ebit -> omp_pass (pass_bins st ebit bc) (digit st (pass_mask st ebit mask)) cur next None ->
    omp_loop ebit st mask bc cur next None
| OL_step st mask bc cur next cur' next' r : st < ebit -> omp_pass (pass_bins st ebit bc) (digit st (pass_mask st ebit mask)) cur next (Some (cur', next')) ->
    omp_loop ebit (st + 8) (pass_mask st ebit mask) (pass_bins st ebit bc) cur' next' r -> omp_loop ebit st mask bc cur next r.
(** radix_sort_pair: copy in with the sign flip, passes, copy out with the sign flip (483-525, 561-607); [tmp] is the content of the second buffer *)
Definition radix_sort (sbit ebit : nat) (inp tmp : list E) : option (list E) :=
  bind (radix_loop (ebit - sbit) sbit ebit 255%Z 256 (map tr inp) tmp) (fun out => Some (map tr out)).
Definition omp_radix_sort (sbit ebit : nat) (inp tmp : list E) (res : option (list E)) : Prop :=
  exists r, omp_loop ebit sbit 255%Z 256 (map tr inp) tmp r /\ res = option_map (map tr) r.
End R.
