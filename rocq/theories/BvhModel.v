(** Model of LBvh (container/Bvh.hpp): construction of the tree over sorted Morton codes.
    Arrays are partial maps with a size; reading outside, or a cell nobody wrote, and writing outside make the run undefined (None).
    A parallel loop policy(range(n), kernel) runs the kernel once for each index in some order, given as a list; one kernel call is
    atomic here (within one loop no call reads a cell another call writes, lDepths apart, which is only changed by atomic_add).
    index_type is unbounded (the code's int holds 2n-1 nodes). *)
From Verif Require Import Prelude.
Open Scope Z_scope.

(** the arrays of the construction (Bvh.hpp 174, 836-845) *)
Inductive arr := PInds | LDepths | LOffsets | LPars | LLcas | LInds | TPars | TLcs | TRcs | TLs | TRs | TDst | Levels | Parents | Aux.
(** scaffolding: which of the arrays (Bvh.hpp 836-845) *)
Definition arr_eqb (a b : arr) : bool :=
  match a, b with
  | PInds, PInds | LDepths, LDepths | LOffsets, LOffsets | LPars, LPars | LLcas, LLcas | LInds, LInds | TPars, TPars | TLcs, TLcs | TRcs, TRcs
  | TLs, TLs | TRs, TRs | TDst, TDst | Levels, Levels | Parents, Parents | Aux, Aux => true
  | _, _ => false
  end.
(** scaffolding: the contents of the arrays (Bvh.hpp 836-845), None where nothing has been written *)
Definition mem := arr -> Z -> option Z.
(** scaffolding: the arrays as allocated (Bvh.hpp 836-845) *)
Definition empty : mem := fun _ _ => None.
(** scaffolding: an assignment to an entry of an array (Bvh.hpp 836-845) *)
Definition put (m : mem) (a : arr) (i v : Z) : mem := fun b j => if arr_eqb b a && (j =? i) then Some v else m b j.

(** scaffolding: code using the arrays (Bvh.hpp 836-845); None for a read of an entry not written *)
Definition M A := mem -> option (A * mem).
(** scaffolding, as M (Bvh.hpp 836-845) *)
Definition ret {A} (x : A) : M A := fun m => Some (x, m).
(** scaffolding, as M: one statement after another *)
Definition bind {A B} (k : M A) (f : A -> M B) : M B := fun m => match k m with Some (x, m') => f x m' | None => None end.
(** scaffolding, as M: a computation that may fail *)
Definition lift {A} (o : option A) : M A := fun m => match o with Some x => Some (x, m) | None => None end.
Notation "x <- m ;; k" := (bind m (fun x => k)) (at level 90, m at level 89, right associativity).
Notation "m ;; k" := (bind m (fun _ => k)) (at level 90, right associativity).
(** scaffolding, as M, without the arrays *)
Definition obind {A B} (o : option A) (f : A -> option B) : option B := match o with Some x => f x | None => None end.
Notation "x <-? m ;; k" := (obind m (fun x => k)) (at level 90, m at level 89, right associativity).

(** count_lz on u32 (math/bit/Bits.h): 32 for 0 *)
Definition clz (x : Z) : Z := if x =? 0 then 32 else 31 - Z.log2 x.

Section Build.
Variable mcs : list Z.      (* sortedMcs *)
Variable inds : list Z.     (* sortedIndices *)
Definition n : Z := Z.of_nat (length mcs).
Definition numTrunk : Z := n - 1.
(** 837-853: the vectors and their sizes *)
Definition asize (a : arr) : Z :=
  match a with
  | TPars | TLcs | TRcs | TLs | TRs | TDst => numTrunk
  | PInds | LPars | LLcas | LInds => n
  | LDepths | LOffsets => n + 1
  | Levels | Parents | Aux => 2 * n - 1
  end.
Definition inb (a : arr) (i : Z) : bool := (0 <=? i) && (i <? asize a).
Definition rd (a : arr) (i : Z) : M Z := fun m => if inb a i then match m a i with Some v => Some (v, m) | None => None end else None.
Definition wr (a : arr) (i v : Z) : M unit := fun m => if inb a i then Some (tt, put m a i v) else None.
Definition at_ (l : list Z) (i : Z) : option Z := if i <? 0 then None else nth_error l (Z.to_nat i).
Definition code (i : Z) : option Z := at_ mcs i.

(** _build_init_depths (188-197) *)
Definition init_depths (idx : Z) : M unit :=
  ind <- lift (at_ inds idx) ;;
  wr PInds idx ind ;; wr LDepths idx 1 ;;
  if idx =? 0 then wr LDepths (numTrunk + 1) 0 else ret tt.

(** _build_build_topo 217-220: end of the run of equal codes *)
Fixpoint run_end (fuel : nat) (right : Z) : option Z :=
  match fuel with
  | O => None
  | S f => if right <? n - 1 then
             a <-? code right ;; b <-? code (right + 1) ;; if negb (a =? b) then Some right else run_end f (right + 1)
           else Some right
  end.
(** 230-235: step = 2, 4, ... while the element at that distance is in range and shares more than minLZ bits with cur *)
Fixpoint exp_step (fuel : nat) (left dir minLZ cur step : Z) : option Z :=
  match fuel with
  | O => None
  | S f => let right := left + step * dir in
           if (right <? n) && (0 <=? right) then
             c <-? code right ;; if minLZ <? clz (Z.lxor c cur) then exp_step f left dir minLZ cur (2 * step) else Some step
           else Some step
  end.
(** 236-241 *)
Fixpoint bin_len (fuel : nat) (left dir minLZ cur len step : Z) : option Z :=
  match fuel with
  | O => None
  | S f => if 1 <=? step then
             let right := left + (len + step) * dir in
             if (right <? n) && (0 <=? right) then
               c <-? code right ;; bin_len f left dir minLZ cur (if minLZ <? clz (Z.lxor c cur) then len + step else len) (step / 2)
             else bin_len f left dir minLZ cur len (step / 2)
           else Some len
  end.
Definition fuel : nat := S (S (length mcs)).
(** 203-252: the range of leaves below trunk node idx *)
Definition node_range (idx : Z) : option (Z * Z) :=
  if idx =? 0 then Some (0, n - 1)
  else
    pre <-? code (idx - 1) ;; cur <-? code idx ;; nxt <-? code (idx + 1) ;;
    if (pre =? cur) && (cur =? nxt) then r <-? run_end fuel (idx + 1) ;; Some (idx, r)
    else
      let lLZ := clz (Z.lxor pre cur) in let rLZ := clz (Z.lxor nxt cur) in
      let dir := if rLZ <? lLZ then -1 else 1 in let minLZ := if rLZ <? lLZ then rLZ else lLZ in
      step <-? exp_step fuel idx dir minLZ cur 2 ;;
      len <-? bin_len fuel idx dir minLZ cur 0 (step / 2) ;;
      Some (if dir =? 1 then (idx, idx + len) else (idx - len, idx)).
(** 263-269: the loop; the continue on 266 goes to step = (step + 1) >> 1 *)
Fixpoint split_loop (fuel : nat) (i lCode LZ step len : Z) : option Z :=
  match fuel with
  | O => None
  | S f => if numTrunk <? i + len + step then split_loop f i lCode LZ ((step + 1) / 2) len
           else c <-? code (i + len + step) ;;
                let len' := if LZ <? clz (Z.lxor c lCode) then len + step else len in
                if step <=? 1 then Some len' else split_loop f i lCode LZ ((step + 1) / 2) len'
  end.
(** 256-270 *)
Definition find_split (i j : Z) : option Z :=
  lCode <-? code i ;; rCode <-? code j ;;
  if lCode =? rCode then Some i
  else len <-? split_loop fuel i lCode (clz (Z.lxor lCode rCode)) ((j - i + 1) / 2) 0 ;; Some (i + len).
(** _build_build_topo (198-287) *)
Definition build_topo (idx : Z) : M unit :=
  ij <- lift (node_range idx) ;; let '(i, j) := ij in
  d <- rd LDepths i ;; wr LDepths i (d + 1) ;;
  wr TLs idx i ;; wr TRs idx j ;;
  gamma <- lift (find_split i j) ;;
  wr TLcs idx gamma ;; wr TRcs idx (gamma + 1) ;;
  let mi := if i <? j then i else j in let ma := if j <? i then i else j in
  (if mi =? gamma then wr LPars gamma idx ;; c <- rd TLcs idx ;; wr TLcs idx (c + numTrunk) else wr TPars gamma idx) ;;
  (if ma =? gamma + 1 then wr LPars (gamma + 1) idx ;; c <- rd TRcs idx ;; wr TRcs idx (c + numTrunk) else wr TPars (gamma + 1) idx) ;;
  if idx =? 0 then wr TPars 0 (-1) else ret tt.

(** exclusive_scan(leafDepths -> leafOffsets) (920), see ScanModel: k entries from q on, the sum so far being s *)
Fixpoint scan (k : nat) (q s : Z) : M unit :=
  match k with O => ret tt | S k' => wr LOffsets q s ;; d <- rd LDepths q ;; scan k' (q + 1) (s + d) end.

(** _build_supp_topo 296-300: for (; --depth; node = tPars[node], --dst) *)
Fixpoint supp_loop (fuel : nat) (depth node dst level ch : Z) : M Z :=
  match fuel with
  | O => fun _ => None
  | S f => if depth - 1 =? 0 then ret ch
           else wr TDst node dst ;; wr Levels dst (level + 1) ;; p <- rd TPars node ;; supp_loop f (depth - 1) p (dst - 1) (level + 1) node
  end.
(** _build_supp_topo (288-303) *)
Definition supp_topo (idx : Z) : M unit :=
  hi <- rd LOffsets (idx + 1) ;; lo <- rd LOffsets idx ;;
  node <- rd LPars idx ;;
  ch <- supp_loop fuel (hi - lo) node (hi - 2) 0 (idx + numTrunk) ;;
  wr LLcas idx ch.

(** _build_reorder_leaf (304-318) *)
Definition reorder_leaf (idx : Z) : M unit :=
  hi <- rd LOffsets (idx + 1) ;; let dst := hi - 1 in
  p <- rd PInds idx ;; wr Aux dst p ;;
  q <- rd LPars idx ;; d <- rd TDst q ;; wr Parents dst d ;;
  wr Levels dst 0 ;; wr LInds idx dst.

(** _build_reorder_trunk (319-338) *)
Definition reorder_trunk (idx : Z) : M unit :=
  dst <- rd TDst idx ;; r <- rd TRs idx ;;
  (if negb (r =? numTrunk) then
     lca <- rd LLcas (r + 1) ;; e <- (if lca <? numTrunk then rd TDst lca else rd LOffsets (r + 1)) ;; wr Aux dst e
   else wr Aux dst (-1)) ;;
  if negb (idx =? 0) then p <- rd TPars idx ;; d <- rd TDst p ;; wr Parents dst d else wr Parents dst (-1).

(** policy(range(n), kernel) in the given order *)
Fixpoint launch (order : list Z) (k : Z -> M unit) : M unit :=
  match order with [] => ret tt | i :: r => k i ;; launch r k end.
(** build 900-1030 for more than two primitives, from the sorted codes on, without the refit *)
Definition build (o1 o2 o3 o4 o5 : list Z) : M unit :=
  launch o1 init_depths ;; launch o2 build_topo ;; scan (S (length mcs)) 0 0 ;;
  launch o3 supp_topo ;; launch o4 reorder_leaf ;; launch o5 reorder_trunk.
End Build.
