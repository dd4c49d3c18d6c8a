(** Specification of RBTreeMap: a finite map with keys in a total order. *)
From Verif Require Import Prelude.

Section S.
Variables (K V : Type) (eqb ltb : K -> K -> bool) (dv : V).
(** == is equality and Compare a strict total order *)
Record total_order : Prop := {
  to_eq : forall a b, eqb a b = true <-> a = b;
  to_irr : forall a, ltb a a = false;
  to_trans : forall a b c, ltb a b = true -> ltb b c = true -> ltb a c = true;
  to_total : forall a b, ltb a b = true \/ a = b \/ ltb b a = true }.

Inductive op := Insert (k : K) (v : V) | Index (k : K) | Assign (k : K) (v : V) | Get (k : K) | Size | Empty | Erase (k : K) | Clear | Iterate | IterateReverse | ForEach
| IterateBack | ReverseBack | LowerBound (k : K) | UpperBound (k : K) | EraseAt (n : nat) | EraseSpan (n c : nat).
Inductive out := ODone | OVal (o : option V) | ORef (v : V) | ONum (n : nat) | OBool (b : bool) | OList (l : list (K * V)).
Definition fmap := K -> option V.
(** l lists the keys of m, each once, in increasing order *)
Definition lists (m : fmap) (l : list (K * V)) : Prop :=
  (forall k v, In (k, v) l <-> m k = Some v) /\ (forall p k1 v1 k2 v2 q, l = p ++ (k1, v1) :: (k2, v2) :: q -> ltb k1 k2 = true).
Definition card (m : fmap) (n : nat) : Prop := exists ks, NoDup ks /\ length ks = n /\ forall k, In k ks <-> m k <> None.
(** one operation on the map: old contents, result, new contents *)
Inductive step (m : fmap) : op -> out -> fmap -> Prop :=
| s_insert k v m' : m' k = Some v -> (forall j, j <> k -> m' j = m j) -> step m (Insert k v) ODone m'
| s_index_old k v m' : m k = Some v -> (forall j, m' j = m j) -> step m (Index k) (ORef v) m'
| s_index_new k m' : m k = None -> m' k = Some dv -> (forall j, j <> k -> m' j = m j) -> step m (Index k) (ORef dv) m'
| s_assign k v m' : m' k = Some v -> (forall j, j <> k -> m' j = m j) -> step m (Assign k v) ODone m'
| s_get k m' : (forall j, m' j = m j) -> step m (Get k) (OVal (m k)) m'
| s_size n m' : card m n -> (forall j, m' j = m j) -> step m Size (ONum n) m'
| s_empty b m' : (b = true <-> forall j, m j = None) -> (forall j, m' j = m j) -> step m Empty (OBool b) m'
| s_erase_hit k v m' : m k = Some v -> m' k = None -> (forall j, j <> k -> m' j = m j) -> step m (Erase k) (ONum 1) m'
| s_erase_miss k m' : m k = None -> (forall j, m' j = m j) -> step m (Erase k) (ONum 0) m'
| s_clear m' : (forall j, m' j = None) -> step m Clear ODone m'
| s_iterate l m' : lists m l -> (forall j, m' j = m j) -> step m Iterate (OList l) m'
| s_iterate_rev l m' : lists m (rev l) -> (forall j, m' j = m j) -> step m IterateReverse (OList l) m'
| s_for_each l m' : lists m l -> (forall j, m' j = m j) -> step m ForEach (OList l) m'
(* from end() back to begin() with --, and from rend() back to rbegin() *)
| s_iterate_back l m' : lists m (rev l) -> (forall j, m' j = m j) -> step m IterateBack (OList l) m'
| s_reverse_back l m' : lists m l -> (forall j, m' j = m j) -> step m ReverseBack (OList l) m'
(* the entries seen from the returned iterator on *)
| s_lower k l m' : lists m l -> (forall j, m' j = m j) -> step m (LowerBound k) (OList (filter (fun e => negb (ltb (fst e) k)) l)) m'
| s_upper k l m' : lists m l -> (forall j, m' j = m j) -> step m (UpperBound k) (OList (filter (fun e => ltb k (fst e)) l)) m'
(* erase the n-th entry, or c entries from the n-th on, through iterators *)
| s_erase_at n l m' : lists m l -> lists m' (firstn n l ++ skipn (S n) l) -> step m (EraseAt n) (OList (skipn (S n) l)) m'
| s_erase_span n c l m' : lists m l -> lists m' (firstn n l ++ skipn (n + c) l) -> step m (EraseSpan n c) (OList (skipn (n + c) l)) m'.
Inductive steps : fmap -> list op -> list out -> fmap -> Prop :=
| ss_nil m m' : (forall j, m' j = m j) -> steps m [] [] m'
| ss_cons m o u m1 os us m2 : step m o u m1 -> steps m1 os us m2 -> steps m (o :: os) (u :: us) m2.

(** red-black trees as they lie in the heap: rbh par p c b: p is the root of a
    tree whose parent link is par, of colour c (null counts as black) and black height b; the links of every node are consistent, a red
    node has black children, and both subtrees of a node have the same black height *)
Section B.
Variables (node : Type) (h : nat -> option node) (red : node -> bool) (npar nleft nright : node -> nat).
Inductive rbh : nat -> nat -> bool -> nat -> Prop :=
| rbh_null par : rbh par 0 false 0
| rbh_red par p n b : p <> 0 -> h p = Some n -> npar n = par -> red n = true -> rbh p (nleft n) false b -> rbh p (nright n) false b -> rbh par p true b
| rbh_black par p n b c1 c2 : p <> 0 -> h p = Some n -> npar n = par -> red n = false -> rbh p (nleft n) c1 b -> rbh p (nright n) c2 b -> rbh par p false (S b).
(** desc p n q: q is n links below p *)
Inductive desc : nat -> nat -> nat -> Prop :=
| desc_here p : desc p 0 p
| desc_left p n m q : p <> 0 -> h p = Some n -> desc (nleft n) m q -> desc p (S m) q
| desc_right p n m q : p <> 0 -> h p = Some n -> desc (nright n) m q -> desc p (S m) q.
End B.
End S.
Arguments Insert {K V}. Arguments Index {K V}. Arguments Assign {K V}. Arguments Get {K V}. Arguments Size {K V}. Arguments Empty {K V}. Arguments Erase {K V}.
Arguments Clear {K V}. Arguments Iterate {K V}. Arguments IterateReverse {K V}. Arguments ForEach {K V}. Arguments IterateBack {K V}. Arguments ReverseBack {K V}.
Arguments LowerBound {K V}. Arguments UpperBound {K V}. Arguments EraseAt {K V}. Arguments EraseSpan {K V}.
Arguments ODone {K V}. Arguments OVal {K V}. Arguments ORef {K V}. Arguments ONum {K V}. Arguments OBool {K V}. Arguments OList {K V}.
