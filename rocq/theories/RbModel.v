(** Model of RBTreeMap (container/RBTreeMap.hpp), at the level of its heap.
    A node is addressed by a natural number: 0 is nullptr, 1 the header node, the others come from `new', which returns an address that
    was never used before (the C++ allocator may reuse deleted ones).  Reading or writing through 0 or through a deleted node, and a
    failed assert, are undefined: the operation has no result (None).  Keys are compared with `key == node->first' (eqb) and
    Compare (ltb); both are assumed free of side effects.  cnt is unbounded.
    The mirror-image pairs of the source (rotateLeft/rotateRight, the left and right arms of insert, remove, lower_bound, the iterators)
    are written once, with a side as argument.  Recursive functions and loops take fuel; running out of it is also None. *)
From Verif Require Import Prelude.

(** RBTreeMap.hpp 29 *)
Inductive color := Red | Black.
(** scaffolding: the left or the right child of a node (container/RBTreeMap.hpp) *)
Inductive side := L | R.
(** scaffolding: the other side *)
Definition opp (d : side) : side := match d with L => R | R => L end.
(** Direction (62); ROOT *)
Inductive dir := DRoot | DSide (d : side).

Section Rb.
Variables (K V : Type) (eqb ltb : K -> K -> bool) (dk : K) (dv : V).

(** Node (29-60) *)
Record node := mkN { ncol : color; npar : nat; nleft : nat; nright : nat; nkey : K; nval : V }.
Definition nchild (d : side) (n : node) : nat := match d with L => nleft n | R => nright n end.
Definition w_col (c : color) (n : node) := mkN c (npar n) (nleft n) (nright n) (nkey n) (nval n).
Definition w_par (p : nat) (n : node) := mkN (ncol n) p (nleft n) (nright n) (nkey n) (nval n).
Definition w_child (d : side) (p : nat) (n : node) :=
  match d with L => mkN (ncol n) (npar n) p (nright n) (nkey n) (nval n) | R => mkN (ncol n) (npar n) (nleft n) p (nkey n) (nval n) end.
Definition w_val (v : V) (n : node) := mkN (ncol n) (npar n) (nleft n) (nright n) (nkey n) v.
Definition is_red (n : node) : bool := match ncol n with Red => true | Black => false end.
Definition is_black (n : node) : bool := negb (is_red n).

(** the map object: header (always address 1), root, cnt (66-68); next: the next address `new' returns *)
Record st := mkS { heap : nat -> option node; root : nat; cnt : nat; next : nat }.
Definition hdr : nat := 1.
Definition M (A : Type) := st -> option (A * st).
Definition ret {A} (a : A) : M A := fun s => Some (a, s).
Definition fail {A} : M A := fun _ => None.
Definition bind {A B} (m : M A) (k : A -> M B) : M B := fun s => match m s with Some (a, s') => k a s' | None => None end.
Notation "x <- m ;; k" := (bind m (fun x => k)) (at level 90, m at level 89, right associativity).
Notation "m ;; k" := (bind m (fun _ => k)) (at level 90, right associativity).
Definition rd (p : nat) : M node := fun s => match heap s p with Some n => Some (n, s) | None => None end.
Definition put (h : nat -> option node) (p : nat) (o : option node) : nat -> option node := fun q => if Nat.eqb q p then o else h q.
Definition wr (p : nat) (f : node -> node) : M unit := fun s =>
  match heap s p with Some n => Some (tt, mkS (put (heap s) p (Some (f n))) (root s) (cnt s) (next s)) | None => None end.
Definition new (n : node) : M nat := fun s => Some (next s, mkS (put (heap s) (next s) (Some n)) (root s) (cnt s) (S (next s))).
(** delete p (p is not nullptr where the source deletes) *)
Definition del (p : nat) : M unit := fun s =>
  match heap s p with Some _ => Some (tt, mkS (put (heap s) p None) (root s) (cnt s) (next s)) | None => None end.
Definition get_root : M nat := fun s => Some (root s, s).
Definition set_root (p : nat) : M unit := fun s => Some (tt, mkS (heap s) p (cnt s) (next s)).
Definition get_cnt : M nat := fun s => Some (cnt s, s).
Definition set_cnt (c : nat) : M unit := fun s => Some (tt, mkS (heap s) (root s) c (next s)).
Definition get_fuel : M nat := fun s => Some (next s, s).
Definition check (b : bool) : M unit := if b then ret tt else fail.
Definition null (p : nat) : bool := Nat.eqb p 0.

(** Node(k, v) (37-39): colour RED, no links *)
Definition fresh_node (k : K) (v : V) : node := mkN Red 0 0 0 k v.
(** the constructor RBTreeMap() (285-289) *)
Definition empty_map : st := mkS (fun q => if Nat.eqb q hdr then Some (mkN Red 0 hdr hdr dk dv) else None) 0 0 2.

(** isRoot (70), getDirection (72-82), getSibling (84-90), hasSibling (92-94) *)
Definition is_root (p : nat) : M bool := r <- get_root ;; ret (Nat.eqb r p).
Definition get_direction (p : nat) : M dir :=
  b <- is_root p ;;
  if b then ret DRoot
  else n <- rd p ;; q <- rd (npar n) ;; ret (if Nat.eqb p (nleft q) then DSide L else DSide R).
Definition get_sibling (p : nat) : M nat :=
  d <- get_direction p ;; n <- rd p ;; q <- rd (npar n) ;; ret (match d with DSide L => nright q | _ => nleft q end).
Definition has_sibling (p : nat) : M bool := b <- is_root p ;; if b then ret false else x <- get_sibling p ;; ret (negb (null x)).
(** getUncle (96), hasUncle (98-100) *)
Definition get_uncle (p : nat) : M nat := n <- rd p ;; get_sibling (npar n).
Definition has_uncle (p : nat) : M bool := b <- is_root p ;; if b then ret false else n <- rd p ;; has_sibling (npar n).

(** maintainRelationship (627-634) *)
Definition maintain_relationship (p : nat) : M unit :=
  n <- rd p ;; (if null (nleft n) then ret tt else wr (nleft n) (w_par p)) ;;
  n <- rd p ;; (if null (nright n) then ret tt else wr (nright n) (w_par p)).

(** rotateLeft (636-668) for d = L, rotateRight (670-702) for d = R *)
Definition rotate (d : side) (p : nat) : M unit :=
  n <- rd p ;; check (negb (null (nchild (opp d) n))) ;;
  let parent := npar n in
  direction <- get_direction p ;;
  let successor := nchild (opp d) n in
  s <- rd successor ;;
  wr p (w_child (opp d) (nchild d s)) ;;
  wr successor (w_child d p) ;;
  maintain_relationship p ;;
  maintain_relationship successor ;;
  match direction with
  | DRoot => set_root successor ;; wr hdr (w_par successor)
  | DSide e => wr parent (w_child e successor)
  end ;;
  wr successor (w_par parent).

(** maintainAfterInsert (722-809) *)
Fixpoint maintain_after_insert (fuel : nat) (p : nat) : M unit :=
  match fuel with
  | O => fail
  | S f =>
    b <- is_root p ;;
    if b then n <- rd p ;; check (is_red n) ;; wr p (w_col Black)
    else
      n <- rd p ;; q <- rd (npar n) ;;
      if is_black q then ret tt
      else
        b <- is_root (npar n) ;;
        if b then wr (npar n) (w_col Black)
        else
          hu <- has_uncle p ;;
          u <- (if hu then get_uncle p else ret 0) ;;
          ured <- (if hu then x <- rd u ;; ret (is_red x) else ret false) ;;
          if ured then
            wr (npar n) (w_col Black) ;; wr u (w_col Black) ;; wr (npar q) (w_col Red) ;; maintain_after_insert f (npar q)
          else
            d1 <- get_direction p ;; d2 <- get_direction (npar n) ;;
            (* case 5 (773-787) *)
            x <- (match d1, d2 with
                  | DSide L, DSide R => rotate R (npar n) ;; ret (npar n)
                  | DSide R, DSide L => rotate L (npar n) ;; ret (npar n)
                  | DSide _, DSide _ => ret p
                  | _, _ => fail
                  end) ;;
            (* case 6 (800-807) *)
            xn <- rd x ;; pn <- rd (npar xn) ;;
            d3 <- get_direction (npar xn) ;;
            (match d3 with DSide L => rotate R (npar pn) | _ => rotate L (npar pn) end) ;;
            xn <- rd x ;; wr (npar xn) (w_col Black) ;;
            sb <- get_sibling x ;; wr sb (w_col Red)
  end.

(** linking a new node below p on side d: the bodies 878-883 and 889-894 (insert), 823-829 and 835-841 (getNodeOrProvide) *)
Definition link_new (d : side) (p : nat) (k : K) (v : V) : M nat :=
  x <- new (fresh_node k v) ;;
  wr p (w_child d x) ;; wr x (w_par p) ;;
  h <- rd hdr ;; (if Nat.eqb (nchild d h) p then wr hdr (w_child d x) else ret tt) ;;
  f <- get_fuel ;; maintain_after_insert f x ;;
  c <- get_cnt ;; set_cnt (S c) ;; ret x.
(** insert(node, key, value, replace = true) (866-899) *)
Fixpoint insert_at (fuel : nat) (p : nat) (k : K) (v : V) : M unit :=
  match fuel with
  | O => fail
  | S f =>
    n <- rd p ;;
    if eqb k (nkey n) then wr p (w_val v)
    else
      let d := if ltb k (nkey n) then L else R in
      if null (nchild d n) then link_new d p k v ;; ret tt else insert_at f (nchild d n) k v
  end.
(** the first node (401-406 and 375-380) *)
Definition first_node (k : K) (v : V) : M nat :=
  x <- new (fresh_node k v) ;; set_root x ;; wr x (w_par hdr) ;; wr x (w_col Black) ;;
  wr hdr (w_par x) ;; wr hdr (w_child R x) ;; wr hdr (w_child L x) ;; c <- get_cnt ;; set_cnt (S c) ;; ret x.
(** insert(key, value) (399-410) *)
Definition insert (k : K) (v : V) : M unit :=
  r <- get_root ;; if null r then first_node k v ;; ret tt else f <- get_fuel ;; insert_at f r k v.
(** getNodeOrProvide (812-848), the provider being new Node(key) *)
Fixpoint get_or_provide (fuel : nat) (p : nat) (k : K) : M nat :=
  match fuel with
  | O => fail
  | S f =>
    n <- rd p ;;
    if eqb k (nkey n) then ret p
    else
      let d := if ltb k (nkey n) then L else R in
      if null (nchild d n) then link_new d p k dv else get_or_provide f (nchild d n) k
  end.
(** getOrDefault / operator[] (373-385, 413): the reference is given by its node *)
Definition index (k : K) : M nat :=
  r <- get_root ;; if null r then first_node k dv else f <- get_fuel ;; get_or_provide f r k.

(** getNode (850-864); 0: not found *)
Fixpoint get_node (fuel : nat) (p : nat) (k : K) : M nat :=
  match fuel with
  | O => fail
  | S f =>
    n <- rd p ;;
    if eqb k (nkey n) then ret p
    else let d := if ltb k (nkey n) then L else R in
         if null (nchild d n) then ret 0 else get_node f (nchild d n) k
  end.
(** get / at (353-364, 412); None: NoSuchMappingException *)
Definition get (k : K) : M (option V) :=
  r <- get_root ;; if null r then ret None
  else f <- get_fuel ;; x <- get_node f r k ;; if null x then ret None else n <- rd x ;; ret (Some (nval n)).
(** count (392): reads the root even when there is none *)
Definition count (k : K) : M nat := r <- get_root ;; f <- get_fuel ;; x <- get_node f r k ;; ret (if null x then 0 else 1).
(** size (322), empty (328) *)
Definition size : M nat := get_cnt.
Definition is_empty : M bool := c <- get_cnt ;; ret (Nat.eqb c 0).

(** Node::release (44-59): right is not reset *)
Fixpoint release (fuel : nat) (p : nat) : M unit :=
  match fuel with
  | O => fail
  | S f =>
    wr p (w_par 0) ;;
    n <- rd p ;;
    (if null (nleft n) then ret tt
     else (if Nat.eqb (nleft n) p then ret tt else release f (nleft n) ;; del (nleft n)) ;; wr p (w_child L 0)) ;;
    n <- rd p ;;
    if null (nright n) then ret tt
    else if Nat.eqb (nright n) p then ret tt else release f (nright n) ;; del (nright n)
  end.
(** clear (333-342) *)
Definition clear : M unit :=
  wr hdr (w_child R hdr) ;; wr hdr (w_child L hdr) ;;
  r <- get_root ;;
  (if null r then ret tt
   else f <- get_fuel ;; release f r ;; wr hdr (w_par 0) ;; del r ;; set_root 0) ;;
  set_cnt 0.
(** ~RBTreeMap (291-296) *)
Definition destroy : M unit := clear ;; wr hdr (w_child R 0) ;; wr hdr (w_child L 0) ;; del hdr.

(** rotateSameDirection (704-711), rotateOppositeDirection (713-720) *)
Definition rotate_same (p : nat) (d : dir) : M unit := match d with DRoot => fail | DSide e => rotate e p end.
Definition rotate_opposite (p : nat) (d : dir) : M unit := match d with DRoot => fail | DSide e => rotate (opp e) p end.
(** closeNephew == nullptr || closeNephew->isBlack() *)
Definition black_or_null (p : nat) : M bool := if null p then ret true else n <- rd p ;; ret (is_black n).
(** maintainAfterRemove (901-1012) *)
Fixpoint maintain_after_remove (fuel : nat) (p : nat) : M unit :=
  match fuel with
  | O => fail
  | S f =>
    b <- is_root p ;;
    if b then ret tt
    else
      n <- rd p ;; hs <- has_sibling p ;; check (is_black n && hs) ;;
      direction <- get_direction p ;;
      match direction with
      | DRoot => fail
      | DSide d =>
        sibling <- get_sibling p ;; sn <- rd sibling ;;
        (* case 1 (910-931) *)
        sibling <- (if is_red sn then
            let parent := npar n in
            pn <- rd parent ;; check (is_black pn) ;;
            check (negb (null (nleft sn))) ;; ln <- rd (nleft sn) ;; check (is_black ln) ;;
            check (negb (null (nright sn))) ;; rn <- rd (nright sn) ;; check (is_black rn) ;;
            rotate_same parent direction ;;
            wr sibling (w_col Black) ;; wr parent (w_col Red) ;; get_sibling p
          else ret sibling) ;;
        sn <- rd sibling ;;
        let close := nchild d sn in
        let distant := nchild (opp d) sn in
        cb <- black_or_null close ;; db <- black_or_null distant ;;
        check (is_black sn) ;;
        n <- rd p ;; pn <- rd (npar n) ;;
        if cb && db then
          (* cases 2, 3 (941-966) *)
          if is_red pn then wr sibling (w_col Red) ;; wr (npar n) (w_col Black)
          else wr sibling (w_col Red) ;; maintain_after_remove f (npar n)
        else
          (* case 4 (968-992) *)
          t <- (if negb cb then
              rotate_opposite sibling direction ;;
              wr close (w_col Black) ;; wr sibling (w_col Red) ;;
              sb <- get_sibling p ;; sn <- rd sb ;; ret (sb, (nchild d sn, nchild (opp d) sn))
            else ret (sibling, (close, distant))) ;;
          (* case 5 (994-1009) *)
          let '(sibling, (close, distant)) := t in
          cb <- black_or_null close ;; check cb ;;
          dn <- rd distant ;; check (is_red dn) ;;
          n <- rd p ;; rotate_same (npar n) direction ;;
          n <- rd p ;; pn <- rd (npar n) ;;
          wr sibling (w_col (ncol pn)) ;; wr (npar n) (w_col Black) ;;
          wr distant (w_col Black)
      end
  end.

(** while (l->left != nullptr) l = l->left (1041, 1050), with side d *)
Fixpoint descend (fuel : nat) (d : side) (p : nat) : M nat :=
  match fuel with
  | O => fail
  | S f => n <- rd p ;; if null (nchild d n) then ret p else descend f d (nchild d n)
  end.
(** 1038-1046 for d = L, 1047-1055 for d = R *)
Definition update_end (d : side) (p : nat) : M unit :=
  h <- rd hdr ;;
  if Nat.eqb (nchild d h) p then
    n <- rd p ;;
    if null (nchild (opp d) n) then wr hdr (w_child d (npar n))
    else f <- get_fuel ;; l <- descend f d (nchild (opp d) n) ;; wr hdr (w_child d l)
  else ret tt.
(** the search for the successor and its parent (1080-1085) *)
Fixpoint successor_of (fuel : nat) (parent p : nat) : M (nat * nat) :=
  match fuel with
  | O => fail
  | S f => n <- rd p ;; if null (nleft n) then ret (parent, p) else successor_of f p (nleft n)
  end.
(** exchange of the node with its successor (1086-1114) *)
Definition swap_nodes (p successor parent : nat) : M unit :=
  ds <- get_direction successor ;;
  (match ds with
   | DSide d => sn <- rd successor ;; wr (npar sn) (w_child d p)
   | DRoot => ret tt
   end) ;;
  dn <- get_direction p ;;
  (match dn with
   | DSide d => n <- rd p ;; wr (npar n) (w_child d successor)
   | DRoot => set_root successor ;; wr hdr (w_par successor)
   end) ;;
  n <- rd p ;; sn <- rd successor ;;
  wr p (fun n => mkN (ncol sn) (npar sn) (nleft sn) (nright sn) (nkey n) (nval n)) ;;
  wr successor (fun s => mkN (ncol n) (npar n) (nleft n) (nright n) (nkey s) (nval s)) ;;
  maintain_relationship p ;; maintain_relationship successor ;; maintain_relationship parent.
(** case 2: the node is a leaf (1117-1137) *)
Definition unlink_leaf (p : nat) : M unit :=
  b <- is_root p ;; check (negb b) ;;
  n <- rd p ;;
  (if is_black n then f <- get_fuel ;; maintain_after_remove f p else ret tt) ;;
  d <- get_direction p ;;
  let e := match d with DSide L => L | _ => R end in
  n <- rd p ;; q <- rd (npar n) ;;
  del (nchild e q) ;; wr (npar n) (w_child e 0).
(** case 3: the node has one child (1138-1166) *)
Definition unlink_single (p : nat) : M unit :=
  n <- rd p ;; check (null (nleft n) || null (nright n)) ;;
  let parent := npar n in
  let replacement := if null (nleft n) then nright n else nleft n in
  let black := is_black n in
  d <- get_direction p ;;
  (match d with
   | DRoot => set_root replacement ;; wr hdr (w_par replacement)
   | DSide e => wr parent (w_child e replacement)
   end) ;;
  rn <- rd replacement ;; del (npar rn) ;; wr replacement (w_par parent) ;;
  if black then
    rn <- rd replacement ;;
    if is_red rn then wr replacement (w_col Black) else f <- get_fuel ;; maintain_after_remove f replacement
  else ret tt.
(** remove once the node is found (1037-1171) *)
Definition remove_node (p : nat) : M unit :=
  update_end L p ;; update_end R p ;;
  c <- get_cnt ;;
  if Nat.eqb c 1 then clear
  else
    n <- rd p ;;
    (if negb (null (nleft n)) && negb (null (nright n)) then
       f <- get_fuel ;; t <- successor_of f p (nright n) ;; swap_nodes p (snd t) (fst t)
     else ret tt) ;;
    n <- rd p ;;
    (if null (nleft n) && null (nright n) then unlink_leaf p else unlink_single p) ;;
    c <- get_cnt ;; set_cnt (c - 1).
(** remove(node, key, action) (1014-1172), the action being empty *)
Fixpoint remove (fuel : nat) (p : nat) (k : K) : M bool :=
  match fuel with
  | O => fail
  | S f =>
    n <- rd p ;;
    if eqb k (nkey n) then remove_node p ;; ret true
    else
      let d := if ltb k (nkey n) then L else R in
      if null (nchild d n) then ret false
      else b <- remove f (nchild d n) k ;; if b then maintain_relationship p ;; ret true else ret false
  end.
(** erase(key) (497-503) *)
Definition erase (k : K) : M nat :=
  r <- get_root ;; if null r then ret 0 else f <- get_fuel ;; b <- remove f r k ;; ret (if b then 1 else 0).

(** begin, end, rbegin, rend (298-317) *)
Definition begin_ : M nat := h <- rd hdr ;; ret (nleft h).
Definition end_ : M nat := ret hdr.
Definition rbegin : M nat := h <- rd hdr ;; ret (nright h).
(** while (_node == _y->right) { _node = _y; _y = _y->parent; }, with side d *)
Fixpoint climb (fuel : nat) (d : side) (x y : nat) : M (nat * nat) :=
  match fuel with
  | O => fail
  | S f => yn <- rd y ;; if Nat.eqb x (nchild d yn) then climb f d y (npar yn) else ret (x, y)
  end.
(** increment: iterator_impl, const_iterator_impl (119-131, 157-169) with d = R; reverse (195-207, 235-247) with d = L *)
Definition increment (d : side) (p : nat) : M nat :=
  f <- get_fuel ;;
  n <- rd p ;;
  if null (nchild d n) then
    t <- climb (S (S f)) d p (npar n) ;;
    let '(x, y) := t in
    xn <- rd x ;; ret (if Nat.eqb (nchild d xn) y then x else y)
  else descend f (opp d) (nchild d n).
(** decrement: iterator_impl, const_iterator_impl (132-146, 170-184) with e = d = R; reverse_iterator_impl (208-222) with e = d = L;
    const_reverse_iterator_impl (248-262) with d = L but e = R.  The header is recognised by its colour and links. *)
Definition decrement (e d : side) (p : nat) : M nat :=
  f <- get_fuel ;;
  n <- rd p ;;
  at_end <- (if is_red n then q <- rd (npar n) ;; ret (Nat.eqb (npar q) p) else ret false) ;;
  if at_end then ret (nchild e n)
  else if null (nchild (opp d) n) then
    t <- climb (S (S f)) (opp d) p (npar n) ;;
    let '(x, y) := t in
    xn <- rd x ;; ret (if Nat.eqb (nchild (opp d) xn) y then x else y)
  else descend f d (nchild (opp d) n).
(** for (it = begin(); it != end(); ++it) visit: the nodes visited from p on *)
Fixpoint visit (fuel : nat) (d : side) (p : nat) : M (list (K * V)) :=
  match fuel with
  | O => fail
  | S f => if Nat.eqb p hdr then ret []
           else n <- rd p ;; q <- increment d p ;; l <- visit f d q ;; ret ((nkey n, nval n) :: l)
  end.
Definition iterate : M (list (K * V)) := b <- begin_ ;; f <- get_fuel ;; visit (S f) R b.
Definition iterate_reverse : M (list (K * V)) := b <- rbegin ;; f <- get_fuel ;; visit (S f) L b.

(** erase(iterator) (420-430); nullptr or end are returned unchanged *)
Definition erase_it (p : nat) : M nat :=
  if null p || Nat.eqb p hdr then ret p
  else n <- rd p ;; q <- increment R p ;; r <- get_root ;; f <- get_fuel ;; remove f r (nkey n) ;; ret q.
(** the loop of erase(first, last) (454-466) *)
Fixpoint erase_loop (fuel : nat) (p q : nat) : M nat :=
  match fuel with
  | O => fail
  | S f => if Nat.eqb p q then ret q
           else n <- rd p ;; x <- increment R p ;; r <- get_root ;; g <- get_fuel ;; remove g r (nkey n) ;; erase_loop f x q
  end.
Definition erase_range (p q : nat) : M nat :=
  b <- begin_ ;;
  if Nat.eqb p b && Nat.eqb q hdr then clear ;; end_ else f <- get_fuel ;; erase_loop f p q.

(** while (getDirection(node) == RIGHT) node = node->parent (533-539, 577-583) *)
Fixpoint climb_right (fuel : nat) (p : nat) : M nat :=
  match fuel with
  | O => fail
  | S f => d <- get_direction p ;; match d with DSide R => n <- rd p ;; climb_right f (npar n) | _ => ret p end
  end.
(** lower_bound (510-549) with stop = true, upper_bound (556-591) with stop = false *)
Fixpoint bound_from (stop : bool) (fuel : nat) (p : nat) (k : K) : M nat :=
  match fuel with
  | O => fail
  | S f =>
    n <- rd p ;;
    if stop && eqb k (nkey n) then ret p
    else if ltb k (nkey n) then
      if null (nleft n) then ret p else bound_from stop f (nleft n) k
    else if null (nright n) then
      g <- get_fuel ;; x <- climb_right g p ;; xn <- rd x ;; ret (if null (npar xn) && negb stop then hdr else npar xn)
    else bound_from stop f (nright n) k
  end.
Definition bound (stop : bool) (k : K) : M nat :=
  r <- get_root ;; if null r then ret hdr else f <- get_fuel ;; bound_from stop f r k.
Definition lower_bound : K -> M nat := bound true.
Definition upper_bound : K -> M nat := bound false.

(** inorderTraversal (1174-1194), the action collecting the entries *)
Fixpoint push_left (fuel : nat) (p : nat) (stack : list nat) : M (list nat) :=
  match fuel with
  | O => fail
  | S f => if null p then ret stack else n <- rd p ;; push_left f (nleft n) (p :: stack)
  end.
Fixpoint inorder_loop (fuel : nat) (p : nat) (stack : list nat) : M (list (K * V)) :=
  match fuel with
  | O => fail
  | S f =>
    if null p && match stack with [] => true | _ => false end then ret []
    else
      g <- get_fuel ;; stk <- push_left g p stack ;;
      match stk with
      | [] => inorder_loop f 0 []
      | q :: stk' => n <- rd q ;; l <- inorder_loop f (nright n) stk' ;; ret ((nkey n, nval n) :: l)
      end
  end.
Definition for_each : M (list (K * V)) := r <- get_root ;; if null r then ret [] else f <- get_fuel ;; inorder_loop f r [].
End Rb.
