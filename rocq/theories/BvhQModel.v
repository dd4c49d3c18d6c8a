(** Model of LBvh (container/Bvh.hpp): refit and the stackless queries.
    Coordinates are integers standing for finite floating-point values, which are only compared (boxes and overlaps are those of BvsModel;
    the distances of find_nearest_point are exact).  Arrays are partial maps; None is an access outside the array, or out of fuel. *)
From Verif Require Import Prelude BvsModel.
Open Scope Z_scope.

(** scaffolding: sequencing of reads that may be outside an array (container/Bvh.hpp) *)
Definition obind {A B} (o : option A) (f : A -> option B) : option B := match o with Some x => f x | None => None end.
Notation "x <-? m ;; k" := (obind m (fun x => k)) (at level 90, m at level 89, right associativity).

(** the data members (171-172), leafInds.size() and dim *)
Record bvh := mkBvh { levels : Z -> option Z; aux : Z -> option Z; parents : Z -> option Z; linds : Z -> option Z; nleaves : Z; bvs : Z -> option box }.
(** getNumNodes (126-129) *)
Definition numNodes (t : bvh) : Z := if 2 <? nleaves t then 2 * nleaves t - 1 else nleaves t.

Section Query.
Variable t : bvh.
(** the test on a node's box: overlaps(getNodeBV(node), bv) or ray_box_intersect(ro, rd, getNodeBV(node)) *)
Variable test : box -> bool.
(** the user's callback: true asks for the early exit (void callbacks: always false) *)
Variable stop : Z -> bool.
Definition hit (node : Z) : option bool := b <-? bvs t node ;; Some (test b).
(** 676-677: for (; level; --level, ++node) if (!overlaps) break; the remaining level and the node *)
Fixpoint descend (level : nat) (node : Z) : option (nat * Z) :=
  match level with
  | O => Some (O, node)
  | S l => h <-? hit node ;; if h then descend l (node + 1) else Some (S l, node)
  end.
(** 673-692 (also 718-729 from a leaf on, 739-750 and, without front, 770-785 up to ed): the primitives passed to f, in order *)
Fixpoint walk (fuel : nat) (ed node : Z) : option (list Z) :=
  match fuel with
  | O => None
  | S f =>
    if (node =? ed) || (node =? numNodes t) then Some []
    else
      lv <-? levels t node ;;
      if lv <? 0 then None else
      ln <-? descend (Z.to_nat lv) node ;;
      match fst ln with
      | O =>
        h <-? hit (snd ln) ;;
        if h then p <-? aux t (snd ln) ;; if stop p then Some [p] else r <-? walk f ed (snd ln + 1) ;; Some (p :: r)
        else walk f ed (snd ln + 1)
      | S _ => nx <-? aux t (snd ln) ;; walk f ed nx
      end
  end.
(** 662-672: at most two nodes, one after the other from i on, the callback gets the node number *)
Fixpoint linear (k : nat) (i : Z) : option (list Z) :=
  match k with
  | O => Some []
  | S k' => h <-? hit i ;; if h then (if stop i then Some [i] else r <-? linear k' (i + 1) ;; Some (i :: r)) else linear k' (i + 1)
  end.
Definition qfuel : nat := S (S (Z.to_nat (numNodes t))).
(** iter_neighbors(bv, f) (659-694), ray_intersect (518-541) *)
Definition iter_neighbors : option (list Z) :=
  if numNodes t <=? 2 then linear (Z.to_nat (numNodes t)) 0 else walk qfuel (-1) 0.
(** iter_neighbors(bv, node, f) (732-751) *)
Definition iter_treelet (node : Z) : option (list Z) :=
  if numNodes t <=? 2 then h <-? hit node ;; Some (if h then [node] else [])
  else
    lv <-? levels t node ;; ed <-? (if negb (lv =? 0) then aux t node else Some (node + 1)) ;; walk qfuel ed node.
(** 753-786 with a front: the primitives reported and the nodes recorded (the first replaces the front entry, the others are appended) *)
Fixpoint walk_front (fuel : nat) (ed node : Z) : option (list Z * list Z) :=
  match fuel with
  | O => None
  | S f =>
    if (node =? ed) || (node =? numNodes t) then Some ([], [])
    else
      lv <-? levels t node ;;
      if lv <? 0 then None else
      ln <-? descend (Z.to_nat lv) node ;;
      match fst ln with
      | O =>
        h <-? hit (snd ln) ;;
        if h then p <-? aux t (snd ln) ;; r <-? walk_front f ed (snd ln + 1) ;; Some (p :: fst r, snd ln :: snd r)
        else r <-? walk_front f ed (snd ln + 1) ;; Some (fst r, snd ln :: snd r)
      | S _ => nx <-? aux t (snd ln) ;; r <-? walk_front f ed nx ;; Some (fst r, snd ln :: snd r)
      end
  end.
Definition iter_front (node : Z) : option (list Z * list Z) :=
  lv <-? levels t node ;; ed <-? (if negb (lv =? 0) then aux t node else Some (node + 1)) ;; walk_front qfuel ed node.
End Query.
(** self_iter_neighbors(leafId, f) (696-730) *)
Definition self_iter (dim : nat) (t : bvh) (stop : Z -> bool) (leafId : Z) : option (list Z) :=
  if numNodes t <=? 2 then
    b <-? bvs t leafId ;; linear t (fun c => overlaps dim c b) stop (Z.to_nat (numNodes t - (leafId + 1))) (leafId + 1)
  else
    node <-? linds t leafId ;; b <-? bvs t node ;; walk t (fun c => overlaps dim c b) stop (qfuel t) (-1) node.

(** ** find_nearest_point (619-657) *)
Section Nearest.
Variable t : bvh.
Variable dim : nat.
Variable p : list Z.
(** the square of max(0, distance(p, box)) (AnalyticLevelSet.h 294-305): sum of the squared excesses *)
Definition box_dist2 (b : box) : Z :=
  fold_right Z.add 0 (map (fun d => let e := Z.max 0 (Z.max (bmin b d - nth d p 0) (nth d p 0 - bmax b d)) in e * e) (seq 0 dim)).
(** (p - bv._min).l2NormSqr() *)
Definition point_dist2 (b : box) : Z := fold_right Z.add 0 (map (fun d => let e := nth d p 0 - bmin b d in e * e) (seq 0 dim)).
(** 641-642: descend while the box is not further than the best so far *)
Fixpoint descend_near (dist2 : Z) (level : nat) (node : Z) : option (nat * Z) :=
  match level with
  | O => Some (O, node)
  | S l => b <-? bvs t node ;; if dist2 <? box_dist2 b then Some (S l, node) else descend_near dist2 l (node + 1)
  end.
Fixpoint near_loop (fuel : nat) (node dist2 idx : Z) : option (Z * Z) :=
  match fuel with
  | O => None
  | S f =>
    if (node =? -1) || (node =? numNodes t) then Some (idx, dist2)
    else
      lv <-? levels t node ;;
      if lv <? 0 then None else
      ln <-? descend_near dist2 (Z.to_nat lv) node ;;
      match fst ln with
      | O =>
        b <-? bvs t (snd ln) ;;
        if point_dist2 b <? dist2 then q <-? aux t (snd ln) ;; near_loop f (snd ln + 1) (point_dist2 b) q
        else near_loop f (snd ln + 1) dist2 idx
      | S _ => nx <-? aux t (snd ln) ;; near_loop f nx dist2 idx
      end
  end.
Fixpoint near_linear (k : nat) (i dist2 idx : Z) : option (Z * Z) :=
  match k with
  | O => Some (idx, dist2)
  | S k' => b <-? bvs t i ;; if point_dist2 b <? dist2 then near_linear k' (i + 1) (point_dist2 b) i else near_linear k' (i + 1) dist2 idx
  end.
(** the pair before the final square root *)
Definition find_nearest_point (dist2 idx : Z) : option (Z * Z) :=
  if numNodes t <=? 2 then near_linear (Z.to_nat (numNodes t)) 0 dist2 idx else near_loop (qfuel t) 0 dist2 idx.
End Nearest.

(** ** refit (1228-1259) *)
Section Refit.
Variable dim : nat.
Variable prims : list box.
Variable t : bvh.
(** merge (AnalyticLevelSet.h 280-290) *)
Definition merge (b : box) (q : list Z) : box :=
  (map (fun d => Z.min (bmin b d) (nth d q 0)) (seq 0 dim), map (fun d => Z.max (bmax b d) (nth d q 0)) (seq 0 dim)).
(** a leaf thread of _refit_bottom_up (467-493), one shared-memory access per step: not started; arrived at a finished node (about to
    do the compare-and-swap on its parent); about to read the left child's box, the right child's, to write; finished *)
Inductive thread := Start | Up (node : Z) | RdL (node : Z) | RdR (node : Z) (b : box) | Wr (node : Z) (b : box) | Done.
Record state := mkSt { obvs : Z -> option box; flags : Z -> bool; thr : Z -> thread }.
Definition fset {A} (f : Z -> A) (i : Z) (x : A) : Z -> A := fun j => if j =? i then x else f j.
(** one step of thread idx; None: undefined *)
Definition step (idx : Z) (s : state) : option state :=
  match thr s idx with
  | Start =>
    node <-? linds t idx ;; primid <-? aux t node ;; bv <-? nth_error prims (Z.to_nat primid) ;;
    Some (mkSt (fset (obvs s) node (Some bv)) (flags s) (fset (thr s) idx (Up node)))
  | Up c =>
    node <-? parents t c ;;
    if node =? -1 then Some (mkSt (obvs s) (flags s) (fset (thr s) idx Done))
    else if flags s node then Some (mkSt (obvs s) (flags s) (fset (thr s) idx (RdL node)))
    else Some (mkSt (obvs s) (fset (flags s) node true) (fset (thr s) idx Done))
  | RdL node => bv <-? obvs s (node + 1) ;; Some (mkSt (obvs s) (flags s) (fset (thr s) idx (RdR node bv)))
  | RdR node bv =>
    lv <-? levels t (node + 1) ;; rc <-? (if negb (lv =? 0) then aux t (node + 1) else Some (node + 1 + 1)) ;; rbv <-? obvs s rc ;;
    Some (mkSt (obvs s) (flags s) (fset (thr s) idx (Wr node (merge (merge bv (fst rbv)) (snd rbv)))))
  | Wr node bv => Some (mkSt (fset (obvs s) node (Some bv)) (flags s) (fset (thr s) idx (Up node)))
  | Done => Some s
  end.
(** a schedule: the thread taking each step *)
Fixpoint run (sched : list Z) (s : state) : option state :=
  match sched with [] => Some s | i :: r => s' <-? step i s ;; run r s' end.
Definition init : state := mkSt (bvs t) (fun _ => false) (fun i => if (0 <=? i) && (i <? nleaves t) then Start else Done).
(** refit under a schedule that runs every thread to its end; None also when the counts differ (the code throws) *)
Definition refit (sched : list Z) : option bvh :=
  if negb (Z.of_nat (length prims) =? nleaves t) then None
  else if nleaves t <=? 2 then Some (mkBvh (levels t) (aux t) (parents t) (linds t) (nleaves t) (fun i => if i <? 0 then None else nth_error prims (Z.to_nat i)))
  else s <-? run sched init ;; Some (mkBvh (levels t) (aux t) (parents t) (linds t) (nleaves t) (obvs s)).
End Refit.
