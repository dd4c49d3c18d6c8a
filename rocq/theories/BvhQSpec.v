(** Specification of bounding boxes and query results over the stored tree (BvhSpec). *)
From Verif Require Import Prelude BvhSpec.
Open Scope Z_scope.

(** b is the smallest box (on the first dim coordinates) containing all boxes of the list *)
Definition hull (dim : nat) (bs : list (list Z * list Z)) (b : list Z * list Z) : Prop := forall d, (d < dim)%nat ->
  (forall c, In c bs -> nth d (fst b) 0 <= nth d (fst c) 0 /\ nth d (snd c) 0 <= nth d (snd b) 0) /\
  (exists c, In c bs /\ nth d (fst b) 0 = nth d (fst c) 0) /\ (exists c, In c bs /\ nth d (snd b) 0 = nth d (snd c) 0).
(** the subtrees of a tree stored from number pos on, each with its number, its parent's and that of the node to go on with *)
Inductive sub : tree -> Z -> Z -> Z -> tree -> Z -> Z -> Z -> Prop :=
| sub_self t pos par esc : sub t pos par esc t pos par esc
| sub_left l r pos par esc t' x p e : sub l (pos + 1) pos (pos + 1 + size l) t' x p e -> sub (Node l r) pos par esc t' x p e
| sub_right l r pos par esc t' x p e : sub r (pos + 1 + size l) pos esc t' x p e -> sub (Node l r) pos par esc t' x p e.
(** a list up to and including the first element asking to stop *)
Fixpoint until (stop : Z -> bool) (l : list Z) : list Z := match l with [] => [] | x :: r => if stop x then [x] else x :: until stop r end.
(** squared Euclidean distance of two points *)
Definition sqdist (dim : nat) (p q : list Z) : Z := fold_right Z.add 0 (map (fun d => (nth d p 0 - nth d q 0) ^ 2) (seq 0 dim)).
