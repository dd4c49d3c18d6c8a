(** Model of ZpcIterator.hpp: IndexIterator (438-487), PointerIterator (490-502), zip_iterator (571-618), range (636-680),
    zip and enumerate (691-706), range_size (709-725), chunk_view (727-790); of the loops of the sequential policy
    (execution/ExecutionPolicy.hpp 161) and of the OpenMP policy (omp/execution/ExecutionPolicy.hpp 91-97).
    Simplifications: index types are 32 or 64 bits wide (with narrower ones begin and end have different types and the loops do not compile);
    the type Tn of chunk_view is unbounded; a dereferenced pointer is its position, memory is not modelled; the OpenMP loop lists its
    iterations in order although they run concurrently; dangling of chunk_view's reference to a temporary range is not modelled. *)
From Verif Require Import Prelude.
Open Scope Z_scope.

(** integer types: signed or not, number of bits *)
Record ity := Ity { sgn : bool; bits : Z }.
Definition lo (t : ity) : Z := if sgn t then - 2 ^ (bits t - 1) else 0.
Definition hi (t : ity) : Z := if sgn t then 2 ^ (bits t - 1) - 1 else 2 ^ bits t - 1.
(** DiffT 441-445, 640-642: the signed type of the same width *)
Definition diff_t (t : ity) : ity := Ity true (bits t).
(** conversion to t *)
Definition conv (t : ity) (z : Z) : Z :=
  let m := z mod 2 ^ bits t in if sgn t then (if m <? 2 ^ (bits t - 1) then m else m - 2 ^ bits t) else m.
(** the value of an arithmetic operation of type t: undefined on signed overflow, modular otherwise *)
Definition arith (t : ity) (z : Z) : option Z :=
  if sgn t then (if (lo t <=? z) && (z <=? hi t) then Some z else None) else Some (z mod 2 ^ bits t).
Definition obind {A B} (a : option A) (f : A -> option B) : option B := match a with Some x => f x | None => None end.
(** a % b *)
Definition crem (t : ity) (a b : Z) : option Z :=
  if b =? 0 then None else if sgn t && (a =? lo t) && (b =? -1) then None else Some (Z.rem a b).

(** the iterators of ZpcIterator.hpp 438-764 *)
Inductive iter :=
| Index (t : ity) (base stride : Z)        (* 438-462: IndexIterator with a run time stride *)
| Unit (base : Z)                          (* 463-481: IndexIterator<sint_t> with stride 1 *)
| Ptr (buf : nat) (pos : Z)                (* 490-502 *)
| Zip (its : list iter)                    (* 577-618 *)
| Chunk (orig : iter) (size no csz : Z).   (* 737-764 *)
Inductive value := VInt (z : Z) | VRef (buf : nat) (pos : Z) | VTup (vs : list value) | VRange (b e : iter).

Section Lists.
Context {A B : Type}.
Variable f : A -> option B.
(** scaffolding: a fallible function on every component of a zip_iterator (ZpcIterator.hpp 571-618) *)
Fixpoint omap (l : list A) : option (list B) :=
  match l with [] => Some [] | x :: r => match f x, omap r with Some y, Some s => Some (y :: s) | _, _ => None end end.
End Lists.
Section Lists2.
Context {A : Type}.
Variable f : A -> A -> bool.
(** scaffolding: as omap, a test on some pair of components *)
Fixpoint any2 (l m : list A) : bool := match l, m with x :: r, y :: s => f x y || any2 r s | _, _ => false end.
End Lists2.
Section Lists3.
Context {A B : Type}.
Variable f : A -> A -> option B.
(** scaffolding: as omap, on pairs of components *)
Fixpoint omap2 (l m : list A) : option (list B) :=
  match l, m with
  | [], [] => Some []
  | x :: r, y :: s => match f x y, omap2 r s with Some z, Some t => Some (z :: t) | _, _ => None end
  | _, _ => None
  end.
End Lists3.

(** sint_t, 64 bits, as used by ZpcIterator.hpp 438-487 *)
Definition sint : ity := Ity true 64.
(** advance 453, 475, 497, 602-605, 756 (the offset is converted to the difference type of each component) *)
Fixpoint adv (it : iter) (k : Z) : option iter :=
  match it with
  | Index t b s => obind (arith (diff_t t) (s * conv (diff_t t) k)) (fun d => obind (arith t (b + d)) (fun b' => Some (Index t b' s)))
  | Unit b => obind (arith sint (b + k)) (fun b' => Some (Unit b'))
  | Ptr p i => Some (Ptr p (i + k))
  | Zip its => obind (omap (fun x => adv x k) its) (fun l => Some (Zip l))
  | Chunk o n c z => Some (Chunk o n (c + k) z)
  end.
(** equal_to 452, 474, 496, 594-596, 753-755 *)
Fixpoint eq_it (a b : iter) : bool :=
  match a, b with
  | Index _ x _, Index _ y _ => x =? y
  | Unit x, Unit y => x =? y
  | Ptr p i, Ptr q j => Nat.eqb p q && (i =? j)
  | Zip l, Zip m => any2 eq_it l m
  | Chunk _ _ _ _, Chunk _ _ c _ => c =? c
  | _, _ => false
  end.
(** the width of the difference type: 581 takes the common type of the components *)
Fixpoint dbits (it : iter) : Z :=
  match it with Index t _ _ => bits t | Unit _ | Ptr _ _ => 64 | Zip its => fold_right Z.max 32 (map dbits its) | Chunk o _ _ _ => dbits o end.
(** a.distance_to(b) 454-456, 476, 498, 606-614, 757-759 *)
Fixpoint dist (a b : iter) : option Z :=
  match a, b with
  | Index t x _, Index _ y _ => arith (diff_t t) (conv (diff_t t) y - conv (diff_t t) x)
  | Unit x, Unit y => arith sint (y - x)
  | Ptr p i, Ptr q j => if Nat.eqb p q then Some (j - i) else None
  | Zip l, Zip m => obind (omap2 dist l m) (fun ds => Some (fold_left Z.min ds (2 ^ (dbits (Zip l) - 1) - 1)))
  | Chunk _ _ c _, Chunk _ _ d _ => Some (d - c)
  | _, _ => None
  end.
(** dereference 451, 473, 495, 592, 747-752 *)
Fixpoint deref (it : iter) : option value :=
  match it with
  | Index _ b _ | Unit b => Some (VInt b)
  | Ptr p i => Some (VRef p i)
  | Zip its => obind (omap deref its) (fun l => Some (VTup l))
  | Chunk o n c z =>
    let st := c * z in let ed := st + z in
    let ed := if n <? ed then n else ed in
    obind (adv o st) (fun b => obind (adv o ed) (fun e => Some (VRange b e)))
  end.

(** range(begin, end, increment) 636-647 *)
Definition range3 (t : ity) (b e inc : Z) : option (iter * iter) :=
  obind (arith t (e - b)) (fun d => obind (crem t d inc) (fun r => obind (arith t (e - r)) (fun actualEnd =>
    Some (Index t b (conv (diff_t t) inc), Index t actualEnd (conv (diff_t t) inc))))).
(** range(begin, end) 648-654 *)
Definition range2 (t : ity) (b e : Z) : option (iter * iter) :=
  range3 (diff_t t) (conv (diff_t t) b) (conv (diff_t t) e) (if b <? e then 1 else -1).
(** range(end) 655-657 *)
Definition range1 (t : ity) (e : Z) : option (iter * iter) := range2 t 0 e.
(** range(pointer, n) 664-668 *)
Definition range_ptr (p : nat) (i n : Z) : iter * iter := (Ptr p i, Ptr p (i + n)).
(** zip 691-695 *)
Definition zip (rs : list (iter * iter)) : iter * iter := (Zip (map fst rs), Zip (map snd rs)).
(** enumerate 698-704 *)
Definition enumerate (rs : list (iter * iter)) : iter * iter := zip ((Unit 0, Unit (2 ^ 63 - 1)) :: rs).
(** range_size 709-725 *)
Definition range_size (r : iter * iter) : option Z := dist (fst r) (snd r).
(** chunk_view: begin, end 766-776 *)
Definition chunk_view (r : iter * iter) (csz : Z) : option (iter * iter) :=
  obind (range_size r) (fun n => if csz =? 0 then None else
    Some (Chunk (fst r) n 0 csz, Chunk (fst r) n (Z.quot (n + csz - 1) csz) csz)).

(** for (auto &&it : range): ExecutionPolicy.hpp 161 *)
Inductive outcome := Visits (l : list value) | Undefined | Running.
Fixpoint seq_for (fuel : nat) (b e : iter) : outcome :=
  if eq_it b e then Visits [] else
  match fuel with
  | O => Running
  | S f =>
    match deref b, adv b 1 with
    | Some v, Some b' => match seq_for f b' e with Visits l => Visits (v :: l) | o => o end
    | _, _ => Undefined
    end
  end.
(** omp/execution/ExecutionPolicy.hpp 91-97: *(iter + i) for i below the distance *)
Definition par_for (b e : iter) : option (list value) :=
  obind (dist b e) (fun n => omap (fun i => obind (adv b (Z.of_nat i)) deref) (seq 0 (Z.to_nat n))).
