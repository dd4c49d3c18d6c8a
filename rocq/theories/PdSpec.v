(* Vocabulary for the Poisson disk properties. *)
From Coq Require Import Reals.
From Verif Require Import Prelude PdModel.
Local Open Scope R_scope.

(* the Euclidean distance in the plane and in space *)
Definition dist (p q : pt) : R := sqrt ((fst p - fst q) * (fst p - fst q) + (snd p - snd q) * (snd p - snd q)).
Definition dist3 (p q : pt3) : R :=
  sqrt ((x0 p - x0 q) * (x0 p - x0 q) + (x1 p - x1 q) * (x1 p - x1 q) + (x2 p - x2 q) * (x2 p - x2 q)).
(* any two members of the list are at least r apart *)
Definition apart {A} (d : A -> A -> R) (r : R) (l : list A) : Prop :=
  forall i j p q, i <> j -> nth_error l i = Some p -> nth_error l j = Some q -> r <= d p q.
Definition in_box (lo hi p : pt) : Prop := fst lo <= fst p <= fst hi /\ snd lo <= snd p <= snd hi.
(* q moved by whole multiples of the sides of the box *)
Definition image (lo hi q : pt) (k l : Z) : pt :=
  (fst q + IZR k * (fst hi - fst lo), snd q + IZR l * (snd hi - snd lo)).
(* an index of a box of the given extents *)
Definition in_domain (idx dims : list Z) : Prop := Forall2 (fun i n => (0 <= i < n)%Z) idx dims.
(* the number of cells of a box *)
Definition volume (dims : list Z) : Z := fold_right Z.mul 1%Z dims.
(* the grid of n by m cells names, for each sample, its number in the sample's cell, and -1 elsewhere;
   this is how the sampler keeps its samples *)
Definition records (r : R) (lo : pt) (n m : Z) (g : dense) (l : list pt) : Prop :=
  (weights g = [m * 1; 1]%Z /\ dims g = [n; m]) /\
  (forall k q, nth_error l k = Some q -> in_domain [fst (cell r lo q); snd (cell r lo q)] [n; m] /\
     get g [fst (cell r lo q); snd (cell r lo q)] = Some (Z.of_nat k)) /\
  (forall i j c, in_domain [i; j] [n; m] -> get g [i; j] = Some c ->
     c = (-1)%Z \/ exists k q, c = Z.of_nat k /\ nth_error l k = Some q /\ cell r lo q = (i, j)).
(* the annulus vectors the generator delivers *)
Definition annulus (draw : nat -> nat * (nat -> pt)) : Prop := forall n i,
  let v := snd (draw n) i in 1/4 <= fst v * fst v + snd v * snd v <= 1.
(* q moved by multiples of 120 *)
Definition translate (q : pt3) (k : Z * Z * Z) : pt3 :=
  let '(a, b, c) := k in Pt3 (x0 q + 120 * IZR a) (x1 q + 120 * IZR b) (x2 q + 120 * IZR c).
(* the reference set, repeated with period 120, has its points at least 1 apart *)
Definition tile_apart (data : list pt3) : Prop := forall i j q q' k,
  nth_error data i = Some q -> nth_error data j = Some q' -> i <> j \/ k <> (0, 0, 0)%Z -> 1 <= dist3 q (translate q' k).
Definition within60 (q : pt3) : Prop := -60 <= x0 q <= 60 /\ -60 <= x1 q <= 60 /\ -60 <= x2 q <= 60.
Definition in_box3 (lo hi p : pt3) : Prop :=
  x0 lo <= x0 p <= x0 hi /\ x1 lo <= x1 p <= x1 hi /\ x2 lo <= x2 p <= x2 hi.
(* the point r q of the copy k of the reference set, laid out from lo on *)
Definition laid_out (r : R) (lo : pt3) (q : pt3) (k : Z * Z * Z) : pt3 :=
  let t := translate q k in Pt3 (x0 lo + r * x0 t) (x1 lo + r * x1 t) (x2 lo + r * x2 t).
