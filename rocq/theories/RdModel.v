(** RandomNumber of include/zensim/math/RandomNumber.hpp (14-144) in exact real arithmetic. The generator is a stream of numbers of [0, 1), and
    std::uniform_real_distribution(a, b) maps one of them to a + (b - a) u; its precondition a <= b is checked. Vectors are lists of any length.
    Not modelled: integers, seeding, the 3D rotation (normal distribution), rounding. Loops have fuel. *)
From Coq Require Import Reals.
From Verif Require Import Prelude.
Local Open Scope R_scope.

(** the generator with its distribution on [0, 1), 16 and 37 *)
Definition stream := nat -> R.
(** a value, out of fuel, or undefined *)
Inductive res A := Val (a : A) | Fuel | Undef.
Arguments Val {A}. Arguments Fuel {A}. Arguments Undef {A}.

(** 44-47: randReal(a, b); the position in the stream moves by one *)
Definition rand_real (s : stream) (n : nat) (a b : R) : option (R * nat) := if Rle_dec a b then Some (a + (b - a) * s n, S n) else None.
(** 36-39: randReal() *)
Definition rand_unit (s : stream) (n : nat) : R := 0 + (1 - 0) * s n.
(** 61-66: randInBox, by its pairs of corners; 116-127: fill, with the same pair everywhere *)
Fixpoint rand_in_box (s : stream) (n : nat) (box : list (R * R)) : option (list R * nat) :=
  match box with
  | [] => Some ([], n)
  | (a, b) :: box => match rand_real s n a b with
                     | Some (x, n1) => match rand_in_box s n1 box with Some (r, n2) => Some (x :: r, n2) | None => None end
                     | None => None end
  end.
(** 76: the first dim - 1 weights of one attempt *)
Definition attempt (s : stream) (n m : nat) : list R := map (fun i => rand_unit s (n + i)) (seq 0 m).
(** 71-80: randomBarycentricWeights<m + 1> *)
Fixpoint barycentric (s : stream) (n m fuel : nat) : res (list R * nat) :=
  match fuel with
  | O => Fuel
  | S f => let r := attempt s n m in let sum := fold_left Rplus r 0 in
           if Rlt_dec 1 sum then barycentric s (n + m) m f else Val (r ++ [1 - sum], (n + m)%nat)
  end.
(** 89: the squared distance *)
Definition dist_sqr (r c : list R) : R := fold_left Rplus (map (fun p => (fst p - snd p) * (fst p - snd p)) (combine r c)) 0.
(** 86: the corners *)
Definition ball_box (c : list R) (radius : R) : list (R * R) := map (fun x => (x - radius, x + radius)) c.
(** 85-91 *)
Fixpoint rand_in_ball (s : stream) (n : nat) (c : list R) (radius : R) (fuel : nat) : res (list R * nat) :=
  match fuel with
  | O => Fuel
  | S f => match rand_in_box s n (ball_box c radius) with
           | None => Undef
           | Some (r, n') => if Rlt_dec (radius * radius) (dist_sqr r c) then rand_in_ball s n' c radius f else Val (r, n')
           end
  end.
(** 96-101: the rows of the 2D rotation; theta is drawn from [0, 2 pi] *)
Definition rotation2 (theta : R) : (R * R) * (R * R) := ((cos theta, - sin theta), (sin theta, cos theta)).
(** 96-101 *)
Definition rand_rotation (s : stream) (n : nat) : option ((R * R) * (R * R) * nat) :=
  match rand_real s n 0 (2 * PI) with Some (theta, n') => Some (rotation2 theta, n') | None => None end.
