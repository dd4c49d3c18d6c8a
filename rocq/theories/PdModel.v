(* Model of the Poisson disk sampler, geometry/PoissonDisk.hpp 20-306, and of the
   DenseGrid it keeps its samples in, container/DenseGrid.hpp.
   Simplifications: exact real arithmetic; the conversions of floor and ceil to int do
   not overflow; what the random number generator delivers is an argument: a number k
   for randInt(0, n - 1), which then is k mod n, the vector at which the rejection loop of
   generateRandomPointAroundAnnulus (38-46) stops, and the points of the unit square
   drawn for the first point; the predicate has no side effects; setDistanceByPpc and the
   reading of the data file are left out: minDistance and the data are arguments. *)
From Coq Require Import Reals.
From Verif Require Import Prelude.
Local Open Scope Z_scope.

(* ---- container/DenseGrid.hpp ---- *)
Definition prod (l : list Z) : Z := fold_right Z.mul 1 l.
(* DenseGrid.hpp 8-13 *)
Fixpoint excl_suffix_prod (dims : list Z) : list Z :=
  match dims with [] => [] | _ :: r => prod r :: excl_suffix_prod r end.
Record dense := Dense { weights : list Z; dims : list Z; mem : list Z }.
(* DenseGrid.hpp 18-22 *)
Definition offset (g : dense) (idx : list Z) : Z :=
  fold_right Z.add 0 (map (fun p => fst p * snd p) (combine idx (weights g))).
(* DenseGrid.hpp 24-27: the number of values is weights.prod(); it is an argument, so that
   the rest can also be studied with enough of them *)
Definition storage (dims : list Z) : Z := prod (excl_suffix_prod dims).
Definition make_grid (alloc : list Z -> Z) (ds : list Z) (val : Z) : dense :=
  Dense (excl_suffix_prod ds) ds (repeat val (Z.to_nat (alloc ds))).
(* DenseGrid.hpp 29-30; None: beyond the storage *)
Definition get (g : dense) (idx : list Z) : option Z :=
  if offset g idx <? 0 then None else nth_error (mem g) (Z.to_nat (offset g idx)).
Definition set (g : dense) (idx : list Z) (v : Z) : option dense :=
  if offset g idx <? 0 then None else option_map (Dense (weights g) (dims g)) (upd (mem g) (Z.to_nat (offset g idx)) v).
(* DenseGrid.hpp 32 *)
Definition domain (g : dense) (d : nat) : Z := nth d (dims g) 0.

(* ---- geometry/PoissonDisk.hpp ---- *)
Notation pt := (R * R)%type.
Definition ceil (x : R) : Z := - Int_part (- x).
Definition zrange (lo hi : Z) : list Z := map (fun k => lo + Z.of_nat k) (seq 0 (Z.to_nat (hi - lo))).

Section Sampler.
Variables (minDistance : R) (minCorner maxCorner : pt) (maxAttempts : nat) (periodic : bool) (feasible : pt -> bool).

(* 233 *)
Definition h : R := (minDistance / sqrt 2)%R.
(* 47-51 *)
Definition cell (x : pt) : Z * Z :=
  (Int_part ((fst x - fst minCorner) / h), Int_part ((snd x - snd minCorner) / h)).
Definition norm_sqr (x : pt) : R := (fst x * fst x + snd x * snd x)%R.

(* 94-112, one coordinate: the index and the shift for index i of n *)
Definition wrap (n : Z) (lo hi : R) (i : Z) : Z * R :=
  if i <? 0 then (Z.rem i n + n, (lo - hi)%R)
  else if n <=? i then (Z.rem i n, (hi - lo)%R)
  else (i, 0%R).
(* 80-118: the loops over the neighbours; None: undefined *)
Fixpoint scan (g : dense) (samples : list pt) (p : pt) (cells : list (Z * Z)) : option bool :=
  match cells with
  | [] => Some true
  | (i, j) :: rest =>
    let '(i', sx) := if periodic then wrap (domain g 0) (fst minCorner) (fst maxCorner) i else (i, 0%R) in
    let '(j', sy) := if periodic then wrap (domain g 1) (snd minCorner) (snd maxCorner) j else (j, 0%R) in
    match get g [i'; j'] with
    | None => None
    | Some k =>
      if k =? -1 then scan g samples p rest else
      match nth_error samples (Z.to_nat k) with
      | None => None
      | Some q =>
        if Rlt_dec (norm_sqr (fst p - (fst q + sx), snd p - (snd q + sy))%R) (minDistance * minDistance)
        then Some false else scan g samples p rest
      end
    end
  end.
(* 57-122 *)
Definition check_distance (p : pt) (g : dense) (samples : list pt) : option bool :=
  let '(i, j) := cell p in
  if (i <? 0) || (domain g 0 <=? i) || (j <? 0) || (domain g 1 <=? j) then Some false else
  match get g [i; j] with
  | None => None
  | Some c =>
    if negb (c =? -1) then Some false else
    scan g samples p
      (if periodic then list_prod (zrange (i - 2) (i + 3)) (zrange (j - 2) (j + 3))
       else list_prod (zrange (Z.max 0 (i - 2)) (Z.min (domain g 0) (i + 3)))
                      (zrange (Z.max 0 (j - 2)) (Z.min (domain g 1) (j + 3))))
  end.

(* 276-283, one coordinate *)
Definition pull (lo hi x : R) : R :=
  if Rlt_dec x lo then (x + (hi - lo))%R else if Rlt_dec hi x then (x - (hi - lo))%R else x.
(* 43, 273-283: the candidate for the annulus vector v *)
Definition candidate (center v : pt) : pt :=
  let x := (fst v * (minDistance * 2) + fst center)%R in
  let y := (snd v * (minDistance * 2) + snd center)%R in
  if periodic then (pull (fst minCorner) (fst maxCorner) x, pull (snd minCorner) (snd maxCorner) y) else (x, y).

(** the variables of the loop (PoissonDisk.hpp 257-300) *)
Record state := State { samples : list pt; active : list nat; grid : dense }.
(* 285-296; the flag is found_at_least_one *)
Definition attempt (center : pt) (v : pt) (s : state) (found : bool) : option (state * bool) :=
  let p := candidate center v in
  if negb (feasible p) then Some (s, found) else
  match check_distance p (grid s) (samples s) with
  | None => None
  | Some false => Some (s, found)
  | Some true =>
    let index := length (samples s) in
    match set (grid s) [fst (cell p); snd (cell p)] (Z.of_nat index) with
    | Some g => Some (State (samples s ++ [p]) (active s ++ [index]) g, true)
    | None => None
    end
  end.
Fixpoint attempts (center : pt) (vs : list pt) (s : state) (found : bool) : option (state * bool) :=
  match vs with
  | [] => Some (s, found)
  | v :: r => match attempt center v s found with Some (s', f) => attempts center r s' f | None => None end
  end.
(* 265: std::iter_swap with the last element *)
Definition swap_last (k : nat) (l : list nat) : option (list nat) :=
  match nth_error l k with
  | Some x => match upd l k (last l 0%nat) with Some l' => upd l' (length l - 1) x | None => None end
  | None => None
  end.
(* 257-300: one pass of the loop with a non-empty active list *)
Definition round (k : nat) (vs : list pt) (s : state) : option state :=
  let random_index := Nat.modulo k (length (active s)) in
  match nth_error (active s) random_index, swap_last random_index (active s) with
  | Some a, Some act =>
    match nth_error (samples s) a with
    | Some center =>
      match attempts center vs (State (samples s) act (grid s)) false with
      | Some (s', true) => Some s'
      | Some (s', false) => Some (State (samples s') (removelast (active s')) (grid s'))
      | None => None
      end
    | None => None
    end
  | _, _ => None
  end.

(** scaffolding: how the sampler ends (PoissonDisk.hpp 20-306) *)
Inductive outcome := Undefined | Running | Finished (l : list pt).
(* [draw n] is what the generator delivers in round n: a number and the annulus vectors *)
Fixpoint rounds (draw : nat -> nat * (nat -> pt)) (n fuel : nat) (s : state) : outcome :=
  match active s with
  | [] => Finished (samples s)
  | _ :: _ =>
    match fuel with
    | O => Running
    | S f =>
      match round (fst (draw n)) (map (snd (draw n)) (seq 0 maxAttempts)) s with
      | Some s' => rounds draw (S n) f s'
      | None => Undefined
      end
    end
  end.
(* 240-241 *)
Definition cell_numbers : list Z :=
  [ceil ((fst maxCorner - fst minCorner) / h); ceil ((snd maxCorner - snd minCorner) / h)].
(* 249-253; None: still looking *)
Definition first_point (draws : list pt) : option pt :=
  find feasible ((1/2 * (fst maxCorner + fst minCorner), 1/2 * (snd maxCorner + snd minCorner))%R
    :: map (fun r => (fst minCorner + (fst maxCorner - fst minCorner) * fst r,
                      snd minCorner + (snd maxCorner - snd minCorner) * snd r)%R) draws).
(* 232-303; 244-245 prints the value at (2, 3) *)
Definition sample2 (alloc : list Z -> Z) (draws : list pt) (draw : nat -> nat * (nat -> pt)) (fuel : nat) : outcome :=
  let g := make_grid alloc cell_numbers (-1) in
  match get g [2; 3] with
  | None => Undefined
  | Some _ =>
    match first_point draws with
    | None => Running
    | Some p =>
      match set g [fst (cell p); snd (cell p)] 0 with
      | Some g => rounds draw 0 fuel (State [p] [0%nat] g)
      | None => Undefined
      end
    end
  end.
End Sampler.

(* ---- three dimensions, 137-230: copies of a reference set of side 120 ---- *)
Record pt3 := Pt3 { x0 : R; x1 : R; x2 : R }.
Section Sampler3.
Variables (minDistance : R) (minCorner maxCorner : pt3) (feasible : pt3 -> bool).
Definition box_length : R := (120 * minDistance)%R.
(* 142-143 *)
Definition offset_number (side : R) : Z := ceil (side / box_length) + 1.
(* 189-195 *)
Definition shifted (q : pt3) (k : Z * Z * Z) : pt3 :=
  let '(a, b, c) := k in
  Pt3 (minDistance * x0 q + x0 minCorner + IZR a * box_length)
      (minDistance * x1 q + x1 minCorner + IZR b * box_length)
      (minDistance * x2 q + x2 minCorner + IZR c * box_length).
(* 196-199 *)
Definition inside (p : pt3) : bool :=
  let out x lo hi := if Rlt_dec x lo then true else if Rlt_dec hi x then true else false in
  negb (out (x0 p) (x0 minCorner) (x0 maxCorner) || out (x1 p) (x1 minCorner) (x1 maxCorner)
        || out (x2 p) (x2 minCorner) (x2 maxCorner)).
(* 187-204: the copies of one point *)
Definition copies (q : pt3) : list pt3 :=
  filter (fun p => feasible p && inside p)
    (map (shifted q)
       (list_prod (list_prod (zrange 0 (offset_number (x0 maxCorner - x0 minCorner)))
                             (zrange 0 (offset_number (x1 maxCorner - x1 minCorner))))
                  (zrange 0 (offset_number (x2 maxCorner - x2 minCorner))))).
(* 183-184: the points i = id, id + nworkers, ... *)
Definition share (nworkers id : nat) (data : list pt3) : list pt3 :=
  flat_map (fun i => match nth_error data i with Some q => [q] | None => [] end)
    (filter (fun i => Nat.eqb (Nat.modulo i nworkers) id) (seq 0 (length data))).
(* 175-208; nworkers is hardware_concurrency() *)
Definition sample3 (nworkers : nat) (data : list pt3) : list pt3 :=
  flat_map (fun id => flat_map copies (share nworkers id data)) (seq 0 nworkers).
End Sampler3.
