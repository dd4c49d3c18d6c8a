(* Interpolation kernels and the grid stencil ("arena") built on them.

   math/curve/InterpolationKernel.hpp, ZpcMathUtils.hpp (lower_trunc,
   linear_interop) and math/VecInterface.hpp (xlerp).

   SIMPLIFICATION (whole file): the floating-point type T is replaced by exact
   rational arithmetic; integer coordinates are unbounded; a vec is a list with
   one entry per dimension; sqrt is a parameter [sq] (any function with the few
   properties the theorems ask for). *)
From Coq Require Import QArith Qround Qabs List.
Import ListNotations.
Open Scope Q_scope.

(* ZpcMathUtils.hpp 1810-1814: lower_trunc of a floating-point value, floor. *)
Definition lower_trunc (v : Q) : Z := Qfloor v.

(* ZpcMathUtils.hpp 1779-1782 linear_interop. *)
Definition linear_interop (alpha a b : Q) : Q := a + (b - a) * alpha.

(* InterpolationKernel.hpp 46-55 base_node<interpolation_degree>. *)
Definition base_node (deg : nat) (x : Q) : Z :=
  let offset := (1#2) * inject_Z (Z.of_nat deg) in lower_trunc (x - offset).

(* kernel_e of the arena (lines 283-303). *)
Inductive kernel := Linear | Quadratic | Cubic | Delta2 | Delta3 | Delta4.

(* lines 284-292: GridArena::width. *)
Definition width (kt : kernel) : nat :=
  match kt with Linear | Delta2 => 2 | Quadratic | Delta3 => 3 | Cubic | Delta4 => 4 end.

(* lines 324-327, 348-351: lerp_degree in both index-space constructors. *)
Definition lerp_degree (kt : kernel) : nat :=
  match kt with Linear | Delta2 => 0 | Quadratic | Delta3 => 1 | Cubic | Delta4 => 2 end.

(* One row (one dimension i) of the pads filled by the weight functions:
   weights, first and second derivative weights (order == 2). *)
Record row := mkRow { w0s : list Q; w1s : list Q; w2s : list Q }.

(* lines 57-89 linear_bspline_weights, body of the loop over i. *)
Definition linear_row (x : Q) : row :=
  let dx := x - inject_Z (base_node 0 x) in
  mkRow [1 - dx; dx] [-(1); 1] [0; 0].

(* lines 91-128 quadratic_bspline_weights. *)
Definition quadratic_row (x : Q) : row :=
  let d0 := x - inject_Z (base_node 1 x) in
  let d1 := d0 - 1 in
  let zz := (1#2) + d1 in
  mkRow [ (1#2) * ((3#2) - d0) * ((3#2) - d0); (3#4) - d1 * d1; (1#2) * zz * zz ]
        [ d0 - (3#2); -(d1 + d1); zz ]
        [ 1; -(2); 1 ].

(* lines 130-178 cubic_bspline_weights. *)
Definition cubic_row (x : Q) : row :=
  let d0 := x - inject_Z (base_node 2 x) in
  let z := 2 - d0 in
  let z3 := z * z * z in
  let d1 := d0 - 1 in
  let d2 := 1 - d1 in
  let d3 := 1 + d2 in
  let zzzz := 2 - d3 in
  mkRow [ z3 / 6;
          ((1#2) * d1 - 1) * d1 * d1 + 2 / 3;
          ((1#2) * d2 - 1) * d2 * d2 + 2 / 3;
          zzzz * zzzz * zzzz / 6 ]
        [ (-1#2) * z * z;
          ((3#2) * d1 - 2) * d1;
          ((-3#2) * d2 + 2) * d2;
          (1#2) * zzzz * zzzz ]
        [ 2 - d0;
          -(2) + 3 * (d0 - 1);
          -(2) + 3 * (2 - d0);
          -(1) + d0 ].

(* C++ a <= b and a < b on values. *)
Definition qle (a b : Q) : bool := Qle_bool a b.
Definition qlt (a b : Q) : bool := negb (Qle_bool b a).

Section Sqrt.
Variable sq : Q -> Q.

(* lines 180-205 delta_2point_weights. *)
Definition delta2_weight (r : Q) : Q := if qlt r 1 then 1 - r else 0.

(* lines 207-236 delta_3point_weights. *)
Definition delta3_weight (r : Q) : Q :=
  if qle r (1#2) then 1 / 3 * (1 + sq (-(3) * r * r + 1))
  else if andb (qlt (1#2) r) (qlt r (3#2))
       then 1 / 6 * (5 - 3 * r - sq (-(3) * (1 - r) * (1 - r) + 1))
       else 0.

(* lines 238-267 delta_4point_weights. *)
Definition delta4_weight (r : Q) : Q :=
  if qle r 1 then 1 / 8 * (3 - 2 * r + sq (1 + 4 * r - 4 * r * r))
  else if andb (qlt 1 r) (qlt r 2)
       then 1 / 8 * (5 - 2 * r - sq (-(7) + 12 * r - 4 * r * r))
       else 0.

(* the loops over off: r = abs(x(i) - (base + off)). *)
Definition delta_row (weight : Q -> Q) (deg n : nat) (x : Q) : row :=
  let base := inject_Z (base_node deg x) in
  mkRow (map (fun off => weight (Qabs (x - (base + inject_Z (Z.of_nat off))))) (seq 0 n)) [] [].

(* lines 331-342, 357-368: which weight function an arena uses. *)
Definition row_of (kt : kernel) (x : Q) : row :=
  match kt with
  | Linear => linear_row x
  | Quadratic => quadratic_row x
  | Cubic => cubic_row x
  | Delta2 => delta_row delta2_weight 0 2 x
  | Delta3 => delta_row delta3_weight 1 3 x
  | Delta4 => delta_row delta4_weight 2 4 x
  end.

(* GridArena (lines 271-282, 516-519): weights, iLocalPos and iCorner. *)
Record arena := mkArena { pads : list row; iLocalPos : list Q; iCorner : list Z }.

(* lines 318-343: index-space constructor, collocated grid. *)
Definition arena_collocated (kt : kernel) (X : list Q) : arena :=
  let corner := map (base_node (lerp_degree kt)) X in
  let loc := map (fun xc => fst xc - inject_Z (snd xc)) (combine X corner) in
  mkArena (map (row_of kt) loc) loc corner.

(* lines 352-354: delta, -0.5 in dimension f % dim, 0 elsewhere. *)
Definition face_delta (dim f d : nat) : Q := if Nat.eqb d (Nat.modulo f dim) then -1#2 else 0.

(* lines 344-369: index-space constructor, staggered grid, face f. *)
Definition arena_staggered (kt : kernel) (X : list Q) (f : nat) : arena :=
  let dim := length X in
  let ds := map (face_delta dim f) (seq 0 dim) in
  let corner := map (fun xd => base_node (lerp_degree kt) (fst xd - snd xd)) (combine X ds) in
  let loc := map (fun xcd => fst xcd - (inject_Z (fst (snd xcd)) + snd (snd xcd)))
                 (combine X (combine corner ds)) in
  mkArena (map (row_of kt) loc) loc corner.

(* ndrange<dim>(width): every offset, first dimension slowest (C-Collapse). *)
Fixpoint ndrange (dim w : nat) : list (list nat) :=
  match dim with
  | O => [[]]
  | S d => flat_map (fun i => map (cons i) (ndrange d w)) (seq 0 w)
  end.

(* lines 410-422 coord: iCorner + offset. *)
Definition coord (a : arena) (off : list nat) : list Z :=
  map (fun ci => (fst ci + Z.of_nat (snd ci))%Z) (combine (iCorner a) off).

(* lines 523-530, 548-555 weight_impl: ret = 1, ret *= w(Is, loc_Is) in order. *)
Definition weight (a : arena) (off : list nat) : Q :=
  fold_left (fun ret ri => ret * nth (snd ri) (w0s (fst ri)) 0) (combine (pads a) off) 1.

(* lines 531-540, 556-565 weightGradient_impl<I>. *)
Definition weightGradient (a : arena) (i : nat) (off : list nat) : Q :=
  fold_left (fun ret dri =>
      ret * (if Nat.eqb i (fst dri)
             then nth (snd (snd dri)) (w1s (fst (snd dri))) 0
             else nth (snd (snd dri)) (w0s (fst (snd dri))) 0))
    (combine (seq 0 (length (pads a))) (combine (pads a) off)) 1.

(* VecInterface.hpp 1042-1049 xlerp: arena[0] and arena[1] fix the first
   coordinate of the pad. *)
Fixpoint xlerp (diff : list Q) (pad : list nat -> Q) : Q :=
  match diff with
  | [] => pad []
  | d :: ds => linear_interop d (xlerp ds (fun o => pad (0%nat :: o)))
                                (xlerp ds (fun o => pad (1%nat :: o)))
  end.

(* lines 381-401 arena(chn): the values of the stencil's nodes; [value] is the
   grid's lookup at an integer coordinate (the default already applied). *)
Definition pad_of (a : arena) (value : list Z -> Q) (off : list nat) : Q := value (coord a off).

(* lines 449-458 isample. *)
Definition isample (kt : kernel) (a : arena) (value : list Z -> Q) : Q :=
  let pad := pad_of a value in
  match kt with
  | Linear => xlerp (iLocalPos a) pad
  | _ => fold_left (fun ret off => ret + weight a off * pad off)
                   (ndrange (length (pads a)) (width kt)) 0
  end.

(* lines 425-431, 437-443 minimum / maximum over the stencil.  The numeric
   limits the loops start from are [None] here: no value yet. *)
Definition best (lt : Q -> Q -> bool) (ret : option Q) (v : Q) : option Q :=
  match ret with None => Some v | Some r => if lt v r then Some v else Some r end.
Definition minimum (kt : kernel) (a : arena) (value : list Z -> Q) : option Q :=
  fold_left (best qlt) (map (pad_of a value) (ndrange (length (pads a)) (width kt))) None.
Definition maximum (kt : kernel) (a : arena) (value : list Z -> Q) : option Q :=
  fold_left (best (fun v r => qlt r v)) (map (pad_of a value) (ndrange (length (pads a)) (width kt))) None.
End Sqrt.

(* lines 12-21 bspline_weight(p, dx_inv): the older quadratic weights. *)
Definition bspline_weight (p dx_inv : Q) : list Q :=
  let d := p * dx_inv - (inject_Z (lower_trunc (p * dx_inv + (1#2))) - 1) in
  let dw0 := (1#2) * ((3#2) - d) * ((3#2) - d) in
  let d := d - 1 in
  let dw1 := (3#4) - d * d in
  let d := (1#2) + d in
  [dw0; dw1; (1#2) * d * d].
