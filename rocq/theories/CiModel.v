(* Model of the invariant-based elasticity of zpc:
     physics/ConstitutiveModel.hpp                       231-616, 659-723, 758-783
     physics/constitutive_models/NeoHookean.hpp          97-197
     physics/constitutive_models/AnisotropicArap.hpp
   Simplifications: exact real arithmetic; sqrt2 is the square root of two; the
   outcome (U, S, V) of math::qr_svd, from which math::polar_decomposition takes
   R = U V^T and S = V diag(S) V^T (QRSVD.hpp 540-560), is an argument.
   StableNeohookeanInvarient::do_first_piola_derivative_spd is not modelled. *)
From Coq Require Import Reals Arith.
From Verif Require Import CmModel.
Local Open Scope R_scope.

(* Vec.h 392-405: vectorize, column-major *)
Definition vectorize (d : nat) (M : mat) : vec := fun n => M (Nat.modulo n d) (Nat.div n d).
(* ConstitutiveModel.hpp 535-537: back to a matrix *)
Definition unvectorize (d : nat) (g : vec) : mat := fun i j => g (j * d + i)%nat.
(* dyadic_prod *)
Definition dyadic (a b : vec) : mat := fun i j => a i * b j.

(* ---- I1 = tr(S), ConstitutiveModel.hpp 281-323 ---- *)
Definition I1_value (d : nat) (S : vec) : R := vsum d S.
Definition I1_gradient (d : nat) (U V : mat) : vec :=
  vectorize d (fun i j => vsum d (fun k => U i k * V j k)).
(* 304, 311-313: the constant matrices T0 (2D) and Ti[0..2] (3D) *)
Definition twist (d n : nat) : mat := fun i j =>
  match d, n, i, j with
  | 2%nat, 0%nat, 0%nat, 1%nat => -1
  | 2%nat, 0%nat, 1%nat, 0%nat => 1
  | 3%nat, 0%nat, 0%nat, 1%nat => -1
  | 3%nat, 0%nat, 1%nat, 0%nat => 1
  | 3%nat, 1%nat, 1%nat, 2%nat => 1
  | 3%nat, 1%nat, 2%nat, 1%nat => -1
  | 3%nat, 2%nat, 0%nat, 2%nat => 1
  | 3%nat, 2%nat, 2%nat, 0%nat => -1
  | _, _, _, _ => 0
  end.
(* 305, 315: vectorize(sqrt2Inv * U * T * V^T) *)
Definition twist_vec (d n : nat) (U V : mat) : vec :=
  vectorize d (fun i j => vsum d (fun k => vsum d (fun l => 1 / sqrt 2 * U i k * twist d n k l * V j l))).
(* 297-322 *)
Definition I1_hessian (d : nat) (U : mat) (S : vec) (V : mat) : mat := fun row col =>
  let term n m := 2 / Rmax (S n + S m) (1 / 1000000)
                  * dyadic (twist_vec d n U V) (twist_vec d n U V) row col in
  match d with
  | 2%nat => term 0%nat 1%nat
  | 3%nat => term 0%nat 1%nat + term 1%nat 2%nat + term 2%nat 0%nat
  | _ => 0
  end.

(* ---- I2 = tr(F^T F), 325-336 ---- *)
Definition I2_value (d : nat) (F : mat) : R :=
  vsum d (fun i => vsum d (fun k => F k i * F k i)).
Definition I2_gradient (d : nat) (F : mat) : vec := vectorize d (fun i j => F i j + F i j).
Definition I2_hessian (row col : nat) : R := if Nat.eqb row col then 1 + 1 else 0.

(* ---- I3 = det F, 338-390.  For dim < 3 the code also reads columns of F past the
   last one (340-342) without using them. ---- *)
Definition I3_value (d : nat) (F : mat) : R :=
  match d with
  | 1%nat => F 0%nat 0%nat
  | 2%nat => F 0%nat 0%nat * F 1%nat 1%nat - F 0%nat 1%nat * F 1%nat 0%nat
  | 3%nat => F 0%nat 0%nat * (F 1%nat 1%nat * F 2%nat 2%nat - F 1%nat 2%nat * F 2%nat 1%nat)
           - F 0%nat 1%nat * (F 1%nat 0%nat * F 2%nat 2%nat - F 1%nat 2%nat * F 2%nat 0%nat)
           + F 0%nat 2%nat * (F 1%nat 0%nat * F 2%nat 1%nat - F 1%nat 1%nat * F 2%nat 0%nat)
  | _ => 0
  end.
(* cross, and col(F, c) *)
Definition cross (a b : vec) : vec := fun i =>
  match i with
  | 0%nat => a 1%nat * b 2%nat - a 2%nat * b 1%nat
  | 1%nat => a 2%nat * b 0%nat - a 0%nat * b 2%nat
  | _ => a 0%nat * b 1%nat - a 1%nat * b 0%nat
  end.
Definition col (F : mat) (c : nat) : vec := fun i => F i c.
(* 344-357 *)
Definition I3_gradient (d : nat) (F : mat) : vec := fun n =>
  match d with
  | 1%nat => 1
  | 2%nat => match n with
             | 0%nat => F 1%nat 1%nat | 1%nat => - F 0%nat 1%nat
             | 2%nat => - F 1%nat 0%nat | _ => F 0%nat 0%nat end
  | 3%nat => match Nat.div n 3 with
             | 0%nat => cross (col F 1) (col F 2) (Nat.modulo n 3)
             | 1%nat => cross (col F 2) (col F 0) (Nat.modulo n 3)
             | _ => cross (col F 0) (col F 1) (Nat.modulo n 3) end
  | _ => 0
  end.
(* Vec.h 376-391: cross_matrix *)
Definition cross_matrix (v : vec) : mat := fun i j =>
  match i, j with
  | 0%nat, 1%nat => - v 2%nat | 0%nat, 2%nat => v 1%nat
  | 1%nat, 0%nat => v 2%nat | 1%nat, 2%nat => - v 0%nat
  | 2%nat, 0%nat => - v 1%nat | 2%nat, 1%nat => v 0%nat
  | _, _ => 0
  end.
(* 361-388 *)
Definition I3_hessian (d : nat) (F : mat) : mat := fun row col_ =>
  match d with
  | 2%nat => match row, col_ with
             | 0%nat, 3%nat => 1 | 1%nat, 2%nat => -1
             | 2%nat, 1%nat => -1 | 3%nat, 0%nat => 1 | _, _ => 0 end
  | 3%nat => let i := Nat.modulo row 3 in let j := Nat.modulo col_ 3 in
             match Nat.div row 3, Nat.div col_ 3 with
             | 2%nat, 1%nat => cross_matrix (col F 0) i j
             | 1%nat, 2%nat => - cross_matrix (col F 0) i j
             | 2%nat, 0%nat => - cross_matrix (col F 1) i j
             | 0%nat, 2%nat => cross_matrix (col F 1) i j
             | 1%nat, 0%nat => cross_matrix (col F 2) i j
             | 0%nat, 1%nat => - cross_matrix (col F 2) i j
             | _, _ => 0 end
  | _ => 0
  end.

(* ---- I5 = a^T F^T F a, 435-453 ---- *)
Definition mat_vec (d : nat) (F : mat) (a : vec) : vec := fun i => vsum d (fun k => F i k * a k).
Definition mat_mul (d : nat) (F A : mat) : mat := fun i j => vsum d (fun k => F i k * A k j).
Definition I5_value (d : nat) (F : mat) (a : vec) : R :=
  vsum d (fun i => mat_vec d F a i * mat_vec d F a i).
Definition I5_gradient (d : nat) (F : mat) (a : vec) : vec :=
  vectorize d (fun i j => mat_mul d F (dyadic a a) i j + mat_mul d F (dyadic a a) i j).
Definition I5_hessian (d : nat) (a : vec) : mat := fun row col =>
  if Nat.eqb (Nat.modulo row d) (Nat.modulo col d)
  then dyadic a a (Nat.div row d) (Nat.div col d) + dyadic a a (Nat.div row d) (Nat.div col d) else 0.

(* ---- models over the invariants, ConstitutiveModel.hpp 458-476 ---- *)
Record inv := Inv { psi_I : vec -> R; dpsi_dI : nat -> vec -> R; d2psi_dI2 : nat -> vec -> R }.
(* NeoHookean.hpp 111-133; dim is the number of invariants, three *)
Definition neo_hookean_invariant (m : lame) : inv := Inv
  (fun Is => 1/2 * mu m * (Is 1%nat - 3) - (mu m - 1/2 * lam m * ln (Is 2%nat)) * ln (Is 2%nat))
  (fun I Is => match I with
     | 1%nat => mu m * (1/2)
     | 2%nat => (lam m * ln (Is 2%nat) - mu m) / Is 2%nat
     | _ => 0 end)
  (fun I Is => match I with
     | 2%nat => (lam m * (1 - ln (Is 2%nat)) + mu m) / (Is 2%nat * Is 2%nat)
     | _ => 0 end).
(* NeoHookean.hpp 148-173 *)
Definition stable_neo_hookean (m : lame) : inv := Inv
  (fun Is => let l2m1 := Is 2%nat - 1 in
     1/2 * mu m * (Is 1%nat - 3) - mu m * l2m1 + 1/2 * lam m * l2m1 * l2m1)
  (fun I Is => match I with
     | 0%nat => 0 | 1%nat => 1/2 * mu m
     | _ => - mu m + lam m * (Is 2%nat - 1) end)
  (fun I Is => match I with 2%nat => lam m | _ => 0 end).
(* 504-509 *)
Definition invariants (d : nat) (F : mat) (S : vec) : vec := fun n =>
  match n with 0%nat => I1_value d S | 1%nat => I2_value d F | _ => I3_value d F end.
(* 503-511 *)
Definition inv_psi (M : inv) (d : nat) (F : mat) (S : vec) : R := psi_I M (invariants d F S).
(* 517-539 *)
Definition inv_first_piola (M : inv) (d : nat) (F U : mat) (S : vec) (V : mat) : mat :=
  let Is := invariants d F S in
  unvectorize d (fun n => dpsi_dI M 0 Is * I1_gradient d U V n
    + dpsi_dI M 1 Is * I2_gradient d F n + dpsi_dI M 2 Is * I3_gradient d F n).
(* 545-565, project_SPD = false *)
Definition inv_first_piola_derivative (M : inv) (d : nat) (F U : mat) (S : vec) (V : mat) : mat := fun r c =>
  let Is := invariants d F S in
  (d2psi_dI2 M 0 Is * dyadic (I1_gradient d U V) (I1_gradient d U V) r c + dpsi_dI M 0 Is * I1_hessian d U S V r c)
  + (d2psi_dI2 M 1 Is * dyadic (I2_gradient d F) (I2_gradient d F) r c + dpsi_dI M 1 Is * I2_hessian r c)
  + (d2psi_dI2 M 2 Is * dyadic (I3_gradient d F) (I3_gradient d F) r c + dpsi_dI M 2 Is * I3_hessian d F r c).

(* NeoHookean.hpp 181-197: StableNeohookeanInvarient::eval_stretching_matrix *)
Definition stretching_matrix (m : lame) (Is s : vec) : mat := fun i j =>
  match i, j with
  | 0%nat, 0%nat => mu m + lam m * Is 2%nat * Is 2%nat / s 0%nat / s 0%nat
  | 1%nat, 1%nat => mu m + lam m * Is 2%nat * Is 2%nat / s 1%nat / s 1%nat
  | 2%nat, 2%nat => mu m + lam m * Is 2%nat * Is 2%nat / s 2%nat / s 2%nat
  | 0%nat, 1%nat | 1%nat, 0%nat => s 2%nat * (lam m * (2 * Is 2%nat - 1) - mu m)
  | 0%nat, 2%nat | 2%nat, 0%nat => s 1%nat * (lam m * (2 * Is 2%nat - 1) - mu m)
  | 1%nat, 2%nat | 2%nat, 1%nat => s 0%nat * (lam m * (2 * Is 2%nat - 1) - mu m)
  | _, _ => 0
  end.

(* ---- AnisotropicArap.hpp; Sp is the symmetric polar factor of F ---- *)
(* 28-32; near_zero compares with [tiny] *)
Definition I4_sign (tiny : R) (d : nat) (Sp : mat) (a : vec) : R :=
  let I4 := vsum d (fun i => a i * mat_vec d Sp a i) in
  if Rle_dec (Rabs I4) tiny then 0 else if Rlt_dec 0 I4 then 1 else -1.
(* 39-43 *)
Definition arap_psi (mu_ tiny : R) (d : nat) (F Sp : mat) (a : vec) : R :=
  let v := sqrt (I5_value d F a) - I4_sign tiny d Sp a in 1/2 * mu_ * v * v.
(* 50-57 *)
Definition arap_first_piola (mu_ tiny : R) (d : nat) (F Sp : mat) (a : vec) : mat := fun i j =>
  let coeff := 1/2 * mu_ * (1 - I4_sign tiny d Sp a / sqrt (I5_value d F a)) in
  coeff * mat_mul d F (dyadic a a) i j.
(* 64-83 *)
Definition arap_first_piola_derivative (mu_ tiny : R) (d : nat) (F Sp : mat) (a : vec) : mat := fun r c =>
  let I5 := I5_value d F a in let g5 := I5_gradient d F a in
  let s := I4_sign tiny d Sp a in let q := sqrt I5 in
  let alpha := 1 - s / q in let beta := (s + s) / (q * I5) in
  let alpha := if Rlt_dec alpha 0 then 0 else alpha in
  let beta := if Rlt_dec beta 0 then 0 else beta in
  mu_ * (alpha * I5_hessian d a r c + beta * dyadic g5 g5 r c).

(* ---- ConstitutiveModel.hpp 662-686: dFdXMatrix, simplices with bdim + 1 vertices
   in dim dimensions.  The loops store v at (j * dim + d, vi * dim + d) and leave
   the rest zero. ---- *)
Definition negative_col_sum (bdim : nat) (DmInv : mat) : vec := fun j =>
  vsum bdim (fun vi => - DmInv vi j).
Definition dFdXMatrix (dim bdim : nat) (DmInv : mat) : mat := fun row col =>
  if Nat.eqb (Nat.modulo row dim) (Nat.modulo col dim) then
    match Nat.div col dim with
    | O => negative_col_sum bdim DmInv (Nat.div row dim)
    | Datatypes.S k => DmInv k (Nat.div row dim)
    end
  else 0.
(* ConstitutiveModel.hpp 687-707 and 709-723: n columns, three rows *)
Definition dFAdF (A : mat) : mat := fun row col =>
  if Nat.eqb (Nat.modulo row 3) (Nat.modulo col 3) then A (Nat.div col 3) (Nat.div row 3) else 0.

(* ---- ConstitutiveModel.hpp 769-773: NACCConfig::mohrColumbFriction, with the
   friction angle the configuration stores in degrees ---- *)
Definition mohr_columb_friction (fa : R) : R :=
  let sin_phi := sin fa in sqrt (2 / 3) * 2 * sin_phi / (3 - sin_phi).
