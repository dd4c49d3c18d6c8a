(* Model of the isotropic elasticity models of zpc:
     physics/ConstitutiveModel.hpp                     35-46, 106-222
     physics/constitutive_models/FixedCorotated.h
     physics/constitutive_models/StvkWithHencky.hpp
     physics/constitutive_models/NeoHookean.hpp        6-95
     physics/constitutive_models/EquationOfState.hpp
     ZpcMathUtils.hpp                                  1743-1774
   Simplifications: arithmetic is exact (the real numbers instead of float or
   double); a logarithm or quotient outside its domain, where the code yields NaN
   or an infinity, is Coq's total [ln] or [/], so theorems about it state the
   domain; vectors and matrices are functions of their indices, read only at
   indices below the dimension; the outcome (U, S, V) of math::svd is an argument,
   since the decomposition is modelled on its own in SvdModel.v. *)
From Coq Require Import Reals Arith List.
Import ListNotations.
Local Open Scope R_scope.

(** a vec of components (VecInterface.hpp 232-238) *)
Definition vec := nat -> R.
(** a matrix by row and column (VecInterface.hpp 189-196) *)
Definition mat := nat -> nat -> R.

(* Vec.h / VecInterface.hpp: sum and prod of the first d entries *)
Fixpoint vsum (d : nat) (f : vec) : R :=
  match d with O => 0 | S k => vsum k f + f k end.
Fixpoint vprod (d : nat) (f : vec) : R :=
  match d with O => 1 | S k => vprod k f * f k end.

(** the pair (mu, lam) of ConstitutiveModel.hpp 35-37 *)
Record lame := Lame { mu : R; lam : R }.

(* ConstitutiveModel.hpp 35-39 *)
Definition lame_parameters (E nu : R) : lame :=
  Lame (1/2 * E / (1 + nu)) (E * nu / ((1 + nu) * (1 - 2 * nu))).
(* ConstitutiveModel.hpp 40-45 *)
Definition E_nu_from_lame_parameters (m l : R) : R * R :=
  let lam_mu := l + m in
  (m * (3 * l + 2 * m) / lam_mu, l / (2 * lam_mu)).

(* What a model supplies to IsotropicConstitutiveModelInterface
   (ConstitutiveModel.hpp 59-84) in dimension d. *)
Record iso := Iso {
  psi_sigma : nat -> vec -> R;
  dpsi_dsigma : nat -> vec -> vec;
  d2psi_dsigma2 : nat -> vec -> mat;
  Bij_neg_coeff : nat -> vec -> vec
}.

(* ---------------- FixedCorotated.h ---------------- *)
(* FixedCorotated.h 23-26 *)
Definition fc_psi (m : lame) (d : nat) (S : vec) : R :=
  let S_sum_m1 := vprod d S - 1 in
  mu m * vsum d (fun i => (S i - 1) * (S i - 1)) + 1/2 * lam m * S_sum_m1 * S_sum_m1.
(* FixedCorotated.h 34-44, 60-62, 66-69: the products of the other stretches *)
Definition fc_S_prod_i (d : nat) (S : vec) (i : nat) : R :=
  match d, i with
  | 1%nat, 0%nat => 1
  | 2%nat, 0%nat => S 1%nat
  | 2%nat, 1%nat => S 0%nat
  | 3%nat, 0%nat => S 1%nat * S 2%nat
  | 3%nat, 1%nat => S 0%nat * S 2%nat
  | 3%nat, 2%nat => S 0%nat * S 1%nat
  | _, _ => 0
  end.
(* FixedCorotated.h 30-46 *)
Definition fc_dpsi (m : lame) (d : nat) (S : vec) : vec := fun i =>
  (mu m + mu m) * (S i - 1) + lam m * (vprod d S - 1) * fc_S_prod_i d S i.
(* FixedCorotated.h 50-81 *)
Definition fc_d2psi (m : lame) (d : nat) (S : vec) : mat := fun i j =>
  let q := fc_S_prod_i d S in
  let S_prod := vprod d S in
  let _2mu := mu m + mu m in
  match d, i, j with
  | 1%nat, 0%nat, 0%nat => 1
  | 2%nat, 0%nat, 0%nat => _2mu + lam m * q 0%nat * q 0%nat
  | 2%nat, 1%nat, 1%nat => _2mu + lam m * q 1%nat * q 1%nat
  | 2%nat, 0%nat, 1%nat | 2%nat, 1%nat, 0%nat =>
      lam m * ((S_prod - 1) + q 0%nat * q 1%nat)
  | 3%nat, 0%nat, 0%nat => _2mu + lam m * q 0%nat * q 0%nat
  | 3%nat, 1%nat, 1%nat => _2mu + lam m * q 1%nat * q 1%nat
  | 3%nat, 2%nat, 2%nat => _2mu + lam m * q 2%nat * q 2%nat
  | 3%nat, 0%nat, 1%nat | 3%nat, 1%nat, 0%nat =>
      lam m * (S 2%nat * (S_prod - 1) + q 0%nat * q 1%nat)
  | 3%nat, 0%nat, 2%nat | 3%nat, 2%nat, 0%nat =>
      lam m * (S 1%nat * (S_prod - 1) + q 0%nat * q 2%nat)
  | 3%nat, 1%nat, 2%nat | 3%nat, 2%nat, 1%nat =>
      lam m * (S 0%nat * (S_prod - 1) + q 1%nat * q 2%nat)
  | _, _, _ => 0
  end.
(* FixedCorotated.h 87-103 *)
Definition fc_bneg (m : lame) (d : nat) (S : vec) : vec := fun k =>
  let S_prod := vprod d S in
  match d, k with
  | 2%nat, 0%nat => mu m - 1/2 * lam m * (S_prod - 1)
  | 3%nat, 0%nat => mu m - 1/2 * lam m * S 2%nat * (S_prod - 1)
  | 3%nat, 1%nat => mu m - 1/2 * lam m * S 0%nat * (S_prod - 1)
  | 3%nat, 2%nat => mu m - 1/2 * lam m * S 1%nat * (S_prod - 1)
  | _, _ => 0
  end.
Definition fixed_corotated (m : lame) : iso :=
  Iso (fc_psi m) (fc_dpsi m) (fc_d2psi m) (fc_bneg m).

(* ---------------- StvkWithHencky.hpp ---------------- *)
(* S.abs().log(), StvkWithHencky.hpp 24, 35, 46, 79 *)
Definition s_log (S : vec) : vec := fun i => ln (Rabs (S i)).
(* StvkWithHencky.hpp 23-27 *)
Definition hk_psi (m : lame) (d : nat) (S : vec) : R :=
  let S_log_trace := vsum d (s_log S) in
  mu m * vsum d (fun i => s_log S i * s_log S i) + 1/2 * lam m * S_log_trace * S_log_trace.
(* StvkWithHencky.hpp 31-38 *)
Definition hk_dpsi (m : lame) (d : nat) (S : vec) : vec := fun i =>
  ((mu m + mu m) * s_log S i + lam m * vsum d (s_log S)) / S i.
(* StvkWithHencky.hpp 42-65 *)
Definition hk_d2psi (m : lame) (d : nat) (S : vec) : mat := fun i j =>
  let _1_m_S_log_trace := 1 - vsum d (s_log S) in
  if Nat.eqb i j
  then ((mu m + mu m) * (1 - s_log S i) + lam m * _1_m_S_log_trace) / (S i * S i)
  else lam m / (S i * S j).
(* std::log1p *)
Definition log1p (x : R) : R := ln (1 + x).
(* ZpcMathUtils.hpp 1743-1753 *)
Definition log_1px_over_x (x eps : R) : R :=
  if Rlt_dec (Rabs x) eps then 1 - x / 2 + x * x / 3 - x * x * x / 4 else log1p x / x.
(* ZpcMathUtils.hpp 1757-1762 *)
Definition diff_log_over_diff (x y eps : R) : R := log_1px_over_x (x / y - 1) eps / y.
(* ZpcMathUtils.hpp 1766-1773 *)
Definition diff_interlock_log_over_diff (x y logy eps : R) : R :=
  logy - y * diff_log_over_diff x y eps.
(* StvkWithHencky.hpp 80 *)
Definition hk_eps : R := 1 / 1000000.
(* StvkWithHencky.hpp 81-87 *)
Definition hk_bneg2 (m : lame) (S : vec) : R :=
  let q := Rmax (S 0%nat / S 1%nat - 1) (-1 + hk_eps) in
  let h := if Rlt_dec (Rabs q) hk_eps then 1 else log1p q / q in
  let t := h / S 1%nat in
  let z := s_log S 1%nat - t * S 1%nat in
  - (lam m * (s_log S 0%nat + s_log S 1%nat) + (mu m + mu m) * z) / vprod 2 S * (1/2).
(* StvkWithHencky.hpp 88-102: the coefficient of the pair (a, b) *)
Definition hk_bneg3 (m : lame) (S : vec) (a b : nat) : R :=
  - (lam m * vsum 3 (s_log S)
     + (mu m + mu m) * diff_interlock_log_over_diff (S a) (Rabs (S b)) (s_log S b) hk_eps)
  / (S a * S b) * (1/2).
(* StvkWithHencky.hpp 71-104 *)
Definition hk_bneg (m : lame) (d : nat) (S : vec) : vec := fun k =>
  match d, k with
  | 2%nat, 0%nat => hk_bneg2 m S
  | 3%nat, 0%nat => hk_bneg3 m S 0 1
  | 3%nat, 1%nat => hk_bneg3 m S 1 2
  | 3%nat, 2%nat => hk_bneg3 m S 0 2
  | _, _ => 0
  end.
Definition stvk_hencky (m : lame) : iso :=
  Iso (hk_psi m) (hk_dpsi m) (hk_d2psi m) (hk_bneg m).

(* ---------------- NeoHookean.hpp ---------------- *)
(* NeoHookean.hpp 24-31 *)
Definition nh_psi (m : lame) (d : nat) (S : vec) : R :=
  let S_prod_log := ln (vprod d S) in
  1/2 * mu m * (vsum d (fun i => S i * S i) - INR d)
  - (mu m - 1/2 * lam m * S_prod_log) * S_prod_log.
(* NeoHookean.hpp 36-43 *)
Definition nh_dpsi (m : lame) (d : nat) (S : vec) : vec := fun i =>
  let S_prod_log := ln (vprod d S) in
  mu m * (S i - 1 / S i) + lam m * (1 / S i) * S_prod_log.
(* NeoHookean.hpp 48-69 *)
Definition nh_d2psi (m : lame) (d : nat) (S : vec) : mat := fun i j =>
  let S_prod_log := ln (vprod d S) in
  if Nat.eqb i j
  then mu m * (1 + 1 / (S i * S i)) - lam m * (1 / (S i * S i)) * (S_prod_log - 1)
  else lam m / (S i * S j).
(* NeoHookean.hpp 76-94 *)
Definition nh_bneg (m : lame) (d : nat) (S : vec) : vec := fun k =>
  let S_prod := vprod d S in
  let tmp := mu m - lam m * ln S_prod in
  match d, k with
  | 2%nat, 0%nat => (mu m + (mu m - lam m * ln S_prod) / S_prod) * (1/2)
  | 3%nat, 0%nat => (mu m + tmp / (S 0%nat * S 1%nat)) * (1/2)
  | 3%nat, 1%nat => (mu m + tmp / (S 1%nat * S 2%nat)) * (1/2)
  | 3%nat, 2%nat => (mu m + tmp / (S 2%nat * S 0%nat)) * (1/2)
  | _, _ => 0
  end.
Definition neo_hookean (m : lame) : iso :=
  Iso (nh_psi m) (nh_dpsi m) (nh_d2psi m) (nh_bneg m).

(* ---------------- the shared interface ---------------- *)
(* Vec.h 664-673 and the product with V.transpose(): diag_mul(U, s) * V^T *)
Definition compose (d : nat) (U : mat) (s : vec) (V : mat) : mat := fun i j =>
  vsum d (fun k => U i k * s k * V j k).

(* ConstitutiveModel.hpp 107-114 *)
Definition psi (M : iso) (d : nat) (S : vec) : R := psi_sigma M d S.
(* ConstitutiveModel.hpp 116-124 *)
Definition first_piola (M : iso) (d : nat) (U : mat) (S : vec) (V : mat) : mat :=
  compose d U (dpsi_dsigma M d S) V.

(* ConstitutiveModel.hpp 144-154: ComputeBij *)
Definition compute_Bij (M : iso) (d : nat) (S : vec) (i : nat) : mat :=
  let j := Nat.modulo (i + 1) d in
  let dE := dpsi_dsigma M d S in
  let leftCoeff := Bij_neg_coeff M d S i in
  let rightDenom := Rmax (S i + S j) (1 / 1000000) in
  let rightCoeff := (dE i + dE j) / (rightDenom + rightDenom) in
  fun a b => if Nat.eqb a b then leftCoeff + rightCoeff else leftCoeff - rightCoeff.

(* ConstitutiveModel.hpp 182-203: the summands for rows i, j and columns r, s *)
Definition entry3 (A B0 B1 B2 : mat) (U V : mat) (i j r s : nat) : R :=
    A 0%nat 0%nat * U i 0%nat * V j 0%nat * U r 0%nat * V s 0%nat
  + A 0%nat 1%nat * U i 0%nat * V j 0%nat * U r 1%nat * V s 1%nat
  + A 0%nat 2%nat * U i 0%nat * V j 0%nat * U r 2%nat * V s 2%nat
  + A 1%nat 0%nat * U i 1%nat * V j 1%nat * U r 0%nat * V s 0%nat
  + A 1%nat 1%nat * U i 1%nat * V j 1%nat * U r 1%nat * V s 1%nat
  + A 1%nat 2%nat * U i 1%nat * V j 1%nat * U r 2%nat * V s 2%nat
  + A 2%nat 0%nat * U i 2%nat * V j 2%nat * U r 0%nat * V s 0%nat
  + A 2%nat 1%nat * U i 2%nat * V j 2%nat * U r 1%nat * V s 1%nat
  + A 2%nat 2%nat * U i 2%nat * V j 2%nat * U r 2%nat * V s 2%nat
  + B0 0%nat 0%nat * U i 0%nat * V j 1%nat * U r 0%nat * V s 1%nat
  + B0 0%nat 1%nat * U i 0%nat * V j 1%nat * U r 1%nat * V s 0%nat
  + B0 1%nat 0%nat * U i 1%nat * V j 0%nat * U r 0%nat * V s 1%nat
  + B0 1%nat 1%nat * U i 1%nat * V j 0%nat * U r 1%nat * V s 0%nat
  + B1 0%nat 0%nat * U i 1%nat * V j 2%nat * U r 1%nat * V s 2%nat
  + B1 0%nat 1%nat * U i 1%nat * V j 2%nat * U r 2%nat * V s 1%nat
  + B1 1%nat 0%nat * U i 2%nat * V j 1%nat * U r 1%nat * V s 2%nat
  + B1 1%nat 1%nat * U i 2%nat * V j 1%nat * U r 2%nat * V s 1%nat
  + B2 1%nat 1%nat * U i 0%nat * V j 2%nat * U r 0%nat * V s 2%nat
  + B2 1%nat 0%nat * U i 0%nat * V j 2%nat * U r 2%nat * V s 0%nat
  + B2 0%nat 1%nat * U i 2%nat * V j 0%nat * U r 0%nat * V s 2%nat
  + B2 0%nat 0%nat * U i 2%nat * V j 0%nat * U r 2%nat * V s 0%nat.
(* ConstitutiveModel.hpp 215-223 *)
Definition entry2 (A B : mat) (U V : mat) (i j r s : nat) : R :=
    A 0%nat 0%nat * U i 0%nat * V j 0%nat * U r 0%nat * V s 0%nat
  + A 0%nat 1%nat * U i 0%nat * V j 0%nat * U r 1%nat * V s 1%nat
  + B 0%nat 0%nat * U i 0%nat * V j 1%nat * U r 0%nat * V s 1%nat
  + B 0%nat 1%nat * U i 0%nat * V j 1%nat * U r 1%nat * V s 0%nat
  + B 1%nat 0%nat * U i 1%nat * V j 0%nat * U r 0%nat * V s 1%nat
  + B 1%nat 1%nat * U i 1%nat * V j 0%nat * U r 1%nat * V s 0%nat
  + A 1%nat 0%nat * U i 1%nat * V j 1%nat * U r 0%nat * V s 0%nat
  + A 1%nat 1%nat * U i 1%nat * V j 1%nat * U r 1%nat * V s 1%nat.

(* ConstitutiveModel.hpp 126-226: first_piola_derivative.  [pd] is make_pd when
   project_SPD is set and the identity otherwise; make_pd is modelled in
   EigModel.v.  Row ji = j * dim + i stands for entry (i, j) of P, column
   sr = s * dim + r for entry (r, s) of F; the loops compute the entries with
   sr <= ji and store each of them at (ji, sr) and (sr, ji).  For dim = 1 the code
   does not compile (Bij_neg_coeff requires dim 2 or 3), so no case for it. *)
Definition first_piola_derivative (pd : nat -> mat -> mat) (M : iso) (d : nat)
    (U : mat) (S : vec) (V : mat) : mat := fun row col =>
  let A := pd d (d2psi_dsigma2 M d S) in
  let B i := pd 2%nat (compute_Bij M d S i) in
  let ji := Nat.max row col in
  let sr := Nat.min row col in
  let j := Nat.div ji d in let i := (ji - j * d)%nat in
  let s := Nat.div sr d in let r := (sr - s * d)%nat in
  match d with
  | 3%nat => entry3 A (B 0%nat) (B 1%nat) (B 2%nat) U V i j r s
  | 2%nat => entry2 A (B 0%nat) U V i j r s
  | _ => 0
  end.
(* project_SPD = false *)
Definition keep : nat -> mat -> mat := fun _ B => B.

(* ---------------- EquationOfState.hpp ---------------- *)
Record eos := Eos { bulk : R; gamma : R }.
(* EquationOfState.hpp 16-17 *)
Definition make_eos (E nu gamma : R) : eos := Eos (E / (3 - 6 * nu)) 7.
(* EquationOfState.hpp 20-25 *)
Definition eos_psi (e : eos) (J : R) : R :=
  let J2 := J * J in let J6 := J2 * J2 * J2 in
  bulk e * (1 / 6 / J6 + J).
(* EquationOfState.hpp 27-33 *)
Definition eos_first_piola (e : eos) (J : R) : R :=
  let J2 := J * J in let J4 := J2 * J2 in let J7 := J4 * J2 * J in
  bulk e - bulk e / J7.
(* EquationOfState.hpp 35-41 *)
Definition eos_first_piola_derivative (e : eos) (J : R) : R :=
  let J2 := J * J in let J4 := J2 * J2 in let J8 := J4 * J4 in
  bulk e * 7 / J8.
