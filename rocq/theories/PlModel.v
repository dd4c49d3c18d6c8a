(* Model of the plastic return mappings of zpc, physics/plasticity_models:
     NonAssociativeVonMises.hpp, NonAssociativeDruckerPrager.hpp,
     VonMisesCapped.hpp (do_project_sigma), SnowPlasticity.hpp,
     NonAssociativeCamClay.hpp
   Simplifications: exact real arithmetic (sqrtNewtonRaphson of a constant is the
   square root); a vector is a function of its index, read below the dimension d;
   out-of-domain logarithms, roots and quotients (NaN in the code) are Coq's total
   functions, so theorems state the domain.  The associative models, and
   VonMisesCapped::project_strain with a strain rate, are not modelled. *)
From Coq Require Import Reals Arith.
From Verif Require Import CmModel.
Local Open Scope R_scope.

(* VecInterface.hpp 662-668, 471-499 *)
Definition deviatoric (d : nat) (v : vec) : vec := fun i => v i + - vsum d v / INR d.
Definition l2NormSqr (d : nat) (v : vec) : R := vsum d (fun i => v i * v i).
Definition norm (d : nat) (v : vec) : R := sqrt (l2NormSqr d v).

(* ---- NonAssociativeVonMises.hpp 21-56; the result is the new S and the returned flag ---- *)
Record von_mises := VonMises { tauY : R; alpha : R; hardeningCoeff : R }.
Definition vm_project (P : von_mises) (m : lame) (d : nat) (S : vec) : vec * bool :=
  let coeff := sqrt (2 / (6 - INR d)) in
  let scaledTauY := coeff * (tauY P + hardeningCoeff P * alpha P) in
  let B_hat_trial : vec := fun i => S i * S i in
  let scaledMu := mu m * Rpower (vprod d S) (-2 / INR d) in
  let s_hat_trial : vec := fun i => scaledMu * deviatoric d B_hat_trial i in
  let s_hat_trial_norm := norm d s_hat_trial in
  let y := s_hat_trial_norm - scaledTauY in
  if Rlt_dec y (1 / 10000) then (S, false) else
  let z := y / scaledMu in
  ((fun i => sqrt (B_hat_trial i - (z / s_hat_trial_norm) * s_hat_trial i)), true).

(* ---- NonAssociativeDruckerPrager.hpp 20-53 ---- *)
(* 22-26 *)
Definition dp_tau0 (frictionAngle : R) : R :=
  let sinFa := sin (frictionAngle / 180 * PI) in sqrt (2 / 3) * (sinFa + sinFa) / (3 - sinFa).
(* 28-53; near_zero compares with [tiny] *)
Definition dp_project (tiny tau0 : R) (m : lame) (d : nat) (S : vec) : vec * bool :=
  let eps : vec := fun i => ln (S i) in
  let eps_trace := vsum d eps in
  let dev_eps : vec := fun i => eps i - eps_trace / INR d in
  let dev_eps_norm := norm d dev_eps in
  if Rle_dec dev_eps_norm tiny then (fun _ => 1, true) else
  if Rlt_dec 0 eps_trace then (fun _ => 1, true) else
  let _2mu := mu m + mu m in
  let delta_gamma := dev_eps_norm + (INR d * lam m + _2mu) / _2mu * eps_trace * tau0 in
  if Rle_dec delta_gamma 0 then (S, false) else
  ((fun i => exp (eps i - delta_gamma / dev_eps_norm * dev_eps i)), true).

(* ---- VonMisesCapped.hpp 27-55 ---- *)
Record capped := Capped { k1Compress : R; k1Stretch : R; yieldStress : R }.
Definition capped_project (P : capped) (m : lame) (d : nat) (S : vec) : vec :=
  let _2mu := mu m + mu m in
  let dim_mul_lam := INR d * lam m in
  let eps : vec := fun i => ln (S i) in
  let eps_trace := vsum d eps in
  let dev_eps : vec := fun i => eps i - eps_trace / INR d in
  let dev_eps_norm := norm d dev_eps in
  let delta_gamma := dev_eps_norm - yieldStress P / _2mu in
  let S1 : vec := if Rlt_dec 0 delta_gamma
    then fun i => exp (eps i - (delta_gamma / dev_eps_norm) * dev_eps i) else S in
  if Rlt_dec (k1Stretch P / (dim_mul_lam + _2mu)) eps_trace then
    fun i => S1 i * exp (k1Stretch P / (INR d * dim_mul_lam + INR d * _2mu) - eps_trace / INR d)
  else if Rlt_dec eps_trace (- k1Compress P / (dim_mul_lam + _2mu)) then
    fun i => S1 i * exp (- k1Compress P / (INR d * dim_mul_lam + INR d * _2mu) - eps_trace / INR d)
  else S1.

(* ---- SnowPlasticity.hpp 20-33; the result is the new S and the two hardened moduli ---- *)
Record snow := Snow { thetaC : R; thetaS : R; xi_s : R }.
Definition snow_project (P : snow) (mu0 lam0 : R) (d : nat) (S : vec) : vec * (R * R) :=
  let J := vprod d S in
  let S' : vec := fun i => Rmax (Rmin (S i) (1 + thetaS P)) (1 - thetaC P) in
  let Jp := J / Rmax (vprod d S') (1 / 1000000) in
  let e := exp (xi_s P * (1 - Jp)) in
  (S', (mu0 * e, lam0 * e)).

(* ---- NonAssociativeCamClay.hpp 15-127 ---- *)
Record cam_clay := CamClay { slope : R; beta : R; xi : R; hardeningOn : bool }.
(* 23-30 *)
Definition cc_slope (frictionAngle : R) (d : nat) : R := dp_tau0 frictionAngle * INR d / sqrt (2 / (6 - INR d)).
(* 98-109: the change of logJp once S has been projected to the ellipse *)
Definition cc_harden (P : cam_clay) (m : lame) (d : nat)
    (p0 p_trial pMin pMax s_norm side_len_sqr logJp : R) : R :=
  let M := slope P in
  if Rlt_dec (1 / 10000) p0 then
  if Rlt_dec p_trial (pMax - 1 / 10000) then
  if Rlt_dec (1 / 10000 - pMin) p_trial then
    let root := sqrt ((6 - INR d) / 2) in
    let p_center := p0 * ((1 - beta P) * (1/2)) in
    let q_trial := root * s_norm in
    let len := sqrt ((p_center - p_trial) * (p_center - p_trial) + q_trial * q_trial) in
    let d0 := (p_center - p_trial) / len in
    let d1 := - q_trial / len in
    let C := M * M * (p_center + beta P * p0) * (p_center - p0) in
    let B := M * M * d0 * (p_center + p_center - p0 + beta P * p0) in
    let A := M * M * d0 * d0 + (1 + beta P + beta P) * d1 * d1 in
    let deltaSqrt := sqrt (B * B - 4 * A * C) in
    let l1 := (- B + deltaSqrt) / (A + A) in
    let l2 := (- B - deltaSqrt) / (A + A) in
    let p1 := p_center + l1 * d0 in
    let p2 := p_center + l2 * d0 in
    let p_fake := if Rlt_dec 0 ((p_trial - p_center) * (p1 - p_center)) then p1 else p2 in
    let qNPlus := sqrt (M * M * (p_trial + pMin) * (pMax - p_trial) / (1 + beta P + beta P)) in
    let zTrial := sqrt (q_trial * side_len_sqr / (mu m * root) + 1) in
    let zNPlus := sqrt (qNPlus * side_len_sqr / (mu m * root) + 1) in
    let dOmega := if Rlt_dec p_fake p_trial then (-1) * ln (zTrial / zNPlus) else ln (zTrial / zNPlus) in
    if hardeningOn P then if Rlt_dec (1 / 10000) zNPlus then logJp + dOmega else logJp else logJp
  else logJp else logJp else logJp.
(* 32-127; the result is the new S, the new logJp and the returned flag *)
Definition cc_kappa (m : lame) : R := lam m + mu m * 2 / 3.
Definition cc_p0 (P : cam_clay) (m : lame) (logJp : R) : R :=
  cc_kappa m * (1 / 100000 + xi P * sinh (Rmax (- logJp) 0)).
Definition cc_project (P : cam_clay) (m : lame) (d : nat) (S : vec) (logJp : R) : vec * R * bool :=
  let kappa := cc_kappa m in
  let p0 := cc_p0 P m logJp in
  let J := vprod d S in
  let B_hat_trial : vec := fun i => S i * S i in
  let side_len_sqr := Rpower J (2 / INR d) in
  let s_hat_trial : vec := fun i => mu m / side_len_sqr * deviatoric d B_hat_trial i in
  let prime := kappa / 2 * (J - 1 / J) in
  let p_trial := - prime * J in
  let pMin := beta P * p0 in
  let pMax := p0 in
  let tip (JeNew : R) : vec * R * bool :=
    ((fun _ => Rpower JeNew (1 / INR d)), if hardeningOn P then logJp + ln (J / JeNew) else logJp, true) in
  if Rlt_dec pMax p_trial then tip (sqrt (- (pMax + pMax) / kappa + 1)) else
  if Rlt_dec p_trial (- pMin) then tip (sqrt ((pMin + pMin) / kappa + 1)) else
  let y_s_half_coeff := (6 - INR d) * (1/2) * (1 + 2 * beta P) in
  let y_p_half := slope P * slope P * (p_trial + pMin) * (p_trial - pMax) in
  let y := y_s_half_coeff * l2NormSqr d s_hat_trial + y_p_half in
  if Rlt_dec y (1 / 10000) then (S, logJp, false) else
  let s_hat_trial_norm := norm d s_hat_trial in
  ((fun i => sqrt (side_len_sqr / mu m * sqrt (- y_p_half / y_s_half_coeff) * s_hat_trial i / s_hat_trial_norm
                   + 1 / INR d * vsum d B_hat_trial)),
   cc_harden P m d p0 p_trial pMin pMax s_hat_trial_norm side_len_sqr logJp, true).
