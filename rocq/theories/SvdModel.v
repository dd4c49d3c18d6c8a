(* Givens rotations, QR, polar and singular value decompositions.
   math/matrix/Givens.hpp, math/matrix/QRSVD.hpp.

   Matrices are accessors as in MatModel.  Element types are abstract real
   closed fields: rounding is not modelled, square roots are exact. *)
From mathcomp Require Import all_ssreflect all_algebra.
From Verif Require Import MatModel RotModel.
Import GRing.Theory Num.Theory Order.Theory.
Set Implicit Arguments.
Unset Strict Implicit.
Unset Printing Implicit Defensive.
Local Open Scope ring_scope.

Section Svd.
Variable T : rcfType.
Notation vec := (nat -> T).
Notation mat := (nat -> nat -> T).

(* ZpcMathUtils.hpp 805-850 on the host: rsqrt *)
Definition rsqrt (v : T) : T := 1 / Num.sqrt v.
(* ZpcMathUtils.hpp 299-304: max, abs *)
Definition max_ (x y : T) : T := if x < y then y else x.
Definition abs (x : T) : T := if x < 0 then - x else x.
(* copysign of the C library; the sign of a zero is taken as positive *)
Definition copysign (m s : T) : T := if s < 0 then - abs m else abs m.

(* Givens.hpp 32-40 *)
Record givens := Giv { rowi : nat; rowk : nat; gc : T; gs : T }.

(* Givens.hpp 43-44 *)
Definition givens_id (i k : nat) : givens := Giv i k 1 0.

(* Givens.hpp 63-72 *)
Definition computeConventional (g : givens) (a b : T) : givens :=
  let d := a * a + b * b in
  if d != 0 then let t := rsqrt d in Giv (rowi g) (rowk g) (a * t) (- b * t)
  else Giv (rowi g) (rowk g) 1 0.
(* Givens.hpp 80-89 *)
Definition computeUnconventional (g : givens) (a b : T) : givens :=
  let d := a * a + b * b in
  if d != 0 then let t := rsqrt d in Giv (rowi g) (rowk g) (b * t) (a * t)
  else Giv (rowi g) (rowk g) 0 1.
(* Givens.hpp 45-48 *)
Definition givens_of (a b : T) (i k : nat) : givens := computeConventional (givens_id i k) a b.

(* Givens.hpp 98-104: fill; the target is set to the identity first *)
Definition fill (g : givens) : mat :=
  let A := @identity T in
  let A := mset A (rowi g) (rowi g) (gc g) in
  let A := mset A (rowk g) (rowi g) (- gs g) in
  let A := mset A (rowi g) (rowk g) (gs g) in
  mset A (rowk g) (rowk g) (gc g).

(* Givens.hpp 117-126: rowRotation of a matrix with n columns *)
Definition rowRotation (n : nat) (g : givens) (A : mat) : mat :=
  loop n (fun j A =>
    let tau1 := A (rowi g) j in
    let tau2 := A (rowk g) j in
    let A := mset A (rowi g) j (gc g * tau1 - gs g * tau2) in
    mset A (rowk g) j (gs g * tau1 + gc g * tau2)) A.

(* Givens.hpp 138-147: columnRotation of a matrix with n rows *)
Definition columnRotation (n : nat) (g : givens) (A : mat) : mat :=
  loop n (fun i A =>
    let tau1 := A i (rowi g) in
    let tau2 := A i (rowk g) in
    let A := mset A i (rowi g) (gc g * tau1 - gs g * tau2) in
    mset A i (rowk g) (gs g * tau1 + gc g * tau2)) A.

(* Givens.hpp 152-157: operator*= *)
Definition givens_mul (g h : givens) : givens :=
  Giv (rowi g) (rowk g) (gc g * gc h - gs g * gs h) (gs g * gc h + gc g * gs h).

(* Givens.hpp 185-232: zero_chasing on (H, U, V) *)
Definition zero_chasing (H U V : mat) : mat * mat * mat :=
  let r1 := givens_of (H 0%N 0%N) (H 1%N 0%N) 0 1 in
  let r2 := givens_id 1 2 in
  let r2 :=
    if H 1%N 0%N != 0 then
      computeConventional r2 (H 0%N 0%N * H 0%N 1%N + H 1%N 0%N * H 1%N 1%N)
                             (H 0%N 0%N * H 0%N 2%N + H 1%N 0%N * H 1%N 2%N)
    else computeConventional r2 (H 0%N 1%N) (H 0%N 2%N) in
  let H := rowRotation 3 r1 H in
  let H := columnRotation 3 r2 H in
  let V := columnRotation 3 r2 V in
  let r3 := givens_of (H 1%N 1%N) (H 2%N 1%N) 1 2 in
  let H := rowRotation 3 r3 H in
  let U := columnRotation 3 r1 U in
  let U := columnRotation 3 r3 U in
  (H, U, V).

(* Givens.hpp 243-259: upper_bidiagonalize *)
Definition upper_bidiagonalize (H : mat) : mat * mat * mat :=
  let U := @identity T in
  let V := @identity T in
  let r := givens_of (H 1%N 0%N) (H 2%N 0%N) 1 2 in
  let H := rowRotation 3 r H in
  let U := columnRotation 3 r U in
  zero_chasing H U V.

(* QRSVD.hpp 276-291: qr; i counts down from N - 1 to j + 1 *)
Definition qr_inner (N j : nat) (QR : mat * mat) : mat * mat :=
  foldl (fun QR i =>
    let gq := givens_of (QR.2 i.-1 j) (QR.2 i j) i.-1 i in
    (rowRotation N gq QR.1, rowRotation N gq QR.2)) QR (rev (iota j.+1 (N - j.+1))).
Definition qr (N : nat) (A : mat) : mat * mat :=
  let QR := loop N (fun j QR => qr_inner N j QR) (@identity T, A) in
  (transpose N N QR.1, QR.2).

(* QRSVD.hpp 298-333: gram_schmidt; col(A, j) is the j-th column *)
Definition gram_schmidt (A : mat) : mat * mat :=
  let d1 := fun i => A i 0%N in
  let d2 := fun i => A i 1%N in
  let d3 := fun i => A i 2%N in
  let q1 := normalized 3 d1 in
  let r11 := length 3 d1 in
  let r12 := dot 3 d2 q1 in
  let q2 := fun i => d2 i - r12 * q1 i in
  let r22 := length 3 q2 in
  let q2 := normalized 3 q2 in
  let r13 := dot 3 d3 q1 in
  let r23 := dot 3 d3 q2 in
  let q3 := fun i => d3 i - r13 * q1 i - r23 * q2 i in
  let r33 := length 3 q3 in
  let q3 := normalized 3 q3 in
  let Q := loop 3 (fun d Q => mset (mset (mset Q d 0 (q1 d)) d 1 (q2 d)) d 2 (q3 d)) (@mnew T) in
  let R := mset (mset (mset (@mnew T) 0 0 r11) 0 1 r12) 0 2 r13 in
  let R := mset (mset (mset R 1 1 r22) 1 2 r23) 2 2 r33 in
  (Q, R).

(* QRSVD.hpp 20-36: polar_decomposition of a 2 x 2 matrix into a rotation and S *)
Definition polar2 (A : mat) (R : givens) : givens * mat :=
  let x0 := A 0%N 0%N + A 1%N 1%N in
  let x1 := A 1%N 0%N - A 0%N 1%N in
  let d := Num.sqrt (x0 * x0 + x1 * x1) in
  let R := if d != 0 then Giv (rowi R) (rowk R) (x0 / d) (- x1 / d)
           else Giv (rowi R) (rowk R) 1 0 in
  (R, rowRotation 2 R A).

(* QRSVD.hpp 44-97: qr_svd of a 2 x 2 matrix; the rotations and the two
   singular values *)
Definition svd2 (A : mat) (U V : givens) : givens * (T * T) * givens :=
  let '(U, S_sym) := polar2 A U in
  let x := S_sym 0%N 0%N in
  let y := S_sym 0%N 1%N in
  let z := S_sym 1%N 1%N in
  let y2 := y * y in
  let '(cosine, sine, S0, S1) :=
    if y2 == 0 then (1, 0, x, z)
    else
      let tau := (x - z) / 2%:R in
      let w := Num.sqrt (tau * tau + y2) in
      let t := if 0 < tau then y / (tau + w) else y / (tau - w) in
      let cosine := rsqrt (t * t + 1) in
      let sine := - t * cosine in
      let c2 := cosine * cosine in
      let csy2 := 2%:R * cosine * sine * y in
      let s2 := sine * sine in
      (cosine, sine, c2 * x - csy2 + s2 * z, s2 * x + csy2 + c2 * z) in
  let '(S0, S1, V) :=
    if S0 < S1 then (S1, S0, Giv (rowi V) (rowk V) (- sine) cosine)
    else (S0, S1, Giv (rowi V) (rowk V) cosine sine) in
  (givens_mul U V, (S0, S1), V).

(* QRSVD.hpp 109-116: wilkinson_shift *)
Definition wilkinson_shift (a1 b1 a2 : T) : T :=
  let d := (a1 - a2) / 2%:R in
  let bs := b1 * b1 in
  a2 - copysign (bs / (abs d + Num.sqrt (d * d + bs))) d.

(* QRSVD.hpp 120-125: flip_sign on (U, S) *)
Definition flip_sign (j : nat) (US : mat * vec) : mat * vec :=
  let '(U, Sg) := US in
  let Sg := vset Sg j (- Sg j) in
  let U := mset U 0 j (- U 0%N j) in
  let U := mset U 1 j (- U 1%N j) in
  let U := mset U 2 j (- U 2%N j) in
  (U, Sg).
(* QRSVD.hpp 156-159 and alike: exchange of two columns *)
Definition swap_cols (a b : nat) (M : mat) : mat :=
  loop 3 (fun d M => mset (mset M d a (M d b)) d b (M d a)) M.
(* swapScalar on the singular values *)
Definition swap_vals (a b : nat) (Sg : vec) : vec := vset (vset Sg a (Sg b)) b (Sg a).
(* QRSVD.hpp 172-175 and 213-216: negation of a column *)
Definition neg_col (a : nat) (M : mat) : mat :=
  loop 3 (fun d M => mset M d a (- M d a)) M.

(* QRSVD.hpp 138-177: sort_sigma<0> *)
Definition sort_sigma0 (U : mat) (Sg : vec) (V : mat) : mat * vec * mat :=
  if abs (Sg 2%N) <= abs (Sg 1%N) then
    if Sg 1%N < 0 then
      let '(U, Sg) := flip_sign 2 (flip_sign 1 (U, Sg)) in (U, Sg, V)
    else (U, Sg, V)
  else
    let '(U, Sg) := if Sg 2%N < 0 then flip_sign 2 (flip_sign 1 (U, Sg)) else (U, Sg) in
    let Sg := swap_vals 1 2 Sg in
    let U := swap_cols 1 2 U in
    let V := swap_cols 1 2 V in
    if Sg 0%N < Sg 1%N then (swap_cols 0 1 U, swap_vals 0 1 Sg, swap_cols 0 1 V)
    else (neg_col 2 U, Sg, neg_col 2 V).

(* QRSVD.hpp 178-224: sort_sigma<1> *)
Definition sort_sigma1 (U : mat) (Sg : vec) (V : mat) : mat * vec * mat :=
  if Sg 1%N <= abs (Sg 0%N) then
    if Sg 0%N < 0 then
      let '(U, Sg) := flip_sign 2 (flip_sign 0 (U, Sg)) in (U, Sg, V)
    else (U, Sg, V)
  else
    let Sg := swap_vals 0 1 Sg in
    let U := swap_cols 0 1 U in
    let V := swap_cols 0 1 V in
    let '(U, Sg, V) :=
      if abs (Sg 1%N) < abs (Sg 2%N) then (swap_cols 1 2 U, swap_vals 1 2 Sg, swap_cols 1 2 V)
      else (neg_col 1 U, Sg, neg_col 1 V) in
    if Sg 1%N < 0 then
      let '(U, Sg) := flip_sign 2 (flip_sign 1 (U, Sg)) in (U, Sg, V)
    else (U, Sg, V).

(* QRSVD.hpp 231-267: process<t>, t = 0 or 1 *)
Definition process (t : nat) (B U V : mat) : mat * vec * mat :=
  let other := if t == 1%N then 0%N else 2%N in
  let Sg := vset (@vnew T) other (B other other) in
  let B_ := mset (mset (mset (mset (@mnew T) 0 0 (B t t)) 0 1 (B t t.+1))
                       1 0 (B t.+1 t)) 1 1 (B t.+1 t.+1) in
  let '(u, (S0, S1), v) := svd2 B_ (givens_id 0 1) (givens_id 0 1) in
  let Sg := vset (vset Sg t S0) t.+1 S1 in
  let u := Giv (rowi u + t) (rowk u + t) (gc u) (gs u) in
  let v := Giv (rowi v + t) (rowk v + t) (gc v) (gs v) in
  (columnRotation 3 u U, Sg, columnRotation 3 v V).

(* QRSVD.hpp 383-400: the implicit shift iteration.  The source repeats it
   without bound: None if the fuel runs out first.  alpha, beta and gamma are
   copies of entries of B. *)
Definition qr_iter (B U V : mat) : mat * mat * mat :=
  let mu := wilkinson_shift (B 1%N 1%N * B 1%N 1%N + B 0%N 1%N * B 0%N 1%N)
                            (B 1%N 1%N * B 1%N 2%N)
                            (B 2%N 2%N * B 2%N 2%N + B 1%N 2%N * B 1%N 2%N) in
  let r := computeConventional (givens_id 0 1) (B 0%N 0%N * B 0%N 0%N - mu) (B 0%N 0%N * B 0%N 1%N) in
  let B := columnRotation 3 r B in
  let V := columnRotation 3 r V in
  zero_chasing B U V.
Definition qr_running (tol : T) (B : mat) : bool :=
  [&& tol < abs (B 0%N 0%N), tol < abs (B 1%N 1%N), tol < abs (B 2%N 2%N),
      tol < abs (B 0%N 1%N) & tol < abs (B 1%N 2%N)].
Fixpoint qr_loop (fuel : nat) (tol : T) (s : mat * mat * mat) : option (mat * mat * mat) :=
  let '(B, U, V) := s in
  if qr_running tol B then
    match fuel with
    | 0 => None
    | fuel'.+1 => qr_loop fuel' tol (qr_iter B U V)
    end
  else Some s.

(* QRSVD.hpp 374-380: the tolerance; eta is 128 times the epsilon of T *)
Definition svd_tol (eta : T) (B : mat) : T :=
  eta * max_ (Num.sqrt (B 0%N 0%N * B 0%N 0%N + B 1%N 1%N * B 1%N 1%N + B 2%N 2%N * B 2%N 2%N
                        + B 0%N 1%N * B 0%N 1%N + B 1%N 2%N * B 1%N 2%N) / 2%:R) 1.

(* QRSVD.hpp 428-525: the cases after the iteration *)
Definition svd_finish (tol : T) (B U V : mat) : mat * vec * mat :=
  if abs (B 1%N 2%N) <= tol then
    let '(U, Sg, V) := process 0 B U V in sort_sigma0 U Sg V
  else if abs (B 0%N 1%N) <= tol then
    let '(U, Sg, V) := process 1 B U V in sort_sigma1 U Sg V
  else if abs (B 1%N 1%N) <= tol then
    let r1 := computeUnconventional (givens_id 1 2) (B 1%N 2%N) (B 2%N 2%N) in
    let B := rowRotation 3 r1 B in
    let U := columnRotation 3 r1 U in
    let '(U, Sg, V) := process 0 B U V in sort_sigma0 U Sg V
  else if abs (B 2%N 2%N) <= tol then
    let r1 := computeConventional (givens_id 1 2) (B 1%N 1%N) (B 1%N 2%N) in
    let B := columnRotation 3 r1 B in
    let V := columnRotation 3 r1 V in
    let r2 := computeConventional (givens_id 0 2) (B 0%N 0%N) (B 0%N 2%N) in
    let B := columnRotation 3 r2 B in
    let V := columnRotation 3 r2 V in
    let '(U, Sg, V) := process 0 B U V in sort_sigma0 U Sg V
  else if abs (B 0%N 0%N) <= tol then
    let r1 := computeUnconventional (givens_id 0 1) (B 0%N 1%N) (B 1%N 1%N) in
    let B := rowRotation 3 r1 B in
    let U := columnRotation 3 r1 U in
    let r2 := computeUnconventional (givens_id 0 2) (B 0%N 2%N) (B 2%N 2%N) in
    let B := rowRotation 3 r2 B in
    let U := columnRotation 3 r2 U in
    let '(U, Sg, V) := process 1 B U V in sort_sigma1 U Sg V
  else (U, @vnew T, V).

(* QRSVD.hpp 359-527: qr_svd of a 3 x 3 matrix *)
Definition svd3 (fuel : nat) (eta : T) (A : mat) : option (mat * vec * mat) :=
  let '(B, U, V) := upper_bidiagonalize A in
  let tol := svd_tol eta B in
  match qr_loop fuel tol (B, U, V) with
  | None => None
  | Some (B, U, V) => Some (svd_finish tol B U V)
  end.
(* QRSVD.hpp 353-358: qr_svd of a 2 x 2 matrix *)
Definition svd2_full (A : mat) : mat * (T * T) * mat :=
  let '(gu, Sg, gv) := svd2 A (givens_id 0 1) (givens_id 0 1) in
  (fill gu, Sg, fill gv).

(* QRSVD.hpp 546-550: polar_decomposition in 2D *)
Definition polar2_full (A : mat) : mat * mat :=
  let '(r, Sg) := polar2 A (givens_id 0 1) in (fill r, Sg).
(* QRSVD.hpp 551-556: polar_decomposition in 3D *)
Definition polar3 (fuel : nat) (eta : T) (A : mat) : option (mat * mat) :=
  match svd3 fuel eta A with
  | None => None
  | Some (U, Sg, V) =>
    let R := matmul 3 3 3 U (transpose 3 3 V) in
    let Ssym := matmul 3 3 3 (diag_mul_r 3 3 V Sg) (transpose 3 3 V) in
    Some (R, Ssym)
  end.
End Svd.
