(* Properties C66, C67 and C68: QR, polar and singular value decompositions. *)
From mathcomp Require Import all_ssreflect all_algebra.
From Verif Require Import MatModel MatSpec MatProofs MatProofs2 RotModel RotSpec RotProofs SvdModel SvdSpec.
From Verif Require SvdProofs SvdProofs2 SvdProofs3 SvdProofs4 SvdProofs5 SvdProofs6 SvdProofs7 SvdProofs8.
Set Implicit Arguments.
Unset Strict Implicit.
Unset Printing Implicit Defensive.
Import GRing.Theory Num.Theory Order.Theory.
Local Open Scope ring_scope.

(* ---- C66 ---- *)

(* A Givens rotation made from two entries of a column clears the second one,
   puts the length of both in the first one, leaves the other rows alone and is
   a rotation: whatever the size of the matrix. *)
Theorem C66_givens (T : rcfType) n (A : nat -> nat -> T) i k j : (i < n)%N -> (k < n)%N -> (j < n)%N -> i != k ->
  let g := givens_of (A i j) (A k j) i k in
  let A' := rowRotation n g A in
  [/\ A' k j = 0, A' i j = Num.sqrt (A i j ^+ 2 + A k j ^+ 2),
      forall a b, a != i -> a != k -> (b < n)%N -> A' a b = A a b
    & is_rotation (mx n n (fill g)) /\ mx n n A = mx n n (fill g) *m mx n n A'].
Proof.
move=> hi hk hj ne g A'.
have gi : rowi g = i by rewrite SvdProofs.conv_i.
have gk : rowk g = k by rewrite SvdProofs.conv_k.
have v : SvdProofs.valid n g by apply: SvdProofs.of_valid.
have u : SvdProofs.unit_g g by apply: SvdProofs2.of_unit.
have ne' : rowi g != rowk g by rewrite gi gk.
have z : gs g * A i j + gc g * A k j = 0 by apply: SvdProofs.conv_zero.
split.
- by rewrite /A' SvdProofs.rowRotationE // gi gk eq_sym (negbTE ne) eqxx.
- rewrite /A' SvdProofs.rowRotationE // gi gk eqxx; exact: SvdProofs.conv_len.
- move=> a b ai ak hb; rewrite /A' SvdProofs.rowRotationE // gi gk (negbTE ai) (negbTE ak) //.
- rewrite SvdProofs4.fill_ok //; split; first by apply: SvdProofs2.rotT; apply: SvdProofs.gmx_rot.
  by rewrite SvdProofs.row_ok // mulmxA SvdProofs.gmx_orth // mul1mx.
Qed.
Print Assumptions C66_givens.

(* qr of a square matrix of any size: a rotation times an upper triangle whose
   diagonal, but for the last entry, is >= 0. *)
Theorem C66_qr (T : rcfType) N (A : nat -> nat -> T) :
  let: (Q, R) := qr N A in
  [/\ is_rotation (mx N N Q), mx N N Q *m mx N N R = mx N N A, upper_triangular (mx N N R)
    & forall i, (i.+1 < N)%N -> 0 <= R i i].
Proof.
have [r e t d] := SvdProofs2.qr_ok N A.
case: (qr N A) r e t d => Q R /= r e t d; split=> // i j ji; rewrite mxE; exact: t.
Qed.
Print Assumptions C66_qr.

(* gram_schmidt of an invertible 3 x 3 matrix: an orthogonal matrix times an
   upper triangle with a positive diagonal. *)
Theorem C66_gram_schmidt (T : rcfType) (A : nat -> nat -> T) : \det (mx 3 3 A) != 0 ->
  let: (Q, R) := gram_schmidt A in
  [/\ mx 3 3 Q *m mx 3 3 R = mx 3 3 A, (mx 3 3 Q)^T *m mx 3 3 Q = 1%:M, upper_triangular (mx 3 3 R)
    & forall i, (i < 3)%N -> 0 < R i i].
Proof.
move/eqP => /SvdProofs3.gs_ok; case: (gram_schmidt A) => Q R [e o t [p0 p1 p2]]; split=> //.
by case=> [|[|[|]]].
Qed.
Print Assumptions C66_gram_schmidt.

(* an invertible matrix, not orthogonal *)
Example C66_invertible (T : rcfType) : \det (mx 3 3 (fun i j => (i <= j)%N%:R : T)) != 0.
Proof.
by rewrite -det_3_ok /det_3 /= ?(mulr1, mulr0, mul0r, subr0, sub0r, add0r, addr0, oppr0, oner_neq0).
Qed.

(* upper_bidiagonalize: A = U B V^T with rotations U, V. *)
Theorem C66_upper_bidiagonalize (T : rcfType) (A : nat -> nat -> T) :
  let: (B, U, V) := upper_bidiagonalize A in
  [/\ mx 3 3 U *m mx 3 3 B *m (mx 3 3 V)^T = mx 3 3 A, upper_bidiagonal (mx 3 3 B),
      is_rotation (mx 3 3 U) & is_rotation (mx 3 3 V)].
Proof.
have := SvdProofs2.ub_ok A; case: (upper_bidiagonalize A) => [[B U] V] [e [z1 z2 z3 z4] rU rV]; split=> //.
by move=> [[|[|[|i]]] hi] [[|[|[|j]]] hj] //= _; rewrite mxE.
Qed.
Print Assumptions C66_upper_bidiagonalize.

(* zero_chasing keeps the product U H V^T and restores the bidiagonal form of
   any matrix with a zero in the lower left corner. *)
Theorem C66_zero_chasing (T : rcfType) (H U V : nat -> nat -> T) : H 2%N 0%N = 0 ->
  let: (H', U', V') := zero_chasing H U V in
  [/\ mx 3 3 U' *m mx 3 3 H' *m (mx 3 3 V')^T = mx 3 3 U *m mx 3 3 H *m (mx 3 3 V)^T,
      upper_bidiagonal (mx 3 3 H'),
      is_rotation (mx 3 3 U) -> is_rotation (mx 3 3 U')
    & is_rotation (mx 3 3 V) -> is_rotation (mx 3 3 V')].
Proof.
move=> h; have := SvdProofs2.zc_ok H U V; case: (zero_chasing H U V) => [[H' U'] V'] [e b rU rV].
have [z1 z2 z3 z4] := b h; split=> //.
by move=> [[|[|[|i]]] hi] [[|[|[|j]]] hj] //= _; rewrite mxE.
Qed.
Print Assumptions C66_zero_chasing.

(* ---- C67 ---- *)

(* polar_decomposition of a 2 x 2 matrix: A = R S with S symmetric of trace
   >= 0, and R is a rotation nearest to A. *)
Theorem C67_polar (T : rcfType) (A : nat -> nat -> T) :
  let: (R, S') := polar2_full A in
  [/\ mx 2 2 R *m mx 2 2 S' = mx 2 2 A, symmetric (mx 2 2 S'), 0 <= \tr (mx 2 2 S')
    & nearest_rotation (mx 2 2 A) (mx 2 2 R)].
Proof.
rewrite /polar2_full; case E : (polar2 _ _) => [r Sm].
have [[u ri rk] e s t] := @SvdProofs4.polar2_eq T A (givens_id T 0 1) r Sm erefl erefl E.
have v : SvdProofs.valid 2 r by rewrite /SvdProofs.valid ri rk.
have eA : mx 2 2 (fill r) *m mx 2 2 Sm = mx 2 2 A.
  by rewrite SvdProofs4.fill_ok // e mulmxA SvdProofs.gmx_orth // mul1mx.
have sy : symmetric (mx 2 2 Sm).
  by apply/matrixP => -[[|[|i]] hi] [[|[|j]] hj] //; rewrite !mxE /= ?s.
have tr : 0 <= \tr (mx 2 2 Sm) by rewrite SvdProofs4.tr2 !mxE.
split=> //; apply: (@SvdProofs4.near2 T _ _ (mx 2 2 Sm)) => //.
by rewrite SvdProofs4.fill_ok //; apply: SvdProofs2.rotT; apply: SvdProofs.gmx_rot.
Qed.
Print Assumptions C67_polar.

(* qr_svd of a 2 x 2 matrix is exact. *)
Theorem C67_svd (T : rcfType) (A : nat -> nat -> T) :
  let: (U, (s0, s1), V) := svd2_full A in
  [/\ is_rotation (mx 2 2 U), is_rotation (mx 2 2 V),
      mx 2 2 U *m diag 2 (fun i => if i == 0%N then s0 else s1) *m (mx 2 2 V)^T = mx 2 2 A
    & `|s1| <= s0].
Proof.
rewrite /svd2_full.
have := @SvdProofs4.svd2_ok T A (givens_id T 0 1) (givens_id T 0 1) erefl erefl erefl erefl.
case: (svd2 _ _ _) => [[u [s0 s1]] v] [[uu ui uk] [vu vi vk] e le].
have wu : SvdProofs.valid 2 u by rewrite /SvdProofs.valid ui uk.
have wv : SvdProofs.valid 2 v by rewrite /SvdProofs.valid vi vk.
rewrite !SvdProofs4.fill_ok //; split=> //; try (by apply: SvdProofs2.rotT; apply: SvdProofs.gmx_rot).
by rewrite trmxK.
Qed.
Print Assumptions C67_svd.

(* ---- C68 ---- *)

(* the tolerance: eta is 128 times the machine epsilon *)
Definition tolerance (T : rcfType) (eta : T) (A : 'M[T]_3) : T :=
  eta * Num.max (Num.sqrt (frob2 A) / 2%:R) 1.

(* qr_svd of a 3 x 3 matrix: rotations, sorted values, and the product is
   within the tolerance of A. *)
Theorem C68_svd (T : rcfType) fuel (eta : T) (A U V : nat -> nat -> T) (s : nat -> T) :
  svd3 fuel eta A = Some (U, s, V) ->
  [/\ is_rotation (mx 3 3 U), is_rotation (mx 3 3 V),
      s 1%N <= s 0%N /\ `|s 2%N| <= s 1%N
    & frob2 (mx 3 3 A - mx 3 3 U *m diag 3 s *m (mx 3 3 V)^T) <= tolerance eta (mx 3 3 A) ^+ 2].
Proof. by move/SvdProofs6.svd3_ok => [rU rV so le]; split. Qed.
Print Assumptions C68_svd.

(* The iteration with Wilkinson's shift ends, for every matrix: the number of
   steps depends on eta alone. *)
Theorem C68_terminates (T : rcfType) n (eta : T) (A : nat -> nat -> T) : 0 <= eta ->
  (8%:R / 27%:R) ^+ n <= (eta / 2%:R) ^+ 12 -> exists r, svd3 n eta A = Some r.
Proof.
move=> e0 h; apply: SvdProofs7.svd3_some => //.
have p : 0 < 27%:R ^+ n :> T by rewrite exprn_gt0 ?ltr0n.
by move: h; rewrite expr_div_n ler_pdivr_mulr // mulrC.
Qed.
Print Assumptions C68_terminates.

(* eta = 2 / 2^k: 12 k steps are enough; k = 17 in single, k = 46 in double
   precision *)
Example C68_steps (T : rcfType) k (A : nat -> nat -> T) : exists r, svd3 (12 * k) (2%:R / 2%:R ^+ k) A = Some r.
Proof.
apply: C68_terminates; first by rewrite divr_ge0 ?exprn_ge0 ?ler0n.
have -> : 2%:R / 2%:R ^+ k / 2%:R = (1 / 2%:R) ^+ k :> T.
  by rewrite mulrAC divff ?pnatr_eq0 // expr_div_n expr1n.
rewrite -exprM mulnC; apply: ler_expn2r; rewrite ?nnegrE ?divr_ge0 ?ler0n ?ler01 //.
by rewrite ler_pdivr_mulr ?ltr0n // mulrAC ler_pdivl_mulr ?ltr0n // mul1r -natrM ler_nat.
Qed.

(* polar_decomposition of a 3 x 3 matrix: R S is within the tolerance of A, S
   is symmetric, and R is a rotation nearest to R S. *)
Theorem C68_polar (T : rcfType) fuel (eta : T) (A R S' : nat -> nat -> T) :
  polar3 fuel eta A = Some (R, S') ->
  [/\ frob2 (mx 3 3 A - mx 3 3 R *m mx 3 3 S') <= tolerance eta (mx 3 3 A) ^+ 2,
      symmetric (mx 3 3 S') & nearest_rotation (mx 3 3 R *m mx 3 3 S') (mx 3 3 R)].
Proof. by move/SvdProofs6.polar3_ok => [r s le n]; split. Qed.
Print Assumptions C68_polar.
Theorem C68_polar_terminates (T : rcfType) n (eta : T) (A : nat -> nat -> T) : 0 <= eta ->
  (8%:R / 27%:R) ^+ n <= (eta / 2%:R) ^+ 12 -> exists r, polar3 n eta A = Some r.
Proof.
move=> e0 h; have [[[U s] V] e] := C68_terminates A e0 h.
by rewrite /polar3 e; eexists.
Qed.
Print Assumptions C68_polar_terminates.

(* The tolerance has an absolute part: it is no bound relative to A.  Of a
   matrix with the single entry x, 0 < x <= eta, all singular values are
   reported as zero. *)
Theorem C68_relative_refuted (T : rcfType) n (eta x : T) : 0 < x -> x <= eta ->
  exists A U s V, [/\ frob2 (mx 3 3 A) = x ^+ 2, svd3 n eta A = Some (U, s, V) & forall i, s i = 0].
Proof.
move=> x0 xe; have [U [s [V [e z]]]] := SvdProofs8.small n x0 xe.
exists (SvdProofs8.single x), U, s, V; split=> //.
by rewrite SvdProofs6.frob3 /SvdProofs8.single /= !expr0n /= !addr0 !add0r.
Qed.
Print Assumptions C68_relative_refuted.
