(* Proofs about the eigendecomposition of 2 x 2 matrices. *)
From mathcomp Require Import all_ssreflect all_algebra.
From Coq Require Import Field.
From Verif Require Import FieldTac MatModel MatSpec MatProofs MatProofs2 RotModel RotSpec RotProofs SvdModel SvdSpec SvdProofs SvdProofs2 SvdProofs4 SvdProofs5 EigModel EigSpec.
Set Implicit Arguments.
Unset Strict Implicit.
Unset Printing Implicit Defensive.
Import GRing.Theory Num.Theory Order.Theory.
Local Open Scope ring_scope.

Section Two.
Variable T : rcfType.
Let F : fieldType := [fieldType of T].
Add Field ff : (cfield F).
Ltac fld := to_fld F; field; try exact (@two_neq0 T).
Notation mat := (nat -> nat -> T).
Implicit Types (A B U V H X M E : mat).

Lemma max_l (x y : T) : x <= max_ x y.
Proof. by rewrite /max_; case: ltP => // /ltW. Qed.
Lemma max_r (x y : T) : y <= max_ x y.
Proof. by rewrite /max_; case: ltP. Qed.
Lemma maxabs2 M : let m := maxabs 2 M in
  [/\ `|M 0%N 0%N| <= m, `|M 0%N 1%N| <= m, `|M 1%N 0%N| <= m & `|M 1%N 1%N| <= m].
Proof.
rewrite /maxabs /loop /= !absE; set a := `|_|.
set m1 := max_ a a; set m2 := max_ m1 _; set m3 := max_ m2 _.
have h1 : a <= m1 := max_l _ _; have h2 : m1 <= m2 := max_l _ _; have h3 : m2 <= m3 := max_l _ _.
have h4 := max_l m3 `|M 1%N 1%N|.
split; last exact: max_r.
- by apply: (le_trans h1); apply: (le_trans h2); apply: (le_trans h3).
- by apply: (le_trans (max_r m1 _)); apply: (le_trans h3).
- by apply: (le_trans (max_r m2 _)).
Qed.

(* what the eigenvector of the larger eigenvalue says about the matrix *)
Lemma eig_vec (d b w v0 v1 : T) : v0 * v0 + v1 * v1 = 1 ->
  (d - w) * v0 + b * v1 = 0 -> b * v0 + (- d - w) * v1 = 0 ->
  w * (v0 * v0 - v1 * v1) = d /\ 2%:R * w * v0 * v1 = b.
Proof.
move=> u e1 e2; split.
- transitivity (w * (v0 * v0 - v1 * v1) + v0 * ((d - w) * v0 + b * v1) - v1 * (b * v0 + (- d - w) * v1)).
    by rewrite e1 e2 !mulr0 addr0 subr0.
  transitivity (d * (v0 * v0 + v1 * v1)); first by fld.
  by rewrite u mulr1.
- transitivity (2%:R * w * v0 * v1 + v1 * ((d - w) * v0 + b * v1) + v0 * (b * v0 + (- d - w) * v1)).
    by rewrite e1 e2 !mulr0 !addr0.
  transitivity (b * (v0 * v0 + v1 * v1)); first by fld.
  by rewrite u mulr1.
Qed.

Lemma orth2_unit (v : nat -> T) : v 0%N * v 0%N + v 1%N * v 1%N = 1 ->
  orthogonal2 v 0%N = - v 1%N /\ orthogonal2 v 1%N = v 0%N.
Proof.
move=> u; rewrite /orthogonal2.
have l : length 2 (vset (vset (@vnew T) 0 (- v 1%N)) 1 (v 0%N)) = 1.
  by rewrite /length l2_2 /vset /= mulrNN addrC u sqrtr1.
by rewrite !normalizedE // l !divr1.
Qed.

Definition e2_spec M (r : (nat -> T) * mat) : Prop :=
  let: (e, E) := r in
  [/\ (mx 2 2 E)^T *m mx 2 2 E = 1%:M, mx 2 2 M = mx 2 2 E *m diag 2 e *m (mx 2 2 E)^T
    & e 0%N <= e 1%N].

Lemma ediag (E0 E1 E2 E3 s0 s1 : T) (E : 'M[T]_2) (e : nat -> T) (M : 'M[T]_2) :
  E e0 e0 = E0 -> E e0 e1 = E1 -> E e1 e0 = E2 -> E e1 e1 = E3 -> e 0%N = s0 -> e 1%N = s1 ->
  M e0 e0 = E0 * s0 * E0 + E1 * s1 * E1 -> M e0 e1 = E0 * s0 * E2 + E1 * s1 * E3 ->
  M e1 e0 = E0 * s0 * E2 + E1 * s1 * E3 -> M e1 e1 = E2 * s0 * E2 + E3 * s1 * E3 ->
  M = E *m diag 2 e *m E^T.
Proof.
move=> h0 h1 h2 h3 f0 f1 m0 m1 m2 m3.
have D i j : diag 2 e i j = if i == j then e j else 0.
  by rewrite /diag !mxE eq_sym; case: eqP => [->|] /=; rewrite ?mulr1n ?mulr0n.
apply/matrixP => i j; rewrite !mul2 ![E^T _ _]mxE !D /= !(mulr0, addr0, add0r).
case: (ord2 i) => ->; case: (ord2 j) => ->; rewrite ?h0 ?h1 ?h2 ?h3 /= f0 f1 ?m0 ?m1 ?m2 ?m3 //.
all: by fld.
Qed.
Lemma eorth (E : 'M[T]_2) : E e0 e0 * E e0 e0 + E e1 e0 * E e1 e0 = 1 ->
  E e0 e1 * E e0 e1 + E e1 e1 * E e1 e1 = 1 -> E e0 e0 * E e0 e1 + E e1 e0 * E e1 e1 = 0 -> E^T *m E = 1%:M.
Proof.
move=> a b c; apply/matrixP => i j; rewrite mul2 ![E^T _ _]mxE mxE.
case: (ord2 i) => ->; case: (ord2 j) => -> //=; rewrite mulrC [X in _ + X]mulrC //.
Qed.

(* the vector the code computes *)
Lemma evec (d b w : T) : 0 < w -> w * w = d * d + b * b ->
  let A := d - w in let C := - d - w in
  let v := if C ^+ 2 < A ^+ 2 then (- b / Num.sqrt (A ^+ 2 + b ^+ 2), A / Num.sqrt (A ^+ 2 + b ^+ 2))
           else (- C / Num.sqrt (C ^+ 2 + b ^+ 2), b / Num.sqrt (C ^+ 2 + b ^+ 2)) in
  [/\ v.1 * v.1 + v.2 * v.2 = 1, A * v.1 + b * v.2 = 0 & b * v.1 + C * v.2 = 0].
Proof.
move=> w0 ww A C.
have AC : A * C = b * b.
  transitivity (w * w - d * d); first by rewrite /A /C; fld.
  by rewrite ww addrC addKr.
have S0 x : 0 <= x ^+ 2 + b ^+ 2 by rewrite addr_ge0 ?sqr_ge0.
have nz x : x != 0 -> Num.sqrt (x ^+ 2 + b ^+ 2) != 0.
  by move=> x0; rewrite sqrtr_eq0 -ltNge ltr_paddr ?sqr_ge0 // lt_def sqrf_eq0 x0 sqr_ge0.
have sq x : Num.sqrt (x ^+ 2 + b ^+ 2) * Num.sqrt (x ^+ 2 + b ^+ 2) = x * x + b * b.
  by rewrite -expr2 sqr_sqrtr // !expr2.
case: ifP => [lt|/negbT]; rewrite /=.
- have A0 : A != 0.
    by apply/eqP => z; move: lt; rewrite z expr0n ltNge sqr_ge0.
  move: (nz _ A0) (sq A); set r := Num.sqrt _ => r0 rr; move/eqP in r0.
  split.
  + transitivity ((A * A + b * b) / (r * r)); first by fld.
    by rewrite -rr divff // mulf_neq0 //; apply/eqP.
  + by fld.
  + transitivity ((A * C - b * b) / r); first by fld.
    by rewrite AC subrr mul0r.
- rewrite -leNgt => le.
  have C0 : C != 0.
    apply/eqP => z; move: le; rewrite z expr0n /= => le.
    have /eqP A0 : A ^+ 2 == 0 by rewrite eq_le le sqr_ge0.
    move/eqP: A0; rewrite sqrf_eq0 => /eqP A0.
    have : A + C = 0 by rewrite A0 z addr0.
    have -> : A + C = - (2%:R * w) by rewrite /A /C; fld.
    by move/eqP; rewrite oppr_eq0 mulf_eq0 pnatr_eq0 /= gt_eqF.
  move: (nz _ C0) (sq C); set r := Num.sqrt _ => r0 rr; move/eqP in r0.
  split.
  + transitivity ((C * C + b * b) / (r * r)); first by fld.
    by rewrite -rr divff // mulf_neq0 //; apply/eqP.
  + transitivity ((b * b - A * C) / r); first by fld.
    by rewrite AC subrr mul0r.
  + by fld.
Qed.

Lemma eigen2_ok eps M : eps < 2%:R -> M 0%N 1%N = M 1%N 0%N -> e2_spec M (eigen2 id eps M).
Proof.
move=> el sy; rewrite /eigen2.
set sh := (M 0%N 0%N + M 1%N 1%N) / 2%:R.
set d := (M 0%N 0%N - M 1%N 1%N) / 2%:R; set b := M 1%N 0%N.
set S3 := mset (mset _ 0 0 _) 1 1 _.
have s00 : S3 0%N 0%N = d by rewrite /S3 /mset /= /d /sh; fld.
have s01 : S3 0%N 1%N = b by rewrite /S3 /mset /=.
have s10 : S3 1%N 0%N = b by rewrite /S3 /mset /=.
have s11 : S3 1%N 1%N = - d by rewrite /S3 /mset /= /d /sh; fld.
move: (maxabs2 S3); move: S3 s00 s01 s10 s11 => S3 s00 s01 s10 s11.
set m := maxabs 2 S3 => -[]; rewrite s00 s01 s10 s11 => md mb _ _.
have m0 : 0 <= m := le_trans (normr_ge0 _) md.
set S4 := if 0 < m then _ else S3.
have [d' [b' [t00 t10 t11 dE bE]]] : exists d' b', [/\ S4 0%N 0%N = d', S4 1%N 0%N = b', S4 1%N 1%N = - d', d = d' * m & b = b' * m].
  rewrite /S4; case: ltP => [mp|mn].
    exists (d / m), (b / m); rewrite s00 s10 s11 !mulNr !divfK ?gt_eqF //.
  have mz : m = 0 by apply/eqP; rewrite eq_le mn m0.
  move: md mb; rewrite mz !normr_le0 => /eqP d0 /eqP b0.
  by exists 0, 0; rewrite s00 s10 s11 d0 b0 !mul0r.
move: S4 t00 t10 t11 => S4 t00 t10 t11; rewrite t00 t10 t11.
set w := Num.sqrt (d' ^+ 2 + b' ^+ 2).
have w0 : 0 <= w by exact: sqrtr_ge0.
have ww : w * w = d' * d' + b' * b'.
  by rewrite -expr2 sqr_sqrtr ?addr_ge0 ?sqr_ge0 // !expr2.
have -> : 1 / 2%:R * Num.sqrt ((d' - - d') ^+ 2 + 4%:R * b' ^+ 2) = w.
  have -> : (d' - - d') ^+ 2 + 4%:R * b' ^+ 2 = 2%:R ^+ 2 * (d' ^+ 2 + b' ^+ 2) by fld.
  by rewrite sqrtrM ?sqr_ge0 // sqrtr_sqr ger0_norm ?ler0n // mulrA div1r mulVf ?pnatr_eq0 // mul1r.
rewrite subrr mulr0 !add0r opprK absE ger0_norm //.
have M00 : M 0%N 0%N = d + sh by rewrite /d /sh; fld.
have M11 : M 1%N 1%N = - d + sh by rewrite /d /sh; fld.
have les : - w * m + sh <= w * m + sh.
  by rewrite ler_add2r ler_wpmul2r // (le_trans _ w0) // oppr_le0.
case: ifP => [le|/negbT].
- have wz : w = 0.
    apply/eqP; rewrite eq_le w0 andbT; move: le; rewrite -subr_ge0.
    have -> : w * eps - (w + w) = w * (eps - 2%:R) by fld.
    by rewrite nmulr_lge0 // subr_lt0.
  have [dz bz] : d' = 0 /\ b' = 0 by apply: sumsq_eq0; rewrite -ww wz mul0r.
  split.
  + by rewrite mx_id trmx1 mulmx1.
  + rewrite mx_id trmx1 mulmx1 mul1mx; apply/matrixP => i j; rewrite /diag !mxE eq_sym.
    case: (ord2 i) => ->; case: (ord2 j) => -> /=; rewrite ?mulr1n ?mulr0n ?sy -/b ?M00 ?M11 ?dE ?bE ?dz ?bz ?wz /vset /= ?oppr0 ?mul0r ?oppr0 ?add0r //.
  + by rewrite /vset /=.
- rewrite -ltNge => gt.
  have wp : 0 < w.
    rewrite lt_def w0 andbT; apply/eqP => z; by move: gt; rewrite z mul0r addr0 ltxx.
  set S6 := mset (mset S4 0 0 _) 1 1 _.
  have u00 : S6 0%N 0%N = d' - w by rewrite /S6 /mset /= ?t00.
  have u10 : S6 1%N 0%N = b' by rewrite /S6 /mset /= ?t10.
  have u11 : S6 1%N 1%N = - d' - w by rewrite /S6 /mset /= ?t11.
  move: S6 u00 u10 u11 => S6 u00 u10 u11; rewrite u00 u10 u11.
  move: (evec wp ww) => /=.
  set v := if _ then (_, _) else _; set E2 := if _ then _ else _ => -[vu ve1 ve2].
  have E01 : E2 0%N 1%N = v.1 by rewrite /E2 /v; case: ifP.
  have E11 : E2 1%N 1%N = v.2 by rewrite /E2 /v; case: ifP.
  move: v vu ve1 ve2 E01 E11 => [v0 v1] /= vu ve1 ve2; move: E2 => E2 E01 E11.
  have vu2 : E2 0%N 1%N * E2 0%N 1%N + E2 1%N 1%N * E2 1%N 1%N = 1 by rewrite E01 E11.
  have [o0 o1] := @orth2_unit (fun i => E2 i 1%N) vu2.
  rewrite o0 o1 E01 E11.
  have [k1 k2] := eig_vec vu ve1 ve2.
  have one (x : T) : x = x * (v0 * v0 + v1 * v1) by rewrite vu mulr1.
  split.
  + apply: eorth; rewrite !mxE /mset /= ?E01 ?E11 ?mulrNN //; first by rewrite addrC.
    by rewrite mulNr mulrC addNr.
  + apply: (@ediag (- v1) v0 v0 v1 (- w * m + sh) (w * m + sh)); rewrite ?mxE /mset /vset /= ?E01 ?E11 //.
    * rewrite M00 dE -k1 [X in _ + X]one; fld.
    * rewrite sy -/b bE -k2; fld.
    * rewrite -/b bE -k2; fld.
    * rewrite M11 dE -k1 [X in _ + X]one; fld.
  + by rewrite /vset /=.
Qed.
End Two.
