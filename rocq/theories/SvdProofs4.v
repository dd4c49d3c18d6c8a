(* The polar and singular value decompositions of 2 x 2 matrices. *)
From mathcomp Require Import all_ssreflect all_algebra.
From Coq Require Import Field.
From Verif Require Import FieldTac MatModel MatSpec MatProofs MatProofs2 RotModel RotSpec RotProofs SvdModel SvdSpec SvdProofs SvdProofs2.
Set Implicit Arguments.
Unset Strict Implicit.
Unset Printing Implicit Defensive.
Import GRing.Theory Num.Theory Order.Theory.
Local Open Scope ring_scope.

Section Two.
Variable T : rcfType.
Let F : fieldType := [fieldType of T].
Add Field ff : (cfield F).
Ltac fld := to_fld F; field; try exact (@two_neq0 T).
Implicit Types (A : nat -> nat -> T) (g : givens T).

Lemma fill_ok n g : valid n g -> mx n n (fill g) = (gmx n g)^T.
Proof.
case/and3P => _ _ ne; apply/matrixP => a b; rewrite !mxE /fill /mset /identity.
case: (eqVneq (a : nat) (rowi g)) => ai; case: (eqVneq (b : nat) (rowi g)) => bi;
 case: (eqVneq (a : nat) (rowk g)) => ak; case: (eqVneq (b : nat) (rowk g)) => bk //=.
all: try by case/eqP: ne; rewrite -?ai -?ak -?bi -?bk; congruence.
all: rewrite -?val_eqE /=.
all: try by rewrite eq_sym.
all: by rewrite ?bi ?bk ?(negbTE ai) ?(negbTE ak).
Qed.

(* the Frobenius norm *)
Lemma mxtraceB n (X Y : 'M[T]_n) : \tr (X - Y) = \tr X - \tr Y.
Proof. by rewrite /mxtrace -sumrB; apply: eq_bigr => i _; rewrite !mxE. Qed.
Lemma frob2E n (X : 'M[T]_n) : frob2 X = \tr (X^T *m X).
Proof.
rewrite /frob2 exchange_big /mxtrace; apply: eq_bigr => j _ /=.
by rewrite mxE; apply: eq_bigr => i _; rewrite !mxE expr2.
Qed.
Lemma frob2_l n (U X : 'M[T]_n) : U^T *m U = 1%:M -> frob2 (U *m X) = frob2 X.
Proof. by move=> o; rewrite !frob2E trmx_mul mulmxA -(mulmxA X^T) o mulmx1. Qed.
Lemma frob2_tr n (X : 'M[T]_n) : frob2 X^T = frob2 X.
Proof. by rewrite /frob2 exchange_big; apply: eq_bigr => i _; apply: eq_bigr => j _; rewrite mxE. Qed.
Lemma frob2_r n (U X : 'M[T]_n) : U *m U^T = 1%:M -> frob2 (X *m U) = frob2 X.
Proof. by move=> o; rewrite -frob2_tr trmx_mul frob2_l ?trmxK // frob2_tr. Qed.
Lemma frob2_ge0 n (X : 'M[T]_n) : 0 <= frob2 X.
Proof. by apply: sumr_ge0 => i _; apply: sumr_ge0 => j _; apply: sqr_ge0. Qed.
Lemma frob2_sub n (A Q : 'M[T]_n) : Q *m Q^T = 1%:M ->
  frob2 (A - Q) = frob2 A - 2%:R * \tr (Q^T *m A) + n%:R.
Proof.
move=> o; have o' := mulmx1C o; rewrite !frob2E.
have -> : (A - Q)^T = A^T - Q^T by apply/matrixP => i j; rewrite !mxE.
rewrite mulmxBl !mulmxBr !mxtraceB o' mxtrace1.
have -> : \tr (A^T *m Q) = \tr (Q^T *m A) by rewrite -mxtrace_tr trmx_mul trmxK.
by set t := \tr (Q^T *m A); set u := \tr _; set v := n%:R; fld.
Qed.
Lemma nearest_tr n (A R : 'M[T]_n) : is_rotation R ->
  (forall Q, is_rotation Q -> \tr (Q^T *m A) <= \tr (R^T *m A)) -> nearest_rotation A R.
Proof.
move=> r h; split=> // Q q; rewrite !frob2_sub ?(proj1 r) ?(proj1 q) // ler_add2r ler_add2l ler_opp2.
by rewrite ler_pmul2l ?ltr0n //; apply: h.
Qed.

(* rotations in the plane *)
Definition e0 : 'I_2 := ord0.
Definition e1 : 'I_2 := lift ord0 ord0.
Lemma sum2 (f : 'I_2 -> T) : \sum_i f i = f e0 + f e1.
Proof. by rewrite !big_ord_recl big_ord0 addr0. Qed.
Lemma mul2 (X Y : 'M[T]_2) i j : (X *m Y) i j = X i e0 * Y e0 j + X i e1 * Y e1 j.
Proof. by rewrite mxE sum2. Qed.
Lemma tr2 (X : 'M[T]_2) : \tr X = X e0 e0 + X e1 e1.
Proof. by rewrite /mxtrace sum2. Qed.
Lemma ord2 (i : 'I_2) : i = e0 \/ i = e1.
Proof. by case: i => [[|[|i]] h] //; [left | right]; apply: val_inj. Qed.
Lemma det22 (Q : 'M[T]_2) : \det Q = Q e0 e0 * Q e1 e1 - Q e0 e1 * Q e1 e0.
Proof.
pose B i j := Q (if i == 0%N then e0 else e1) (if j == 0%N then e0 else e1).
have {1}-> : Q = mx 2 2 B.
  by apply/matrixP => i j; rewrite mxE /B; case: (ord2 i) => ->; case: (ord2 j) => ->.
rewrite -det_2_ok /det_2 /B /=; fld.
Qed.
Lemma rot2 (Q : 'M[T]_2) : is_rotation Q ->
  [/\ Q e1 e1 = Q e0 e0, Q e0 e1 = - Q e1 e0 & Q e0 e0 * Q e0 e0 + Q e1 e0 * Q e1 e0 = 1].
Proof.
case=> o d; have o' := mulmx1C o.
have q00 : Q e0 e0 * Q e0 e0 + Q e1 e0 * Q e1 e0 = 1.
  by have := congr1 (fun M : 'M[T]_2 => M e0 e0) o'; rewrite mul2 !mxE.
have q01 : Q e0 e0 * Q e0 e1 + Q e1 e0 * Q e1 e1 = 0.
  by have := congr1 (fun M : 'M[T]_2 => M e0 e1) o'; rewrite mul2 !mxE.
have dt : Q e0 e0 * Q e1 e1 - Q e0 e1 * Q e1 e0 = 1.
  by rewrite -d det22.
split=> //.
- transitivity (Q e1 e1 * (Q e0 e0 * Q e0 e0 + Q e1 e0 * Q e1 e0)); first by rewrite q00 mulr1.
  transitivity (Q e0 e0 * (Q e0 e0 * Q e1 e1 - Q e0 e1 * Q e1 e0)
     + Q e1 e0 * (Q e0 e0 * Q e0 e1 + Q e1 e0 * Q e1 e1)); first by fld.
  by rewrite dt q01 mulr1 mulr0 addr0.
- transitivity (Q e0 e1 * (Q e0 e0 * Q e0 e0 + Q e1 e0 * Q e1 e0)); first by rewrite q00 mulr1.
  transitivity (Q e0 e0 * (Q e0 e0 * Q e0 e1 + Q e1 e0 * Q e1 e1)
     - Q e1 e0 * (Q e0 e0 * Q e1 e1 - Q e0 e1 * Q e1 e0)); first by fld.
  by rewrite dt q01 mulr1 mulr0 add0r.
Qed.
Lemma unit_le1 (p q : T) : p * p + q * q = 1 -> p <= 1.
Proof.
move=> h; have h' : p ^+ 2 <= 1 by rewrite expr2 -h ler_addl -expr2 sqr_ge0.
by have := ler_wsqrtr h'; rewrite sqrtr1 sqrtr_sqr; apply: le_trans; apply: ler_norm.
Qed.
(* a symmetric matrix with trace >= 0: no rotation increases the trace *)
Lemma sym_tr2 (W S : 'M[T]_2) : is_rotation W -> S^T = S -> 0 <= \tr S -> \tr (W *m S) <= \tr S.
Proof.
move=> /rot2 [w1 w2 w3] s t.
have s01 : S e1 e0 = S e0 e1 by have := congr1 (fun M : 'M[T]_2 => M e0 e1) s; rewrite mxE.
have -> : \tr (W *m S) = W e0 e0 * \tr S by rewrite !tr2 !mul2 w1 w2 s01; fld.
by rewrite ler_pimull // (unit_le1 w3).
Qed.
Lemma near2 (A R S : 'M[T]_2) : is_rotation R -> A = R *m S -> S^T = S -> 0 <= \tr S -> nearest_rotation A R.
Proof.
move=> r a s t; apply: nearest_tr => // Q q; rewrite a !mulmxA (mulmx1C (proj1 r)) mul1mx.
by apply: sym_tr2 => //; apply: rotM => //; apply: rotT.
Qed.
Lemma gmx2 g : rowi g = 0%N -> rowk g = 1%N ->
  [/\ gmx 2 g e0 e0 = gc g, gmx 2 g e0 e1 = - gs g, gmx 2 g e1 e0 = gs g & gmx 2 g e1 e1 = gc g].
Proof. by move=> i k; split; rewrite mxE i k. Qed.

Lemma polar2_eq A g r Sm : rowi g = 0%N -> rowk g = 1%N -> polar2 A g = (r, Sm) ->
  [/\ [/\ unit_g r, rowi r = 0%N & rowk r = 1%N], mx 2 2 Sm = gmx 2 r *m mx 2 2 A,
      Sm 0%N 1%N = Sm 1%N 0%N & 0 <= Sm 0%N 0%N + Sm 1%N 1%N].
Proof.
move=> gi gk; rewrite /polar2 gi gk.
set x0 := A 0%N 0%N + A 1%N 1%N; set x1 := A 1%N 0%N - A 0%N 1%N; set d := Num.sqrt _; set r0 := if _ then _ else _; case=> e <-; subst r; set r := r0.
have ri : rowi r = 0%N by rewrite /r /r0; case: ifP.
have rk : rowk r = 1%N by rewrite /r /r0; case: ifP.
have dd : d * d = x0 * x0 + x1 * x1.
  by have h : 0 <= x0 * x0 + x1 * x1; [rewrite addr_ge0 // -expr2 sqr_ge0 | rewrite -expr2; exact: sqr_sqrtr].
have u : unit_g r.
  rewrite /unit_g /r /r0; case: ifP => d0 /=; last by rewrite mulr1 mulr0 addr0.
  transitivity ((d * d) / (d * d)); last by apply: divff; rewrite mulf_neq0.
  rewrite {1}dd; have d' : d <> 0 by apply/eqP.
  by fld.
have x00 : d = 0 -> x0 = 0 /\ x1 = 0 by move=> e; apply: sumsq_eq0; rewrite -dd e mulr0.
have ex1 : gc r * x1 + gs r * x0 = 0.
  rewrite /r /r0; case: ifP => d0 /=.
    have d' : d <> 0 by apply/eqP.
    by fld.
  by case: (x00 (eqP (negbFE d0))) => -> ->; rewrite !mulr0 addr0.
have ex2 : gc r * x0 - gs r * x1 = d.
  rewrite /r /r0; case: ifP => d0 /=.
    transitivity ((x0 * x0 + x1 * x1) / d); last by rewrite -dd mulfK.
    have d' : d <> 0 by apply/eqP.
    by fld.
  by move: (eqP (negbFE d0)) => e; case: (x00 e) => -> ->; rewrite e !mulr0 subrr.
have v : valid 2 r by rewrite /valid ri rk.
split=> //; first by rewrite row_ok.
- rewrite !rowRotationE ?ri ?rk //=; apply/eqP; rewrite -subr_eq0; apply/eqP.
  transitivity (- (gc r * x1 + gs r * x0)); last by rewrite ex1 oppr0.
  by rewrite /x0 /x1; fld.
- rewrite !rowRotationE ?ri ?rk //=.
  have -> : gc r * A 0%N 0%N - gs r * A 1%N 0%N + (gs r * A 0%N 1%N + gc r * A 1%N 1%N) = d.
    by rewrite -ex2 /x0 /x1; fld.
  exact: sqrtr_ge0.
Qed.

(* the symmetric eigenproblem *)
Lemma jacobi2 (x y z c s : T) : c * c + s * s = 1 -> c * s * (x - z) + (c * c - s * s) * y = 0 ->
  forall g (S : nat -> nat -> T), g = Giv 0 1 c s -> S 0%N 0%N = x -> S 0%N 1%N = y -> S 1%N 0%N = y -> S 1%N 1%N = z ->
  gmx 2 g *m mx 2 2 S *m (gmx 2 g)^T
  = diag_mx (\row_j (if j == e0 then c * c * x - 2%:R * c * s * y + s * s * z else s * s * x + 2%:R * c * s * y + c * c * z)).
Proof.
move=> u off g S -> s00 s01 s10 s11.
have off' : - (c * s * (x - z) + (c * c - s * s) * y) = 0 by rewrite off oppr0.
apply/matrixP => i j; rewrite !mul2 !mxE /=.
case: (ord2 i) => ->; case: (ord2 j) => -> /=; rewrite ?mulr1n ?mulr0n s00 s01 s10 s11.
- fld.
- by rewrite -[RHS]off; fld.
- by rewrite -[RHS]off; fld.
- fld.
Qed.

Definition rows01 g := [/\ unit_g g, rowi g = 0%N & rowk g = 1%N].
Lemma gmulC g h : rows01 g -> rows01 h -> givens_mul g h = givens_mul h g.
Proof.
move=> [_ gi gk] [_ hi hk]; rewrite /givens_mul gi gk hi hk.
by congr (Giv _ _ _ _); fld.
Qed.
Lemma gmul_unit g h : rows01 g -> rows01 h -> rows01 (givens_mul g h).
Proof.
move=> [gu gi gk] [hu _ _]; split=> //; rewrite /unit_g /=.
by transitivity ((gc g * gc g + gs g * gs g) * (gc h * gc h + gs h * gs h)); [fld | rewrite gu hu mulr1].
Qed.

(* the eigenvectors of S, before sorting *)
Lemma eig2 (x y z : T) (tau := (x - z) / 2%:R) (w := Num.sqrt (tau * tau + y * y))
  (t := if 0 < tau then y / (tau + w) else y / (tau - w)) (c := rsqrt (t * t + 1)) (s := - t * c) :
  y * y != 0 -> c * c + s * s = 1 /\ c * s * (x - z) + (c * c - s * s) * y = 0.
Proof.
move=> yy.
have pos : 0 < t * t + 1 by rewrite ltr_spaddr ?ltr01 // -expr2 sqr_ge0.
have cc : c * c * (t * t + 1) = 1 := rsqrt_sq pos.
have ww : w * w = tau * tau + y * y.
  by rewrite -expr2 sqr_sqrtr // addr_ge0 // -expr2 sqr_ge0.
have wpos : 0 < w.
  by rewrite sqrtr_gt0 ltr_paddl // -?expr2 ?sqr_ge0 // lt_def sqr_ge0 andbT expr2.
have root : y * (t * t) + (x - z) * t - y = 0.
  have xz : x - z = 2%:R * tau by rewrite /tau; fld.
  rewrite xz /t; case: ifP => tp.
    have n : tau + w <> 0 by apply/eqP; rewrite gt_eqF // addr_gt0.
    transitivity (y * (tau * tau + y * y - w * w) / ((tau + w) * (tau + w))); first by fld.
    by rewrite ww subrr mulr0 mul0r.
  have n : tau - w <> 0.
    apply/eqP; rewrite lt_eqF // subr_lt0; apply: le_lt_trans wpos; by rewrite leNgt tp.
  transitivity (y * (tau * tau + y * y - w * w) / ((tau - w) * (tau - w))); first by fld.
  by rewrite ww subrr mulr0 mul0r.
split; first by rewrite -cc /s; fld.
transitivity (- (c * c) * (y * (t * t) + (x - z) * t - y)); last by rewrite root mulr0.
by rewrite /s; fld.
Qed.

Definition svd2_spec A (r : givens T * (T * T) * givens T) : Prop :=
  let: (u, (S0, S1), v) := r in
  [/\ rows01 u, rows01 v,
      (gmx 2 u)^T *m diag 2 (fun i => if i == 0%N then S0 else S1) *m gmx 2 v = mx 2 2 A
    & `|S1| <= S0].
Lemma svd2_ok A gu gv : rowi gu = 0%N -> rowk gu = 1%N -> rowi gv = 0%N -> rowk gv = 1%N ->
  svd2_spec A (svd2 A gu gv).
Proof.
move=> ui uk vi vk; rewrite /svd2_spec /svd2.
case E : (polar2 A gu) => [r Sm]; have [ru mS s01 tS] := polar2_eq ui uk E.
set x := Sm 0%N 0%N; set y := Sm 0%N 1%N; set z := Sm 1%N 1%N.
pose res (c s S0 S1 : T) :=
  [/\ c * c + s * s = 1, c * s * (x - z) + (c * c - s * s) * y = 0,
      S0 = c * c * x - 2%:R * c * s * y + s * s * z & S1 = s * s * x + 2%:R * c * s * y + c * c * z].
suff main c s S0 S1 : res c s S0 S1 ->
  let '(S0, S1, V) := if S0 < S1 then (S1, S0, Giv (rowi gv) (rowk gv) (- s) c)
                      else (S0, S1, Giv (rowi gv) (rowk gv) c s) in
  [/\ rows01 (givens_mul r V), rows01 V,
      (gmx 2 (givens_mul r V))^T *m diag 2 (fun i => if i == 0%N then S0 else S1) *m gmx 2 V = mx 2 2 A
    & `|S1| <= S0].
  case: (eqVneq (y * y) 0) => [y0|yn].
    have y0' : y = 0 by move/eqP: y0; rewrite mulf_eq0 orbb => /eqP.
    have := main 1 0 x z; case: (if x < z then _ else _) => [[S0 S1] V]; apply.
    by split; rewrite ?y0'; fld.
  set t := (if 0 < (x - z) / 2%:R then _ else _); set c := rsqrt _; set s := - t * c.
  have [e1 e2] := eig2 x z yn.
  have := main c s (c * c * x - 2%:R * c * s * y + s * s * z) (s * s * x + 2%:R * c * s * y + c * c * z).
  by case: (if _ < _ then _ else _) => [[S0 S1] V]; apply; split.
move=> [u1 off E0 E1].
have tr : S0 + S1 = x + z.
  transitivity ((c * c + s * s) * (x + z)); last by rewrite u1 mul1r.
  by rewrite E0 E1; fld.
have tr0 : 0 <= S0 + S1 by rewrite tr.
pose res2 V S0 S1 := gmx 2 V *m mx 2 2 Sm *m (gmx 2 V)^T = diag 2 (fun i => if i == 0%N then S0 else S1).
have concl V (S0' S1' : T) : rows01 V -> res2 V S0' S1' -> 0 <= S0' + S1' -> S1' <= S0' ->
  [/\ rows01 (givens_mul r V), rows01 V,
      (gmx 2 (givens_mul r V))^T *m diag 2 (fun i => if i == 0%N then S0' else S1') *m gmx 2 V = mx 2 2 A
    & `|S1'| <= S0'].
  move=> v01 d t le; split=> //; first exact: gmul_unit.
    have vv : valid 2 V by case: v01 => _ a b; rewrite /valid a b.
    have vr : valid 2 r by case: ru => _ a b; rewrite /valid a b.
    have uv : unit_g V by case: v01.
    have ur : unit_g r by case: ru.
    rewrite gmulC // -gmx_mul //; [|by case: v01 ru => _ -> _ [_ -> _] | by case: v01 ru => _ _ -> [_ _ ->]].
    rewrite trmx_mul -d mS !mulmxA -(mulmxA _ _ (gmx 2 V)) gmx_orth // mulmx1.
    rewrite -(mulmxA _ (gmx 2 V)^T) gmx_orth // mulmx1 gmx_orth //.
    by rewrite mul1mx.
  by rewrite ler_norml le andbT -subr_ge0 opprK addrC.
have sm10 : Sm 1%N 0%N = y by rewrite -s01.
case: ifP => cmp; apply: concl.
- by split=> //=; rewrite /unit_g /= mulrNN addrC.
- rewrite /res2 (@jacobi2 x y z (- s) c _ _ _ Sm (f_equal2 (fun a b => Giv a b (- s) c) vi vk)) //.
  + by congr diag_mx; apply/matrixP => i j; rewrite !mxE; case: (ord2 j) => -> /=; rewrite ?E0 ?E1; fld.
  + by rewrite mulrNN addrC.
  + transitivity (- (c * s * (x - z) + (c * c - s * s) * y)); last by rewrite off oppr0.
    by fld.
- by rewrite addrC.
- by rewrite ltW.
- by split.
- rewrite /res2 (@jacobi2 x y z c s _ _ _ Sm (f_equal2 (fun a b => Giv a b c s) vi vk)) //.
  by congr diag_mx; apply/matrixP => i j; rewrite !mxE; case: (ord2 j) => -> /=; rewrite ?E0 ?E1.
- by [].
- by rewrite leNgt cmp.
Qed.
End Two.
