(* The singular value and polar decompositions of 3 x 3 matrices. *)
From mathcomp Require Import all_ssreflect all_algebra.
From Coq Require Import Field.
From Verif Require Import FieldTac MatModel MatSpec MatProofs MatProofs2 RotModel RotSpec RotProofs SvdModel SvdSpec SvdProofs SvdProofs2 SvdProofs4 SvdProofs5.
Set Implicit Arguments.
Unset Strict Implicit.
Unset Printing Implicit Defensive.
Import GRing.Theory Num.Theory Order.Theory.
Local Open Scope ring_scope.

Section Three.
Variable T : rcfType.
Let F : fieldType := [fieldType of T].
Add Field ff : (cfield F).
Ltac fld := to_fld F; field; try exact (@two_neq0 T).
Notation mat := (nat -> nat -> T).
Notation vec := (nat -> T).
Implicit Types (A B U V M : mat) (Sg : vec).

Lemma ent2 (X Y : 'M[T]_2) S0 S1 B : X^T *m diag 2 (fun i => if i == 0%N then S0 else S1) *m Y = mx 2 2 B ->
  forall i j, X e0 i * S0 * Y e0 j + X e1 i * S1 * Y e1 j = B i j.
Proof.
move=> e i j; have := congr1 (fun M : 'M[T]_2 => M i j) e.
by rewrite /diag mul_mx_diag mul2 !mxE.
Qed.
Lemma eqs2 u v (S0 S1 : T) B : rows01 u -> rows01 v ->
  (gmx 2 u)^T *m diag 2 (fun i => if i == 0%N then S0 else S1) *m gmx 2 v = mx 2 2 B ->
  [/\ gc u * S0 * gc v + gs u * S1 * gs v = B 0%N 0%N,
      - (gc u * S0 * gs v) + gs u * S1 * gc v = B 0%N 1%N,
      - (gs u * S0 * gc v) + gc u * S1 * gs v = B 1%N 0%N
    & gs u * S0 * gs v + gc u * S1 * gc v = B 1%N 1%N].
Proof.
move=> [_ ui uk] [_ vi vk] e.
have [u00 u01 u10 u11] := gmx2 ui uk; have [v00 v01 v10 v11] := gmx2 vi vk.
have ent := ent2 e.
split.
- by have := ent e0 e0; rewrite u00 u10 v00 v10.
- by have := ent e0 e1; rewrite u00 u10 v01 v11 => <-; fld.
- by have := ent e1 e0; rewrite u01 u11 v00 v10 => <-; fld.
- by have := ent e1 e1; rewrite u01 u11 v01 v11 => <-; fld.
Qed.

(* what process<t> sees of B *)
Definition block (t : nat) B : mat := fun i j =>
  if (i == j) || (((i == t) || (i == t.+1)) && ((j == t) || (j == t.+1))) then B i j else 0.

Definition process_spec (t : nat) B U V (r : mat * vec * mat) : Prop :=
  let: (U', Sg, V') := r in
  [/\ mx 3 3 U' *m diag 3 Sg *m (mx 3 3 V')^T = usv 3 U (block t B) V,
      is_rotation (mx 3 3 U) -> is_rotation (mx 3 3 U'),
      is_rotation (mx 3 3 V) -> is_rotation (mx 3 3 V')
    & `|Sg t.+1| <= Sg t].
Lemma process_ok t B U V : (t < 2)%N -> process_spec t B U V (process t B U V).
Proof.
move=> t2; rewrite /process_spec /process.
set B_ := mset (mset (mset (mset _ _ _ _) _ _ _) _ _ _) _ _ _.
have := @svd2_ok T B_ (givens_id T 0 1) (givens_id T 0 1) erefl erefl erefl erefl.
case: (svd2 _ _ _) => [[u [S0 S1]] v] [ru rv e le].
set Sg := vset (vset _ _ _) _ _.
have [b00 b01 b10 b11] := eqs2 ru rv e; rewrite /B_ /mset /= in b00 b01 b10 b11; clear e B_.
case: ru => uu ui uk; case: rv => vu vi vk.
set u3 := Giv _ _ (gc u) _; set v3 := Giv _ _ (gc v) _.
have u3u : unit_g u3 by [].
have v3u : unit_g v3 by [].
have u3v : valid 3 u3 by rewrite /valid /= ui uk; case: (t) t2 => [|[|]].
have v3v : valid 3 v3 by rewrite /valid /= vi vk; case: (t) t2 => [|[|]].
split.
- rewrite !tr_row // trmx_mul trmxK /usv -!mulmxA; congr (_ *m _); rewrite !mulmxA; congr (_ *m _).
  rewrite /u3 /v3 ui uk vi vk /diag mul_mx_diag.
  case: t t2 @Sg b00 b01 b10 b11 {u3 v3 u3u v3u u3v v3v} => [|[|t]] // _ Sg b00 b01 b10 b11;
  ents3; rewrite !mxE !big_ord_recl big_ord0 !mxE /=; rewrite ?mulr1n ?mulr0n /block /Sg /vset /=; nrm B;
  rewrite -?b00 -?b01 -?b10 -?b11; fld.
- exact: col_rot.
- exact: col_rot.
- by rewrite /Sg /vset eqxx ltn_eqF // eqxx.
Qed.

Lemma frob3 (X : mat) : frob2 (mx 3 3 X) =
  X 0%N 0%N ^+ 2 + X 0%N 1%N ^+ 2 + X 0%N 2%N ^+ 2 + (X 1%N 0%N ^+ 2 + X 1%N 1%N ^+ 2 + X 1%N 2%N ^+ 2)
  + (X 2%N 0%N ^+ 2 + X 2%N 1%N ^+ 2 + X 2%N 2%N ^+ 2).
Proof. rewrite /frob2 !big_ord_recl !big_ord0 /= !mxE /=; nrm X; by fld. Qed.
Lemma drop0 B : frob2 (mx 3 3 B - mx 3 3 (block 0 B)) =
  B 0%N 2%N * B 0%N 2%N + B 1%N 2%N * B 1%N 2%N + B 2%N 0%N * B 2%N 0%N + B 2%N 1%N * B 2%N 1%N.
Proof.
have -> : mx 3 3 B - mx 3 3 (block 0 B) = mx 3 3 (fun i j => B i j - block 0 B i j).
  by apply/matrixP => i j; rewrite !mxE.
by rewrite frob3 /block /=; fld.
Qed.
Lemma drop1 B : frob2 (mx 3 3 B - mx 3 3 (block 1 B)) =
  B 0%N 1%N * B 0%N 1%N + B 0%N 2%N * B 0%N 2%N + B 1%N 0%N * B 1%N 0%N + B 2%N 0%N * B 2%N 0%N.
Proof.
have -> : mx 3 3 B - mx 3 3 (block 1 B) = mx 3 3 (fun i j => B i j - block 1 B i j).
  by apply/matrixP => i j; rewrite !mxE.
by rewrite frob3 /block /=; fld.
Qed.

Definition result (A : 'M[T]_3) (tol : T) (r : mat * vec * mat) : Prop :=
  let: (U, Sg, V) := r in
  [/\ is_rotation (mx 3 3 U), is_rotation (mx 3 3 V), sorted3 Sg
    & frob2 (A - mx 3 3 U *m diag 3 Sg *m (mx 3 3 V)^T) <= tol * tol].

Lemma fin0 (A : 'M[T]_3) B U V tol : is_rotation (mx 3 3 U) -> is_rotation (mx 3 3 V) -> usv 3 U B V = A ->
  frob2 (mx 3 3 B - mx 3 3 (block 0 B)) <= tol * tol ->
  result A tol (let '(U, Sg, V) := process 0 B U V in sort_sigma0 U Sg V).
Proof.
move=> rU rV e le; have := @process_ok 0 B U V isT.
case: (process 0 B U V) => [[U1 S1] V1] [e1 rU1 rV1 s1].
case E : (sort_sigma0 U1 S1 V1) => [[U2 S2] V2].
have [sm so] := sort0_ok s1 E; have [e2 rU2 rV2] := same_usv sm.
split=> //; [exact/rU2/rU1 | exact/rV2/rV1 |].
rewrite e2 e1 -e /usv -mulmxBl -mulmxBr frob2_r ?frob2_l //; first exact: mulmx1C (proj1 rU).
by rewrite trmxK; apply: mulmx1C (proj1 rV).
Qed.
Lemma fin1 (A : 'M[T]_3) B U V tol : is_rotation (mx 3 3 U) -> is_rotation (mx 3 3 V) -> usv 3 U B V = A ->
  frob2 (mx 3 3 B - mx 3 3 (block 1 B)) <= tol * tol ->
  result A tol (let '(U, Sg, V) := process 1 B U V in sort_sigma1 U Sg V).
Proof.
move=> rU rV e le; have := @process_ok 1 B U V isT.
case: (process 1 B U V) => [[U1 S1] V1] [e1 rU1 rV1 s1].
case E : (sort_sigma1 U1 S1 V1) => [[U2 S2] V2].
have [sm so] := sort1_ok s1 E; have [e2 rU2 rV2] := same_usv sm.
split=> //; [exact/rU2/rU1 | exact/rV2/rV1 |].
rewrite e2 e1 -e /usv -mulmxBl -mulmxBr frob2_r ?frob2_l //; first exact: mulmx1C (proj1 rU).
by rewrite trmxK; apply: mulmx1C (proj1 rV).
Qed.

Lemma sq_le (x tol : T) : `|x| <= tol -> x * x <= tol * tol.
Proof.
move=> h; rewrite -!expr2 -[x ^+ 2]real_normK ?num_real //.
by rewrite ler_sqr ?nnegrE //; apply: le_trans h.
Qed.
Lemma scaled_le (k x tol : T) : k <= 1 -> `|x| <= tol -> x * x * k <= tol * tol.
Proof.
move=> k1 h; apply: le_trans (sq_le h); apply: ler_pimulr => //; by rewrite -expr2 sqr_ge0.
Qed.
Lemma unit_s (c s : T) : c * c + s * s = 1 -> s * s <= 1.
Proof. by move=> <-; rewrite ler_addr -expr2 sqr_ge0. Qed.

Lemma finish_ok (A : 'M[T]_3) tol B U V : is_rotation (mx 3 3 U) -> is_rotation (mx 3 3 V) -> usv 3 U B V = A ->
  bidiag B -> ~~ qr_running tol B -> result A tol (svd_finish tol B U V).
Proof.
move=> rU rV e [z10 z20 z21 z02] nr; rewrite /svd_finish !absE.
case: ifP => c12.
  by apply: fin0 => //; rewrite drop0 z02 z20 z21 !mulr0 add0r !addr0 sq_le.
case: ifP => c01.
  by apply: fin1 => //; rewrite drop1 z02 z10 z20 !mulr0 !addr0 sq_le.
case: ifP => c11.
  set r := computeUnconventional _ _ _.
  have ri : rowi r = 1%N by rewrite unconv_i.
  have rk : rowk r = 2%N by rewrite unconv_k.
  have rv : valid 3 r by rewrite /valid ri rk.
  have ru : unit_g r by apply: unconv_unit.
  have k : gc r * B 1%N 2%N - gs r * B 2%N 2%N = 0 by apply: unconv_zero.
  apply: fin0; [exact: col_rot | by [] | by rewrite usv_row_ok |].
  rewrite drop0 !rowRotationE ?ri ?rk //= z10 z20 z21 z02 k !(mulr0, addr0, add0r).
  have -> : gs r * B 1%N 1%N * (gs r * B 1%N 1%N) = B 1%N 1%N * B 1%N 1%N * (gs r * gs r) by fld.
  by apply: scaled_le => //; apply: unit_s ru.
case: ifP => c22.
  set r := computeConventional (givens_id T 1 2) _ _.
  have ri : rowi r = 1%N by rewrite conv_i.
  have rk : rowk r = 2%N by rewrite conv_k.
  have rv : valid 3 r by rewrite /valid ri rk.
  have ru : unit_g r by apply: conv_unit.
  have k : gs r * B 1%N 1%N + gc r * B 1%N 2%N = 0 by apply: conv_zero.
  set B1 := columnRotation 3 r B.
  have b02 : B1 0%N 2%N = gs r * B 0%N 1%N by rewrite /B1 columnRotationE ?ri ?rk //= z02 mulr0 addr0.
  have b00 : B1 0%N 0%N = B 0%N 0%N by rewrite /B1 columnRotationE ?ri ?rk.
  have b10 : B1 1%N 0%N = 0 by rewrite /B1 columnRotationE ?ri ?rk.
  have b12 : B1 1%N 2%N = 0 by rewrite /B1 columnRotationE ?ri ?rk.
  have b20 : B1 2%N 0%N = 0 by rewrite /B1 columnRotationE ?ri ?rk.
  have b21 : B1 2%N 1%N = - (gs r * B 2%N 2%N) by rewrite /B1 columnRotationE ?ri ?rk //= z21 mulr0 add0r.
  have b22 : B1 2%N 2%N = gc r * B 2%N 2%N by rewrite /B1 columnRotationE ?ri ?rk //= z21 mulr0 add0r.
  have eB1 : usv 3 U B1 (columnRotation 3 r V) = A by rewrite usv_col_ok.
  have rV1 : is_rotation (mx 3 3 (columnRotation 3 r V)) by apply: col_rot.
  clearbody B1; set V1 := columnRotation 3 r V in eB1 rV1 *; clearbody V1.
  set q := computeConventional (givens_id T 0 2) _ _.
  have qi : rowi q = 0%N by rewrite conv_i.
  have qk : rowk q = 2%N by rewrite conv_k.
  have qv : valid 3 q by rewrite /valid qi qk.
  have qu : unit_g q by apply: conv_unit.
  have kq : gs q * B1 0%N 0%N + gc q * B1 0%N 2%N = 0 by apply: conv_zero.
  apply: fin0; [by [] | exact: col_rot | by rewrite usv_col_ok |].
  rewrite drop0 !columnRotationE ?qi ?qk //= kq b10 b12 b20 b21 b22 !(mulr0, addr0, add0r).
  have -> : - (gs q * (gc r * B 2%N 2%N)) * - (gs q * (gc r * B 2%N 2%N))
     + - (gs r * B 2%N 2%N) * - (gs r * B 2%N 2%N)
     = B 2%N 2%N * B 2%N 2%N * ((gs q * gs q) * (gc r * gc r) + gs r * gs r) by fld.
  apply: scaled_le => //; rewrite -[X in _ <= X]ru ler_add2r; apply: ler_pimull.
    by rewrite -expr2 sqr_ge0.
  exact: unit_s qu.
case: ifP => c00.
  set r := computeUnconventional (givens_id T 0 1) _ _.
  have ri : rowi r = 0%N by rewrite unconv_i.
  have rk : rowk r = 1%N by rewrite unconv_k.
  have rv : valid 3 r by rewrite /valid ri rk.
  have ru : unit_g r by apply: unconv_unit.
  have k : gc r * B 0%N 1%N - gs r * B 1%N 1%N = 0 by apply: unconv_zero.
  set B1 := rowRotation 3 r B.
  have b00 : B1 0%N 0%N = gc r * B 0%N 0%N by rewrite /B1 rowRotationE ?ri ?rk //= z10 mulr0 subr0.
  have b01 : B1 0%N 1%N = 0 by rewrite /B1 rowRotationE ?ri ?rk.
  have b10 : B1 1%N 0%N = gs r * B 0%N 0%N by rewrite /B1 rowRotationE ?ri ?rk //= z10 mulr0 addr0.
  have b20 : B1 2%N 0%N = 0 by rewrite /B1 rowRotationE ?ri ?rk.
  have b21 : B1 2%N 1%N = 0 by rewrite /B1 rowRotationE ?ri ?rk.
  have eB1 : usv 3 (columnRotation 3 r U) B1 V = A by rewrite usv_row_ok.
  have rU1 : is_rotation (mx 3 3 (columnRotation 3 r U)) by apply: col_rot.
  clearbody B1; set U1 := columnRotation 3 r U in eB1 rU1 *; clearbody U1.
  set q := computeUnconventional (givens_id T 0 2) _ _.
  have qi : rowi q = 0%N by rewrite unconv_i.
  have qk : rowk q = 2%N by rewrite unconv_k.
  have qv : valid 3 q by rewrite /valid qi qk.
  have qu : unit_g q by apply: unconv_unit.
  have kq : gc q * B1 0%N 2%N - gs q * B1 2%N 2%N = 0 by apply: unconv_zero.
  apply: fin1; [exact: col_rot | by [] | by rewrite usv_row_ok |].
  rewrite drop1 !rowRotationE ?qi ?qk //= kq b00 b01 b10 b20 b21 !(mulr0, addr0, add0r, subr0).
  rewrite [X in X <= _](_ : _ = B 0%N 0%N * B 0%N 0%N * ((gs q * gs q) * (gc r * gc r) + gs r * gs r)); last by fld.
  apply: scaled_le => //; rewrite -[X in _ <= X]ru ler_add2r; apply: ler_pimull.
    by rewrite -expr2 sqr_ge0.
  exact: unit_s qu.
by move: nr; rewrite /qr_running !absE !ltNge c12 c01 c11 c22 c00.
Qed.

(* the iteration *)
Definition inv A (s : mat * mat * mat) : Prop :=
  let: (B, U, V) := s in
  [/\ usv 3 U B V = mx 3 3 A, bidiag B, is_rotation (mx 3 3 U) & is_rotation (mx 3 3 V)].
Lemma iter_ok A B U V : inv A (B, U, V) -> inv A (qr_iter B U V).
Proof.
move=> [e [z10 z20 z21 z02] rU rV]; rewrite /inv /qr_iter; set r := computeConventional _ _ _.
have ri : rowi r = 0%N by rewrite conv_i.
have rk : rowk r = 1%N by rewrite conv_k.
have rv : valid 3 r by rewrite /valid ri rk.
have ru : unit_g r by apply: conv_unit.
have := zc_ok (columnRotation 3 r B) U (columnRotation 3 r V).
case: (zero_chasing _ _ _) => [[H' U'] V'] [e' b' rU' rV']; split.
- by rewrite e' usv_col_ok.
- by apply: b'; rewrite columnRotationE ?ri ?rk //= z20 z21 !mulr0 subrr.
- exact: rU'.
- by apply: rV'; apply: col_rot.
Qed.
Lemma loop_ok A fuel tol s s' : inv A s -> qr_loop fuel tol s = Some s' ->
  inv A s' /\ ~~ qr_running tol s'.1.1.
Proof.
elim: fuel s => [|fuel IH] [[B U] V] iv /=; case: ifP => // run.
- by case=> <-; rewrite run.
- by apply: IH; apply: iter_ok.
- by case=> <-; rewrite run.
Qed.

Lemma usv_frob A B U V : inv A (B, U, V) -> frob2 (mx 3 3 B) = frob2 (mx 3 3 A).
Proof.
move=> [<- _ rU rV]; rewrite /usv frob2_r ?frob2_l //; first exact: mulmx1C (proj1 rU).
by rewrite trmxK; apply: mulmx1C (proj1 rV).
Qed.
Lemma tol_ok eta A B U V : inv A (B, U, V) ->
  svd_tol eta B = eta * Num.max (Num.sqrt (frob2 (mx 3 3 A)) / 2%:R) 1.
Proof.
move=> iv; rewrite -(usv_frob iv); case: iv => _ [z10 z20 z21 z02] _ _.
rewrite /svd_tol /max_ frob3 z10 z20 z21 z02; congr (_ * _).
set a := Num.sqrt _; set b := Num.sqrt _.
have -> : a = b by rewrite /a /b; congr Num.sqrt; fld.
by rewrite /Num.max; case: ifP.
Qed.
Lemma svd3_ok fuel eta A r : svd3 fuel eta A = Some r ->
  result (mx 3 3 A) (eta * Num.max (Num.sqrt (frob2 (mx 3 3 A)) / 2%:R) 1) r.
Proof.
rewrite /svd3; have := @ub_ok T A; case: (upper_bidiagonalize A) => [[B U] V] iv.
have {}iv : inv A (B, U, V) by [].
rewrite (tol_ok eta iv); set tol := eta * _.
case E : (qr_loop _ _ _) => [[[B' U'] V']|] // [<-].
by have [[e' b' rU' rV'] nr] := loop_ok iv E; apply: finish_ok.
Qed.

(* no rotation increases the trace of a sorted diagonal *)
Lemma rot_diag (w : mat) : is_rotation (mx 3 3 w) ->
  [/\ w 0%N 0%N <= 1, w 1%N 1%N <= 1, w 2%N 2%N <= 1 & 0 <= 1 + w 2%N 2%N - w 0%N 0%N - w 1%N 1%N].
Proof.
move=> /rot_entries [[r0 r1 r2 _ _ _] [[c0 c1 c2 _ _ _] cf]].
case: cf => c00 _ _ _ c11 _ _ _ c22.
move: (w 0%N 0%N) (w 0%N 1%N) (w 0%N 2%N) (w 1%N 0%N) (w 1%N 1%N) (w 1%N 2%N) (w 2%N 0%N) (w 2%N 1%N) (w 2%N 2%N)
  r0 r1 r2 c0 c1 c2 c00 c11 c22 => a b c d e f g h i r0 r1 r2 c0 c1 c2 c00 c11 c22.
have le1 (x y z : T) : x * x + y * y + z * z = 1 -> x <= 1.
  move=> k; apply: (@unit_le1 _ x (Num.sqrt (y * y + z * z))).
  by rewrite -[X in _ + X]expr2 sqr_sqrtr ?addr_ge0 -?expr2 ?sqr_ge0 // !expr2 addrA.
split; [exact: le1 r0 | | |].
- by apply: (le1 e d f); rewrite -[RHS]r1 (addrC (e * e)).
- by apply: (le1 i g h); rewrite -[RHS]r2; fld.
set e3 := 1 + i - a - e.
have p0 : e3 * (1 + a + e + i) = (d - b) * (d - b).
  transitivity (1 + (c * c + f * f + i * i) - (a * a + b * b + c * c) - (d * d + e * e + f * f)
      + b * b + d * d + 2%:R * (i - a * e)); first by rewrite /e3; fld.
  by rewrite c2 r0 r1 -c22; fld.
have p1 : e3 * (1 + a - e - i) = (c + g) * (c + g).
  transitivity (1 + (b * b + e * e + h * h) - (a * a + b * b + c * c) - (g * g + h * h + i * i)
      + c * c + g * g + 2%:R * (a * i - e)); first by rewrite /e3; fld.
  by rewrite c1 r0 r2 -c11; fld.
have p2 : e3 * (1 - a + e - i) = (f + h) * (f + h).
  transitivity (1 + (a * a + d * d + g * g) - (d * d + e * e + f * f) - (g * g + h * h + i * i)
      + f * f + h * h + 2%:R * (e * i - a)); first by rewrite /e3; fld.
  by rewrite c0 r1 r2 -c00; fld.
have q0 : 0 <= e3 * (1 + a + e + i) by rewrite p0 -expr2 sqr_ge0.
have q1 : 0 <= e3 * (1 + a - e - i) by rewrite p1 -expr2 sqr_ge0.
have q2 : 0 <= e3 * (1 - a + e - i) by rewrite p2 -expr2 sqr_ge0.
rewrite leNgt; apply/negP => neg.
have : 0 <= e3 * (4%:R - e3).
  have -> : e3 * (4%:R - e3) = e3 * (1 + a + e + i) + e3 * (1 + a - e - i) + e3 * (1 - a + e - i) by rewrite /e3; fld.
  by rewrite !addr_ge0.
rewrite nmulr_rge0 // subr_le0 => le4.
by have := le_lt_trans le4 neg; rewrite ltrn0.
Qed.

Lemma mx_of (W : 'M[T]_3) : exists w, W = mx 3 3 w.
Proof.
by exists (fun i j => W (inord i) (inord j)); apply/matrixP => i j; rewrite mxE !inord_val.
Qed.
Lemma sorted_tr (W : 'M[T]_3) Sg : is_rotation W -> sorted3 Sg -> \tr (W *m diag 3 Sg) <= \tr (diag 3 Sg).
Proof.
have [w ->] := mx_of W; move=> /rot_diag [w0 w1 w2 w3] [s01 s12].
have -> : \tr (mx 3 3 w *m diag 3 Sg) = w 0%N 0%N * Sg 0%N + w 1%N 1%N * Sg 1%N + w 2%N 2%N * Sg 2%N.
  rewrite /mxtrace !big_ord_recl big_ord0 /diag !mul_mx_diag !mxE /=; nrm w; nrv Sg; by fld.
have -> : \tr (diag 3 Sg) = Sg 0%N + Sg 1%N + Sg 2%N.
  rewrite /mxtrace !big_ord_recl big_ord0 /diag !mxE /= !mulr1n; nrv Sg; by fld.
have s10 : 0 <= Sg 1%N by apply: le_trans s12.
have s2m : - Sg 1%N <= Sg 2%N by move: s12; rewrite ler_norml => /andP[].
have d0 : 0 <= 1 - w 0%N 0%N by rewrite subr_ge0.
have d1 : 0 <= 1 - w 1%N 1%N by rewrite subr_ge0.
have d2 : 0 <= 1 - w 2%N 2%N by rewrite subr_ge0.
rewrite -subr_ge0.
have -> : Sg 0%N + Sg 1%N + Sg 2%N - (w 0%N 0%N * Sg 0%N + w 1%N 1%N * Sg 1%N + w 2%N 2%N * Sg 2%N)
  = (Sg 0%N - Sg 1%N) * (1 - w 0%N 0%N) + (Sg 2%N + Sg 1%N) * (1 - w 2%N 2%N)
    + Sg 1%N * (1 + w 2%N 2%N - w 0%N 0%N - w 1%N 1%N) by fld.
rewrite !addr_ge0 // mulr_ge0 // ?subr_ge0 //.
by rewrite -[Sg 1%N]opprK subr_ge0.
Qed.

Lemma near3 U Sg V : is_rotation (mx 3 3 U) -> is_rotation (mx 3 3 V) -> sorted3 Sg ->
  nearest_rotation (mx 3 3 U *m diag 3 Sg *m (mx 3 3 V)^T) (mx 3 3 U *m (mx 3 3 V)^T).
Proof.
move=> rU rV so; apply: nearest_tr; first by apply: rotM => //; apply: rotT.
have oV := mulmx1C (proj1 rV); have oU := mulmx1C (proj1 rU).
move=> Q q; rewrite trmx_mul trmxK.
have -> : mx 3 3 V *m (mx 3 3 U)^T *m (mx 3 3 U *m diag 3 Sg *m (mx 3 3 V)^T) = mx 3 3 V *m diag 3 Sg *m (mx 3 3 V)^T.
  by rewrite !mulmxA -(mulmxA _ _ (mx 3 3 U)) oU mulmx1.
have -> : \tr (mx 3 3 V *m diag 3 Sg *m (mx 3 3 V)^T) = \tr (diag 3 Sg).
  by rewrite mxtrace_mulC mulmxA oV mul1mx.
rewrite !mulmxA mxtrace_mulC !mulmxA; apply: sorted_tr => //.
by apply: rotM => //; apply: rotM; apply: rotT.
Qed.

Lemma polar_mul (U V D : 'M[T]_3) : V^T *m V = 1%:M -> (U *m V^T) *m (V *m D *m V^T) = U *m D *m V^T.
Proof. by move=> o; rewrite -!mulmxA (mulmxA V^T V) o mul1mx. Qed.
Definition polar_result (A : 'M[T]_3) (tol : T) (r : mat * mat) : Prop :=
  let: (R, Ss) := r in
  [/\ is_rotation (mx 3 3 R), symmetric (mx 3 3 Ss),
      frob2 (A - mx 3 3 R *m mx 3 3 Ss) <= tol * tol
    & nearest_rotation (mx 3 3 R *m mx 3 3 Ss) (mx 3 3 R)].
Lemma polar3_ok fuel eta A r : polar3 fuel eta A = Some r ->
  polar_result (mx 3 3 A) (eta * Num.max (Num.sqrt (frob2 (mx 3 3 A)) / 2%:R) 1) r.
Proof.
rewrite /polar3; case E : (svd3 fuel eta A) => [[[U Sg] V]|] // [<-].
have [rU rV so le] := svd3_ok E; rewrite /polar_result.
have dE : mx 3 3 (diag_mul_r 3 3 V Sg) = mx 3 3 V *m diag 3 Sg by rewrite diag_r_ok.
have oV := mulmx1C (proj1 rV).
have eR : mx 3 3 (matmul 3 3 3 U (transpose 3 3 V)) = mx 3 3 U *m (mx 3 3 V)^T.
  by rewrite matmul_ok transpose_ok.
have eS : mx 3 3 (matmul 3 3 3 (diag_mul_r 3 3 V Sg) (transpose 3 3 V))
   = mx 3 3 V *m diag 3 Sg *m (mx 3 3 V)^T by rewrite matmul_ok transpose_ok dE.
have RS := polar_mul (mx 3 3 U) (diag 3 Sg) oV.
move: (matmul 3 3 3 U _) (matmul 3 3 3 (diag_mul_r _ _ _ _) _) eR eS => R Ss -> ->.
split.
- by apply: rotM => //; apply: rotT.
- by rewrite /symmetric !trmx_mul trmxK mulmxA /diag tr_diag_mx.
- by rewrite RS.
- by rewrite RS; apply: near3.
Qed.
End Three.
