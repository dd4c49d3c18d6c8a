(* The implicit QR iteration with Wilkinson's shift converges: the quantity
   (B11 B12)^2 B00 B01 shrinks by a constant factor with every step. *)
From mathcomp Require Import all_ssreflect all_algebra.
From Coq Require Import Field.
From Verif Require Import FieldTac MatModel MatSpec MatProofs MatProofs2 RotModel RotSpec RotProofs SvdModel SvdSpec SvdProofs SvdProofs2 SvdProofs4 SvdProofs5 SvdProofs6.
Set Implicit Arguments.
Unset Strict Implicit.
Unset Printing Implicit Defensive.
Import GRing.Theory Num.Theory Order.Theory.
Local Open Scope ring_scope.

Section Conv.
Variable T : rcfType.
Let F : fieldType := [fieldType of T].
Add Field ff : (cfield F).
Ltac fld := to_fld F; field; try exact (@two_neq0 T).
Notation mat := (nat -> nat -> T).
Implicit Types (A B U V H X : mat).

(* Wilkinson's shift: the product of the distances is b^2 *)
Lemma wilkinson_ok (a1 b a2 : T) (mu := wilkinson_shift a1 b a2) : b != 0 ->
  [/\ (a1 - mu) * (a2 - mu) = b * b, `|a2 - mu| <= `|b| & `|b| <= `|a1 - mu|].
Proof.
move=> b0; rewrite /mu /wilkinson_shift absE.
set d := (a1 - a2) / 2%:R; set w := Num.sqrt _.
have bb : 0 < b * b by rewrite -expr2 lt_def sqr_ge0 sqrf_eq0 b0.
have ww : w * w = d * d + b * b.
  have h : 0 <= d * d + b * b by rewrite addr_ge0 // -?expr2 ?sqr_ge0.
  by rewrite -expr2; exact: sqr_sqrtr.
have dn : `|d| * `|d| = d * d by rewrite -!expr2 real_normK ?num_real.
have w0 : 0 <= w by apply: sqrtr_ge0.
have wd : `|d| <= w.
  rewrite -(@ler_pexpn2r _ 2) ?nnegrE // !expr2 dn ww ler_addl; exact: ltW.
have pos : 0 < `|d| + w.
  rewrite lt_def addr_ge0 // andbT; apply/negP => /eqP e; move: bb; rewrite lt_def => /andP[/eqP nb _]; apply: nb.
  have e1 : w = 0 by apply/eqP; move: e => /eqP; rewrite paddr_eq0 // => /andP[].
  have e2 : `|d| = 0 by move: e; rewrite e1 addr0.
  by move: ww; rewrite e1 mulr0 -dn e2 mulr0 add0r => <-.
have q : b * b / (`|d| + w) = w - `|d|.
  apply: (mulIf (x := `|d| + w)); rewrite ?gt_eqF // divfK ?gt_eqF //.
  have -> : (w - `|d|) * (`|d| + w) = w * w - `|d| * `|d| by fld.
  by rewrite dn ww; fld.
rewrite q /copysign absE (ger0_norm (x := w - `|d|)) ?subr_ge0 //.
have e12 : a1 = a2 + 2%:R * d by rewrite /d; fld.
have pm : (w - `|d|) * (w + `|d|) = b * b.
  have -> : (w - `|d|) * (w + `|d|) = w * w - `|d| * `|d| by fld.
  by rewrite dn ww; fld.
have wp : 0 <= w + `|d| by rewrite addr_ge0.
have wm : 0 <= w - `|d| by rewrite subr_ge0.
have le : w - `|d| <= w + `|d| by rewrite ler_add2l -subr_ge0 opprK addr_ge0.
have l1 : w - `|d| <= `|b|.
  rewrite -(@ler_pexpn2r _ 2) ?nnegrE // real_normK ?num_real // !expr2 -pm; exact: ler_wpmul2l.
have l2 : `|b| <= w + `|d|.
  rewrite -(@ler_pexpn2r _ 2) ?nnegrE // real_normK ?num_real // !expr2 -pm; exact: ler_wpmul2r.
case: ifP => sd.
  have dE : d = - `|d| by rewrite ltr0_norm // opprK.
  have E1 : a2 - (a2 - - (w - `|d|)) = - (w - `|d|) by fld.
  have E2 : a1 - (a2 - - (w - `|d|)) = - (w + `|d|) by rewrite e12 {1}dE; fld.
  by rewrite E1 E2 mulrNN mulrC pm !normrN (ger0_norm wm) (ger0_norm wp).
have dE : d = `|d| by rewrite ger0_norm // leNgt sd.
have E1 : a2 - (a2 - (w - `|d|)) = w - `|d| by fld.
have E2 : a1 - (a2 - (w - `|d|)) = w + `|d| by rewrite e12 {1}dE; fld.
by rewrite E1 E2 mulrC pm (ger0_norm wm) (ger0_norm wp).
Qed.

Lemma cubic (u : T) : 0 <= u -> 27%:R * (u * u * (1 - u)) <= 4%:R.
Proof.
move=> u0; rewrite -subr_ge0.
have -> : 4%:R - 27%:R * (u * u * (1 - u)) = (3%:R * u - 2%:R) ^+ 2 * (3%:R * u + 1) by fld.
apply: mulr_ge0; first exact: sqr_ge0.
by apply: addr_ge0; [apply: mulr_ge0; rewrite ?ler0n | exact: ler01].
Qed.

(* one step, on T = B^T B: a1, a2, a3 and b1, b2 are the entries of T, (c1, s1)
   and (c2, s2) the rotations *)
Lemma step_core (a1 a2 a3 b1 b2 mu c1 s1 c2 s2 r b1' b2' : T) :
  c1 * c1 + s1 * s1 = 1 -> c2 * c2 + s2 * s2 = 1 -> b2 != 0 ->
  (a2 - mu) * (a3 - mu) = b2 * b2 -> `|a3 - mu| <= `|b2| -> `|b2| <= `|a2 - mu| ->
  b1 * (s1 * s2) + (a2 - mu) * (c1 * s2) + b2 * c2 = 0 ->
  b2 * (c1 * s2) + (a3 - mu) * c2 = r ->
  b2' = - (r * s2) -> s2 * b1' = s1 * b2 ->
  27%:R * (b2' * b2' * b1') ^+ 2 <= 8%:R * (b2 * b2 * b1) ^+ 2.
Proof.
move=> u1 u2 b20 prod l1 l2 row2 row3 e2 e1.
set k := s1 * s2.
have phi : b2' * b2' * b1' = r * r * k * b2.
  transitivity (r * r * s2 * (s2 * b1')); first by rewrite e2; fld.
  by rewrite e1 /k; fld.
have rA : `|r| <= `|b1 * k|.
  have E : (a2 - mu) * r = - (b1 * b2 * k).
    transitivity (b2 * (b1 * k + (a2 - mu) * (c1 * s2) + b2 * c2) - b1 * b2 * k
        + ((a2 - mu) * (a3 - mu) - b2 * b2) * c2); first by rewrite -row3; fld.
    by rewrite /k row2 prod; fld.
  have b2p : 0 < `|b2| by rewrite normr_gt0.
  rewrite -(ler_pmul2l b2p) -normrM.
  apply: (@le_trans _ _ (`|a2 - mu| * `|r|)); first by rewrite normrM ler_wpmul2r.
  by rewrite -normrM E normrN (mulrC b1) -mulrA normrM.
pose x := `|c1 * s2|; pose y := `|c2|.
have rB : `|r| <= `|b2| * (x + y).
  rewrite -row3; apply: le_trans (ler_norm_add _ _) _; rewrite !normrM mulrDr /x /y normrM ler_add2l.
  by apply: ler_wpmul2r.
have xyk : x * x + y * y + k * k = 1.
  have -> : x * x = (c1 * s2) * (c1 * s2) by rewrite -!expr2 real_normK ?num_real.
  have -> : y * y = c2 * c2 by rewrite -!expr2 real_normK ?num_real.
  transitivity ((c1 * c1 + s1 * s1) * (s2 * s2) + c2 * c2); first by rewrite /k; fld.
  by rewrite u1 mul1r addrC.
have xy2 : (x + y) * (x + y) <= 2%:R * (1 - k * k).
  have -> : 1 - k * k = x * x + y * y by rewrite -[X in X - _]xyk addrK.
  rewrite -subr_ge0.
  have -> : 2%:R * (x * x + y * y) - (x + y) * (x + y) = (x - y) ^+ 2 by fld.
  exact: sqr_ge0.
have x0 : 0 <= x by apply: normr_ge0.
have y0 : 0 <= y by apply: normr_ge0.
(* r^2 <= |b1 k| |b2| (x + y) *)
have rr : r ^+ 2 <= `|b1 * k| * (`|b2| * (x + y)).
  by rewrite -[r ^+ 2]real_normK ?num_real // expr2 ler_pmul.
have r4 : (r ^+ 2) ^+ 2 <= (b1 * k) ^+ 2 * (b2 ^+ 2 * (2%:R * (1 - k * k))).
  apply: (@le_trans _ _ ((`|b1 * k| * (`|b2| * (x + y))) ^+ 2)).
    by rewrite ler_sqr ?nnegrE ?sqr_ge0 // !mulr_ge0 // addr_ge0.
  rewrite exprMn (exprMn _ `|b2|) !real_normK ?num_real //; apply: ler_wpmul2l; first exact: sqr_ge0.
  by apply: ler_wpmul2l; rewrite ?sqr_ge0 // expr2.
have -> : (b2' * b2' * b1') ^+ 2 = (r ^+ 2) ^+ 2 * (k * k * (b2 * b2)) by rewrite phi; fld.
have kb : 0 <= k * k * (b2 * b2) by rewrite mulr_ge0 // -expr2 sqr_ge0.
apply: (@le_trans _ _ (27%:R * ((b1 * k) ^+ 2 * (b2 ^+ 2 * (2%:R * (1 - k * k))) * (k * k * (b2 * b2))))).
  by rewrite ler_pmul2l ?ltr0n //; apply: ler_wpmul2r.
have -> : 27%:R * ((b1 * k) ^+ 2 * (b2 ^+ 2 * (2%:R * (1 - k * k))) * (k * k * (b2 * b2)))
  = 2%:R * (b2 * b2 * b1) ^+ 2 * (27%:R * (k * k * (k * k) * (1 - k * k))) by fld.
have -> : 8%:R * (b2 * b2 * b1) ^+ 2 = 2%:R * (b2 * b2 * b1) ^+ 2 * 4%:R by fld.
apply: ler_wpmul2l; first by rewrite mulr_ge0 ?ler0n ?sqr_ge0.
by apply: cubic; rewrite -expr2 sqr_ge0.
Qed.

Definition gram (X : mat) : 'M[T]_3 := (mx 3 3 X)^T *m mx 3 3 X.
Lemma gram_row g X : valid 3 g -> unit_g g -> gram (rowRotation 3 g X) = gram X.
Proof. by move=> v u; rewrite /gram row_ok // trmx_mul mulmxA -(mulmxA _ _ (gmx 3 g)) gmx_orth // mulmx1. Qed.
Lemma gram_col g X : valid 3 g -> gram (columnRotation 3 g X) = gmx 3 g *m gram X *m (gmx 3 g)^T.
Proof. by move=> v; rewrite /gram tr_row // trmx_mul trmxK !mulmxA. Qed.
Lemma gram_entry X (a b : 'I_3) : gram X a b = X 0%N a * X 0%N b + X 1%N a * X 1%N b + X 2%N a * X 2%N b.
Proof. by rewrite /gram mxE !big_ord_recl big_ord0 !mxE /= addr0 addrA. Qed.

Definition phi (B : mat) : T := B 1%N 1%N * B 1%N 2%N * (B 1%N 1%N * B 1%N 2%N) * (B 0%N 0%N * B 0%N 1%N).
Definition mat9 (a b c d e f g h i : T) : mat := fun x y =>
  match x, y with
  | 0, 0 => a | 0, 1 => b | 0, _ => c
  | 1, 0 => d | 1, 1 => e | 1, _ => f
  | _, 0 => g | _, 1 => h | _, _ => i end%N.

Lemma gram_bidiag B : bidiag B ->
  gram B = mx 3 3 (mat9 (B 0%N 0%N * B 0%N 0%N) (B 0%N 0%N * B 0%N 1%N) 0
     (B 0%N 0%N * B 0%N 1%N) (B 1%N 1%N * B 1%N 1%N + B 0%N 1%N * B 0%N 1%N) (B 1%N 1%N * B 1%N 2%N)
     0 (B 1%N 1%N * B 1%N 2%N) (B 2%N 2%N * B 2%N 2%N + B 1%N 2%N * B 1%N 2%N)).
Proof.
by move=> [z1 z2 z3 z4]; ents3; rewrite gram_entry mxE /= ?z1 ?z2 ?z3 ?z4; fld.
Qed.

Lemma zc_gram H U V : exists g : givens T,
  [/\ unit_g g, rowi g = 1%N, rowk g = 2%N
    & gram (zero_chasing H U V).1.1 = gmx 3 g *m gram H *m (gmx 3 g)^T].
Proof.
rewrite /zero_chasing /=; set r1 := givens_of _ _ 0 1; set r2 := if _ then _ else _; set r3 := givens_of _ _ 1 2.
have v1 : valid 3 r1 by apply: of_valid.
have v3 : valid 3 r3 by apply: of_valid.
have i2 : rowi r2 = 1%N by rewrite /r2; case: ifP; rewrite conv_i.
have k2 : rowk r2 = 2%N by rewrite /r2; case: ifP; rewrite conv_k.
have v2 : valid 3 r2 by rewrite /valid i2 k2.
have u1 : unit_g r1 by apply: of_unit.
have u3 : unit_g r3 by apply: of_unit.
have u2 : unit_g r2 by rewrite /r2; case: ifP => _; apply: conv_unit.
by exists r2; split=> //; rewrite gram_row // gram_col // gram_row.
Qed.

Lemma step_ok B U V A : inv A (B, U, V) -> B 0%N 0%N * B 0%N 1%N != 0 -> B 1%N 1%N * B 1%N 2%N != 0 ->
  27%:R * phi (qr_iter B U V).1.1 ^+ 2 <= 8%:R * phi B ^+ 2.
Proof.
move=> iv n1 n2; have := iter_ok iv; case: iv => [_ bB _ _].
rewrite /qr_iter.
set mu := wilkinson_shift _ _ _; set r := computeConventional _ _ _.
have ri : rowi r = 0%N by rewrite conv_i.
have rk : rowk r = 1%N by rewrite conv_k.
have rv : valid 3 r by rewrite /valid ri rk.
have ru : unit_g r by apply: conv_unit.
have rz : gs r * (B 0%N 0%N * B 0%N 0%N - mu) + gc r * (B 0%N 0%N * B 0%N 1%N) = 0 by apply: conv_zero.
have sr : gs r != 0.
  apply/negP => /eqP e; move: rz; rewrite e mul0r add0r => /eqP; rewrite mulf_eq0 (negbTE n1) orbF => /eqP c0.
  by move: ru; rewrite /unit_g e c0 !mulr0 addr0 => /eqP; rewrite eq_sym oner_eq0.
have [g [gu gi gk]] := zc_gram (columnRotation 3 r B) U (columnRotation 3 r V).
case: (zero_chasing _ _ _) => [[B' U'] V'] /= gE [_ bB' _ _].
have [w1 w2 w3] := @wilkinson_ok (B 1%N 1%N * B 1%N 1%N + B 0%N 1%N * B 0%N 1%N) _
   (B 2%N 2%N * B 2%N 2%N + B 1%N 2%N * B 1%N 2%N) n2.
rewrite -/mu in w1 w2 w3.
move: gE; rewrite gram_col // !gram_bidiag //.
set a1 := B 0%N 0%N * B 0%N 0%N; set b1 := B 0%N 0%N * B 0%N 1%N.
set a2 := _ + B 0%N 1%N * B 0%N 1%N; set b2 := B 1%N 1%N * B 1%N 2%N; set a3 := _ + B 1%N 2%N * B 1%N 2%N.
pose q := mat9 (gc r) (- gs r) 0 (gs r * gc g) (gc r * gc g) (- gs g) (gs r * gs g) (gc r * gs g) (gc g).
have qE : gmx 3 g *m gmx 3 r = mx 3 3 q.
  by ents3; rewrite !mxE !big_ord_recl big_ord0 !mxE /= ri rk gi gk /=; fld.
set M := mx 3 3 (mat9 a1 _ _ _ _ _ _ _ _).
have -> : gmx 3 g *m (gmx 3 r *m M *m (gmx 3 r)^T) *m (gmx 3 g)^T = mx 3 3 q *m M *m (mx 3 3 q)^T.
  by rewrite -qE trmx_mul !mulmxA.
move=> E.
have ent (i j : 'I_3) : mat9 (B' 0%N 0%N * B' 0%N 0%N) (B' 0%N 0%N * B' 0%N 1%N) 0 (B' 0%N 0%N * B' 0%N 1%N)
  (B' 1%N 1%N * B' 1%N 1%N + B' 0%N 1%N * B' 0%N 1%N) (B' 1%N 1%N * B' 1%N 2%N) 0 (B' 1%N 1%N * B' 1%N 2%N)
  (B' 2%N 2%N * B' 2%N 2%N + B' 1%N 2%N * B' 1%N 2%N) i j
  = q i 0%N * (a1 * q j 0%N + b1 * q j 1%N) + q i 1%N * (b1 * q j 0%N + a2 * q j 1%N + b2 * q j 2%N)
    + q i 2%N * (b2 * q j 1%N + a3 * q j 2%N).
  have := congr1 (fun M : 'M[T]_3 => M i j) E.
  rewrite mxE => ->; rewrite !mxE !big_ord_recl big_ord0 !mxE !big_ord_recl !big_ord0 !mxE /=; nrm q.
  by fld.
have e02 : 0 = _ := ent (@Ordinal 3 0 isT) (@Ordinal 3 2 isT).
have e01 : B' 0%N 0%N * B' 0%N 1%N = _ := ent (@Ordinal 3 1 isT) (@Ordinal 3 0 isT).
have e12 : B' 1%N 1%N * B' 1%N 2%N = _ := ent (@Ordinal 3 1 isT) (@Ordinal 3 2 isT).
clear ent E qE.
pose p2 := b1 * (gs r * gs g) + (a2 - mu) * (gc r * gs g) + b2 * gc g.
pose p1 := (a1 - mu) * (gs r * gs g) + b1 * (gc r * gs g).
have p10 : p1 = 0 by transitivity (gs g * (gs r * (a1 - mu) + gc r * b1)); [rewrite /p1; fld | rewrite rz mulr0].
have p20 : p2 = 0.
  apply/eqP; have : gs r * p2 == 0; last by rewrite mulf_eq0 (negbTE sr).
  apply/eqP; transitivity (gc r * p1 - 0); last by rewrite p10 mulr0 subr0.
  by rewrite e02 /q /= /p1 /p2; fld.
apply: (@step_core a1 a2 a3 b1 b2 mu (gc r) (gs r) (gc g) (gs g) _ _ _ ru gu n2 w1 w2 w3 p20 erefl).
- transitivity ((gs r * gc g) * p1 + (gc r * gc g) * p2 - gs g * (b2 * (gc r * gs g) + (a3 - mu) * gc g)
     + mu * (gc g * gs g) * ((gc r * gc r + gs r * gs r) - 1)).
    by rewrite e12 /q /= /p1 /p2; fld.
  by rewrite ru subrr p10 p20 !mulr0 !add0r addr0 mulrC.
- transitivity ((gc g * gc g + gs g * gs g) * (gs r * b2) + gc g * 0); last by rewrite gu mul1r mulr0 addr0.
  by rewrite e01 [in RHS]e02 /q /=; fld.
Qed.

Lemma phi_norm B : `|phi B| = `|B 1%N 1%N| * `|B 1%N 2%N| * (`|B 1%N 1%N| * `|B 1%N 2%N|) * (`|B 0%N 0%N| * `|B 0%N 1%N|).
Proof. by rewrite /phi !normrM. Qed.
Lemma prod_lt (t x y : T) (a b : nat) : 0 <= t -> t ^+ a.+1 < x -> t ^+ b.+1 < y -> t ^+ (a.+1 + b.+1) < x * y.
Proof. by move=> t0 h1 h2; rewrite exprD ltr_pmul // exprn_ge0. Qed.
Lemma phi_big tol B : 0 <= tol -> qr_running tol B -> tol ^+ 6 < `|phi B|.
Proof.
move=> t0; rewrite /qr_running !absE phi_norm => /and5P[h1 h2 h3 h4 h5].
have k (x y : T) : tol < x -> tol < y -> tol ^+ 2 < x * y.
  by move=> a b; apply: (@prod_lt tol x y 0 0); rewrite ?expr1.
apply: (@prod_lt tol _ _ 3 1 t0); last exact: k.
by apply: (@prod_lt tol _ _ 1 1 t0); apply: k.
Qed.
Lemma phi_small N B : 0 <= N -> (forall i j, (i < 3)%N -> (j < 3)%N -> `|B i j| <= N) -> `|phi B| <= N ^+ 6.
Proof.
move=> n0 h; rewrite phi_norm.
have -> : N ^+ 6 = N * N * (N * N) * (N * N) by rewrite !exprS expr0 mulr1 !mulrA.
by rewrite !ler_pmul // ?mulr_ge0 // h.
Qed.
Lemma entry_le A B U V : inv A (B, U, V) ->
  forall i j, (i < 3)%N -> (j < 3)%N -> `|B i j| <= Num.sqrt (frob2 (mx 3 3 A)).
Proof.
move=> iv i j hi hj; rewrite -(usv_frob iv) -sqrtr_sqr; apply: ler_wsqrtr.
rewrite /frob2 (bigD1 (Ordinal hi)) //= (bigD1 (Ordinal hj)) //= mxE -addrA ler_addl.
by rewrite addr_ge0 // sumr_ge0 // => ? _; rewrite ?sqr_ge0 // sumr_ge0 // => ? _; rewrite sqr_ge0.
Qed.

Lemma runs A fuel tol s : 0 <= tol -> inv A s -> qr_loop fuel tol s = None ->
  exists s', [/\ inv A s', qr_running tol s'.1.1
    & 27%:R ^+ fuel * phi s'.1.1 ^+ 2 <= 8%:R ^+ fuel * phi s.1.1 ^+ 2].
Proof.
move=> t0; elim: fuel s => [|fuel IH] [[B U] V] iv /=; case: ifP => // run.
  by exists (B, U, V); rewrite !expr0 !mul1r.
have nz i j : tol < SvdModel.abs (B i j) -> B i j != 0.
  by rewrite absE => h; rewrite -normr_gt0; apply: le_lt_trans h.
have [n1 n2] : B 0%N 0%N * B 0%N 1%N != 0 /\ B 1%N 1%N * B 1%N 2%N != 0.
  by case/and5P: run => h1 h2 h3 h4 h5; rewrite !mulf_neq0 // nz.
have le := step_ok iv n1 n2.
case/(IH _ (iter_ok iv)) => s' [iv' run' le']; exists s'; split=> //.
rewrite exprS -mulrA; apply: (@le_trans _ _ (27%:R * (8%:R ^+ fuel * phi (qr_iter B U V).1.1 ^+ 2))).
  by rewrite ler_pmul2l ?ltr0n.
rewrite [X in X <= _]mulrCA [X in _ <= X * _]exprSr -[X in _ <= X]mulrA; apply: ler_wpmul2l => //.
by rewrite exprn_ge0 // ler0n.
Qed.

Lemma svd3_some n eta A : 0 <= eta -> 8%:R ^+ n <= 27%:R ^+ n * (eta / 2%:R) ^+ 12 ->
  exists r, svd3 n eta A = Some r.
Proof.
move=> e0 hn; rewrite /svd3; have := @ub_ok T A; case: (upper_bidiagonalize A) => [[B U] V] iv.
have {}iv : inv A (B, U, V) by [].
rewrite (tol_ok eta iv); set N := Num.sqrt _; set tol := eta * _.
have N0 : 0 <= N by apply: sqrtr_ge0.
have tN : eta / 2%:R * N <= tol.
  by rewrite -mulrA (mulrC _ N) ler_wpmul2l // le_maxr lexx.
have tN0 : 0 <= eta / 2%:R * N by rewrite !mulr_ge0 // invr_ge0 ler0n.
have t0 : 0 <= tol by apply: le_trans tN.
case E : (qr_loop _ _ _) => [[[B' U'] V']|]; first by exists (svd_finish tol B' U' V').
have [[[B' U'] V'] [iv' run le]] := runs t0 iv E; exfalso; move: le => /=; apply/negP; rewrite -ltNge.
have big := phi_big t0 run; have small := phi_small N0 (entry_le iv).
have p27 : 0 < 27%:R ^+ n :> T by rewrite exprn_gt0 ?ltr0n.
apply: (@le_lt_trans _ _ (8%:R ^+ n * N ^+ 12)).
  rewrite ler_wpmul2l ?exprn_ge0 ?ler0n // -(real_normK (num_real (phi B))).
  by rewrite -[12%N]/(6 * 2)%N exprM ler_sqr ?nnegrE ?exprn_ge0.
apply: (@le_lt_trans _ _ (27%:R ^+ n * (eta / 2%:R * N) ^+ 12)).
  by rewrite (exprMn 12 (eta / 2%:R) N) [X in _ <= X]mulrA; apply: ler_wpmul2r => //; exact: exprn_ge0.
rewrite ltr_pmul2l // -(real_normK (num_real (phi B'))) -[12%N]/(6 * 2)%N exprM.
rewrite ltr_sqr ?nnegrE ?exprn_ge0 //; apply: le_lt_trans big.
by rewrite ler_expn2r // nnegrE.
Qed.
End Conv.
