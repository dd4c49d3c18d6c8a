(* Givens rotations of matrices of any size. *)
From mathcomp Require Import all_ssreflect all_algebra.
From Coq Require Import Field.
From Verif Require Import FieldTac MatModel MatSpec MatProofs RotModel RotSpec SvdModel SvdSpec.
Set Implicit Arguments.
Unset Strict Implicit.
Unset Printing Implicit Defensive.
Import GRing.Theory Num.Theory Order.Theory.
Local Open Scope ring_scope.

Section Givens.
Variable T : rcfType.
Let F : fieldType := [fieldType of T].
Add Field ff : (cfield F).
Ltac fld := to_fld F; field.
Implicit Types (A U V : nat -> nat -> T) (g : givens T).

Definition unit_g g := gc g * gc g + gs g * gs g = 1.
Definition valid n g := [&& (rowi g < n)%N, (rowk g < n)%N & rowi g != rowk g].

(* the matrix of a rotation *)
Definition gmx n g : 'M[T]_n :=
  \matrix_(i, j)
    if i == rowi g :> nat then
      (if j == rowi g :> nat then gc g else if j == rowk g :> nat then - gs g else 0)
    else if i == rowk g :> nat then
      (if j == rowi g :> nat then gs g else if j == rowk g :> nat then gc g else 0)
    else (i == j)%:R.

Lemma rowRotationE n g A a b : rowi g != rowk g -> (b < n)%N ->
  rowRotation n g A a b =
    if a == rowi g then gc g * A (rowi g) b - gs g * A (rowk g) b
    else if a == rowk g then gs g * A (rowi g) b + gc g * A (rowk g) b
    else A a b.
Proof.
move=> ne bn.
suff h : forall a b, rowRotation n g A a b =
    if (b < n)%N then
      (if a == rowi g then gc g * A (rowi g) b - gs g * A (rowk g) b
       else if a == rowk g then gs g * A (rowi g) b + gc g * A (rowk g) b
       else A a b)
    else A a b by rewrite h bn.
rewrite /rowRotation.
apply: (loop_ind (P := fun k M => forall a b, M a b =
    if (b < k)%N then
      (if a == rowi g then gc g * A (rowi g) b - gs g * A (rowk g) b
       else if a == rowk g then gs g * A (rowi g) b + gc g * A (rowk g) b
       else A a b)
    else A a b)) => // j M jn IH a' b'.
rewrite /mset !IH !ltnn (ltnS b' j) (leq_eqVlt b' j).
case: (eqVneq b' j) => [->|] /=; rewrite ?andbT ?andbF //.
case: (eqVneq a' (rowk g)) => [->|] /=; first by rewrite eq_sym (negbTE ne).
by rewrite ltnn.
Qed.

Lemma columnRotationE n g A a b : rowi g != rowk g -> (a < n)%N ->
  columnRotation n g A a b =
    if b == rowi g then gc g * A a (rowi g) - gs g * A a (rowk g)
    else if b == rowk g then gs g * A a (rowi g) + gc g * A a (rowk g)
    else A a b.
Proof.
move=> ne an.
suff h : forall a b, columnRotation n g A a b =
    if (a < n)%N then
      (if b == rowi g then gc g * A a (rowi g) - gs g * A a (rowk g)
       else if b == rowk g then gs g * A a (rowi g) + gc g * A a (rowk g)
       else A a b)
    else A a b by rewrite h an.
rewrite /columnRotation.
apply: (loop_ind (P := fun k M => forall a b, M a b =
    if (a < k)%N then
      (if b == rowi g then gc g * A a (rowi g) - gs g * A a (rowk g)
       else if b == rowk g then gs g * A a (rowi g) + gc g * A a (rowk g)
       else A a b)
    else A a b)) => // j M jn IH a' b'.
rewrite /mset !IH !ltnn (ltnS a' j) (leq_eqVlt a' j).
case: (eqVneq a' j) => [->|] /=; rewrite ?andbT ?andbF //.
case: (eqVneq b' (rowk g)) => [->|] /=; first by rewrite eq_sym (negbTE ne).
by rewrite ltnn.
Qed.

(* a sum with two terms *)
Lemma sum_two n (f : 'I_n -> T) (i k : 'I_n) : i != k ->
  (forall j, j != i -> j != k -> f j = 0) -> \sum_j f j = f i + f k.
Proof.
move=> ne h; rewrite (bigD1 i) //= (bigD1 k) 1?eq_sym //= big1 ?addr0 //.
by move=> j /andP[ji jk]; apply: h.
Qed.
Lemma sum_one n (f : 'I_n -> T) (i : 'I_n) :
  (forall j, j != i -> f j = 0) -> \sum_j f j = f i.
Proof. by move=> h; rewrite (bigD1 i) //= big1 ?addr0. Qed.

Lemma gmx_row n g (M : 'M[T]_n) (v : valid n g) a b :
  (gmx n g *m M) a b =
    if a == rowi g :> nat then gc g * M (Ordinal (proj1 (andP v))) b
         - gs g * M (Ordinal (proj1 (andP (proj2 (andP v))))) b
    else if a == rowk g :> nat then gs g * M (Ordinal (proj1 (andP v))) b
         + gc g * M (Ordinal (proj1 (andP (proj2 (andP v))))) b
    else M a b.
Proof.
set i := Ordinal (proj1 (andP v)); set k := Ordinal (proj1 (andP (proj2 (andP v)))).
have ne : rowi g != rowk g by case/and3P: (v).
have nek : (rowk g == rowi g) = false by rewrite eq_sym; apply: negbTE.
have ik : i != k by rewrite -val_eqE.
rewrite mxE /=.
case: (eqVneq (a : nat) (rowi g)) => ai.
  rewrite (@sum_two _ _ i k) //.
    by rewrite !mxE /= ai !eqxx nek mulNr.
  move=> j; rewrite -!val_eqE /= => ji jk.
  by rewrite !mxE ai eqxx (negbTE ji) (negbTE jk) mul0r.
case: (eqVneq (a : nat) (rowk g)) => ak.
  rewrite (@sum_two _ _ i k) //.
    by rewrite !mxE /= ak !eqxx nek.
  move=> j; rewrite -!val_eqE /= => ji jk.
  by rewrite !mxE ak eqxx nek (negbTE ji) (negbTE jk) mul0r.
rewrite (@sum_one _ _ a).
  by rewrite !mxE (negbTE ai) (negbTE ak) eqxx mul1r.
move=> j ja; rewrite !mxE (negbTE ai) (negbTE ak).
by rewrite eq_sym (negbTE ja) mul0r.
Qed.

Lemma row_ok n g A : valid n g -> mx n n (rowRotation n g A) = gmx n g *m mx n n A.
Proof.
move=> v; apply/matrixP => a b; rewrite (gmx_row _ v) [LHS]mxE.
by rewrite rowRotationE ?ltn_ord //; [rewrite /= !mxE | case/and3P: v].
Qed.

Definition ginv g := Giv (rowi g) (rowk g) (gc g) (- gs g).
Lemma gmx_tr n g : rowi g != rowk g -> (gmx n g)^T = gmx n (ginv g).
Proof.
move=> ne; apply/matrixP => a b; rewrite !mxE /=.
case: (eqVneq (a : nat) (rowi g)) => ai; case: (eqVneq (b : nat) (rowi g)) => bi;
 case: (eqVneq (a : nat) (rowk g)) => ak; case: (eqVneq (b : nat) (rowk g)) => bk //.
all: try by rewrite ?opprK.
all: try by case/eqP: ne; rewrite -?ai -?ak -?bi -?bk; congruence.
all: try by rewrite -val_eqE /= ?ai ?ak ?bi ?bk ?opprK ?oppr0.
all: try by rewrite -!val_eqE /= eq_sym.
all: rewrite -!val_eqE /= ?ai ?ak ?(negbTE bi) ?(negbTE bk) //.
all: by rewrite ?bi ?bk ?(negbTE ai) ?(negbTE ak).
Qed.
Lemma gmx_inv n g : valid n g -> unit_g g -> gmx n (ginv g) *m gmx n g = 1%:M.
Proof.
move=> v u; have v' : valid n (ginv g) by [].
apply/matrixP => a b; rewrite (gmx_row _ v') /=.
have ne : rowi g != rowk g by case/and3P: v.
have nek : (rowk g == rowi g) = false by rewrite eq_sym; apply: negbTE.
rewrite !mxE /= !eqxx nek.
have e1 : gc g * gc g - - gs g * gs g = 1 by rewrite mulNr opprK.
have e2 : - gs g * - gs g + gc g * gc g = 1 by rewrite mulrNN addrC.
case: (eqVneq (a : nat) (rowi g)) => ai.
  rewrite -val_eqE /= ai (eq_sym (rowi g)); case: (eqVneq (b : nat) (rowi g)) => bi; first exact: e1.
  by case: (eqVneq (b : nat) (rowk g)) => bk; [fld | rewrite !mulr0 subrr].
case: (eqVneq (a : nat) (rowk g)) => ak.
  rewrite -val_eqE /= ak (eq_sym (rowk g)); case: (eqVneq (b : nat) (rowk g)) => bk.
    by rewrite bk nek; exact: e2.
  by case: (eqVneq (b : nat) (rowi g)) => bi; [fld | rewrite !mulr0 addr0].
by [].
Qed.
Lemma gmx_orth n g : valid n g -> unit_g g -> (gmx n g)^T *m gmx n g = 1%:M.
Proof. by move=> v u; rewrite gmx_tr ?gmx_inv //; case/and3P: v. Qed.
Lemma gmx_orth' n g : valid n g -> unit_g g -> gmx n g *m (gmx n g)^T = 1%:M.
Proof. by move=> v u; apply: mulmx1C; exact: gmx_orth. Qed.

Lemma tr_row n g A : valid n g ->
  mx n n (columnRotation n g A) = mx n n A *m (gmx n g)^T.
Proof.
move=> v; rewrite -[RHS]trmxK trmx_mul trmxK.
have -> : (mx n n A)^T = mx n n (fun i j => A j i) by apply/matrixP => i j; rewrite !mxE.
rewrite -row_ok //; have ne : rowi g != rowk g by case/and3P: v.
by apply/matrixP => i j; rewrite !mxE columnRotationE // rowRotationE.
Qed.

(* the determinant is one: a rotation is the square of the half rotation *)
Lemma gmx_mul n g h : rowi g = rowi h -> rowk g = rowk h -> valid n g ->
  gmx n g *m gmx n h = gmx n (givens_mul g h).
Proof.
move=> ei ek v; apply/matrixP => a b; rewrite (gmx_row _ v) !mxE /= -ei -ek !eqxx.
have ne : rowi g != rowk g by case/and3P: v.
have nek : (rowk g == rowi g) = false by rewrite eq_sym; apply: negbTE.
rewrite nek.
case: (eqVneq (a : nat) (rowi g)) => ai.
  case: (eqVneq (b : nat) (rowi g)) => bi; first by [].
  by case: (eqVneq (b : nat) (rowk g)) => bk; [fld | rewrite !mulr0 subrr].
case: (eqVneq (a : nat) (rowk g)) => ak //.
case: (eqVneq (b : nat) (rowi g)) => bi //.
by case: (eqVneq (b : nat) (rowk g)) => bk; [fld | rewrite !mulr0 addr0].
Qed.

Lemma two_neq0 : (2%:R : T) <> 0. Proof. by apply/eqP; rewrite pnatr_eq0. Qed.

Ltac sc := repeat split; first [exact two_neq0 | assumption].

Lemma half_angle (c s : T) : c * c + s * s = 1 ->
  exists h k : T, [/\ h * h + k * k = 1, h * h - k * k = c & 2%:R * (h * k) = s].
Proof.
move=> u; case: (eqVneq c (-1)) => [c1|nc1].
  exists 0, 1; rewrite c1 !mul0r !mulr0 !mulr1 add0r sub0r; split=> //.
  move: u; rewrite c1 mulrNN mulr1 => /eqP; rewrite -[X in _ == X]addr0 (inj_eq (addrI _)).
  by rewrite -expr2 sqrf_eq0 => /eqP.
have c_ge : -1 <= c.
  have : c * c <= 1 by rewrite -u ler_addl -expr2 sqr_ge0.
  rewrite -expr2 => h; have := ler_wsqrtr h; rewrite sqrtr1 sqrtr_sqr ler_norml.
  by case/andP.
have pos : 0 < (1 + c) / 2%:R.
  by rewrite divr_gt0 ?ltr0n // -ltr_subl_addl sub0r lt_def nc1.
pose h := Num.sqrt ((1 + c) / 2%:R).
have hh : h * h = (1 + c) / 2%:R by rewrite -expr2 sqr_sqrtr // ltW.
have h0 : h <> 0 by apply/eqP; rewrite gt_eqF // sqrtr_gt0.
pose k := s / (2%:R * h).
have kk : k * k = (1 - c) / 2%:R.
  have -> : k * k = s * s / (h * h) / 2%:R / 2%:R.
    rewrite /k; fld; sc.
  rewrite hh; have -> : s * s = (1 + c) * (1 - c).
    have -> : s * s = (c * c + s * s) - c * c by fld.
    by rewrite u; fld.
  have : 1 + c <> 0 by move=> e; move: pos; rewrite e mul0r ltxx.
  move=> e; fld; sc.
exists h, k; rewrite hh kk; split; [fld; exact two_neq0 | fld; exact two_neq0 |].
rewrite /k; fld; sc.
Qed.

Lemma gmx_det n g : valid n g -> unit_g g -> \det (gmx n g) = 1.
Proof.
move=> v u; have [h [k [e1 e2 e3]]] := half_angle u.
pose H := Giv (rowi g) (rowk g) h k.
have <- : gmx n H *m gmx n H = gmx n g.
  rewrite gmx_mul // /givens_mul /=; congr (gmx n _).
  case: (g) e2 e3 => i k' c s /= <- <-; congr Giv; fld.
have o : gmx n H *m (gmx n H)^T = 1%:M by apply: gmx_orth'.
by rewrite det_mulmx -{2}det_tr -det_mulmx o det1.
Qed.

Lemma gmx_rot n g : valid n g -> unit_g g -> is_rotation (gmx n g).
Proof. by move=> v u; split; [exact: gmx_orth' | exact: gmx_det]. Qed.

(* the computed rotations *)
Lemma rsqrt_sq (d : T) : 0 < d -> rsqrt d * rsqrt d * d = 1.
Proof.
move=> h; rewrite /rsqrt div1r.
have e : Num.sqrt d * Num.sqrt d = d by rewrite -expr2 sqr_sqrtr // ltW.
rewrite -{3}e mulrACA mulVf ?mul1r ?mulVf //; by rewrite gt_eqF // sqrtr_gt0.
Qed.
Lemma sumsq_gt0 (a b : T) : a * a + b * b != 0 -> 0 < a * a + b * b.
Proof. by move=> h; rewrite lt_def h addr_ge0 // -expr2 sqr_ge0. Qed.
Lemma sumsq_eq0 (a b : T) : a * a + b * b = 0 -> a = 0 /\ b = 0.
Proof.
move/eqP; rewrite paddr_eq0 -?expr2 ?sqr_ge0 // !sqrf_eq0.
by case/andP => /eqP -> /eqP ->.
Qed.

Lemma conv_unit g a b : unit_g (computeConventional g a b).
Proof.
rewrite /unit_g /computeConventional; case: ifP => h /=; last by rewrite mulr0 addr0 mulr1.
have := rsqrt_sq (sumsq_gt0 h); set t := rsqrt _ => <-; fld.
Qed.
Lemma conv_i g a b : rowi (computeConventional g a b) = rowi g.
Proof. by rewrite /computeConventional; case: ifP. Qed.
Lemma conv_k g a b : rowk (computeConventional g a b) = rowk g.
Proof. by rewrite /computeConventional; case: ifP. Qed.
Lemma conv_zero g a b (r := computeConventional g a b) : gs r * a + gc r * b = 0.
Proof.
rewrite /r /computeConventional; case: ifP => h /=; first by fld.
by have [-> ->] := sumsq_eq0 (eqP (negbFE h)); rewrite !mulr0 addr0.
Qed.
Lemma conv_first g a b (r := computeConventional g a b) : 0 <= gc r * a - gs r * b.
Proof.
rewrite /r /computeConventional; case: ifP => h /=.
  have -> : a * rsqrt (a * a + b * b) * a - - b * rsqrt (a * a + b * b) * b
      = rsqrt (a * a + b * b) * (a * a + b * b) by set t := rsqrt _; fld.
  by rewrite mulr_ge0 ?(ltW (sumsq_gt0 h)) // /rsqrt div1r invr_ge0 sqrtr_ge0.
by have [-> ->] := sumsq_eq0 (eqP (negbFE h)); rewrite !mulr0 subrr.
Qed.
(* the length is kept *)
Lemma conv_len g a b (r := computeConventional g a b) :
  gc r * a - gs r * b = Num.sqrt (a ^+ 2 + b ^+ 2).
Proof.
have f : 0 <= gc r * a - gs r * b by apply: conv_first.
rewrite -(ger0_norm f) -sqrtr_sqr; congr Num.sqrt.
have z : gs r * a + gc r * b = 0 by apply: conv_zero.
have u : gc r * gc r + gs r * gs r = 1 by apply: conv_unit.
transitivity ((gc r * a - gs r * b) ^+ 2 + (gs r * a + gc r * b) ^+ 2); first by rewrite z expr0n addr0.
transitivity ((gc r * gc r + gs r * gs r) * (a ^+ 2 + b ^+ 2)); last by rewrite u mul1r.
by fld.
Qed.
Lemma unconv_unit g a b : unit_g (computeUnconventional g a b).
Proof.
rewrite /unit_g /computeUnconventional; case: ifP => h /=; last by rewrite mulr0 add0r mulr1.
have := rsqrt_sq (sumsq_gt0 h); set t := rsqrt _ => <-; fld.
Qed.
Lemma unconv_i g a b : rowi (computeUnconventional g a b) = rowi g.
Proof. by rewrite /computeUnconventional; case: ifP. Qed.
Lemma unconv_k g a b : rowk (computeUnconventional g a b) = rowk g.
Proof. by rewrite /computeUnconventional; case: ifP. Qed.
Lemma unconv_zero g a b (r := computeUnconventional g a b) : gc r * a - gs r * b = 0.
Proof.
rewrite /r /computeUnconventional; case: ifP => h /=; first by fld.
by have [-> ->] := sumsq_eq0 (eqP (negbFE h)); rewrite !mulr0 subrr.
Qed.
Lemma of_valid n a b i k : (i < n)%N -> (k < n)%N -> i != k -> valid n (givens_of a b i k).
Proof. by move=> hi hk ne; rewrite /valid /givens_of conv_i conv_k /= hi hk ne. Qed.
End Givens.
