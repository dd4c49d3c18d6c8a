(* Rotation matrices by their entries. *)
From mathcomp Require Import all_ssreflect all_algebra.
From Coq Require Import Field.
From Verif Require Import FieldTac MatModel MatSpec MatProofs MatProofs2 RotModel RotSpec.
Set Implicit Arguments.
Unset Strict Implicit.
Unset Printing Implicit Defensive.
Import GRing.Theory Num.Theory Order.Theory.
Local Open Scope ring_scope.

Ltac nrm A := repeat match goal with |- context [A ?i ?j] =>
  let i' := eval compute in i in let j' := eval compute in j in
  progress change (A i j) with (A i' j') end.
Ltac nrv A := repeat match goal with |- context [A ?i] =>
  let i' := eval compute in i in progress change (A i) with (A i') end.
Ltac ents3 := apply/matrixP; case=> [[|[|[|i]]] Hi] //; case=> [[|[|[|j]]] Hj] //.
Ltac ents2 := apply/matrixP; case=> [[|[|i]] Hi] //; case=> [[|[|j]] Hj] //.

Section R.
Variable T : rcfType.
Let F : fieldType := [fieldType of T].
Add Field ff : (cfield F).
Lemma two_neq0 : (2%:R : T) <> 0. Proof. by apply/eqP; rewrite pnatr_eq0. Qed.
Lemma two2_neq0 : (2%:R * 2%:R : T) <> 0. Proof. by apply/eqP; rewrite mulf_neq0 // pnatr_eq0. Qed.
Ltac side := match goal with |- _ /\ _ => split; side | _ =>
  first [assumption | exact two_neq0 | exact two2_neq0] end.
Ltac fld := to_fld F; field; try side.

(* rows *)
Record orth (a b c d e f g h i : T) : Prop := Orth {
  r00 : a * a + b * b + c * c = 1;
  r11 : d * d + e * e + f * f = 1;
  r22 : g * g + h * h + i * i = 1;
  r01 : a * d + b * e + c * f = 0;
  r02 : a * g + b * h + c * i = 0;
  r12 : d * g + e * h + f * i = 0 }.
(* cofactors *)
Record cof (a b c d e f g h i : T) : Prop := Cof {
  k00 : e * i - f * h = a;
  k01 : f * g - d * i = b;
  k02 : d * h - e * g = c;
  k10 : c * h - b * i = d;
  k11 : a * i - c * g = e;
  k12 : b * g - a * h = f;
  k20 : b * f - c * e = g;
  k21 : c * d - a * f = h;
  k22 : a * e - b * d = i }.

Lemma orth_cof a b c d e f g h i :
  orth a b c d e f g h i -> a * (e * i - f * h) - b * (d * i - f * g) + c * (d * h - e * g) = 1 ->
  cof a b c d e f g h i.
Proof.
  case=> R00 R11 R22 R01 R02 R12 D.
  split.
  - transitivity (1 * (e * i - f * h) + 0 * (c * h - b * i) + 0 * (b * f - c * e)); first by fld.
    rewrite -{1}R00 -{1}R01 -R02.
    transitivity (a * (a * (e * i - f * h) - b * (d * i - f * g) + c * (d * h - e * g))); first by fld.
    by rewrite D mulr1.
  - transitivity (1 * (f * g - d * i) + 0 * (a * i - c * g) + 0 * (c * d - a * f)); first by fld.
    rewrite -{1}R00 -{1}R01 -R02.
    transitivity (b * (a * (e * i - f * h) - b * (d * i - f * g) + c * (d * h - e * g))); first by fld.
    by rewrite D mulr1.
  - transitivity (1 * (d * h - e * g) + 0 * (b * g - a * h) + 0 * (a * e - b * d)); first by fld.
    rewrite -{1}R00 -{1}R01 -R02.
    transitivity (c * (a * (e * i - f * h) - b * (d * i - f * g) + c * (d * h - e * g))); first by fld.
    by rewrite D mulr1.
  - transitivity (0 * (e * i - f * h) + 1 * (c * h - b * i) + 0 * (b * f - c * e)); first by fld.
    rewrite -{1}R01 -{1}R11 -R12.
    transitivity (d * (a * (e * i - f * h) - b * (d * i - f * g) + c * (d * h - e * g))); first by fld.
    by rewrite D mulr1.
  - transitivity (0 * (f * g - d * i) + 1 * (a * i - c * g) + 0 * (c * d - a * f)); first by fld.
    rewrite -{1}R01 -{1}R11 -R12.
    transitivity (e * (a * (e * i - f * h) - b * (d * i - f * g) + c * (d * h - e * g))); first by fld.
    by rewrite D mulr1.
  - transitivity (0 * (d * h - e * g) + 1 * (b * g - a * h) + 0 * (a * e - b * d)); first by fld.
    rewrite -{1}R01 -{1}R11 -R12.
    transitivity (f * (a * (e * i - f * h) - b * (d * i - f * g) + c * (d * h - e * g))); first by fld.
    by rewrite D mulr1.
  - transitivity (0 * (e * i - f * h) + 0 * (c * h - b * i) + 1 * (b * f - c * e)); first by fld.
    rewrite -{1}R02 -{1}R12 -R22.
    transitivity (g * (a * (e * i - f * h) - b * (d * i - f * g) + c * (d * h - e * g))); first by fld.
    by rewrite D mulr1.
  - transitivity (0 * (f * g - d * i) + 0 * (a * i - c * g) + 1 * (c * d - a * f)); first by fld.
    rewrite -{1}R02 -{1}R12 -R22.
    transitivity (h * (a * (e * i - f * h) - b * (d * i - f * g) + c * (d * h - e * g))); first by fld.
    by rewrite D mulr1.
  - transitivity (0 * (d * h - e * g) + 0 * (b * g - a * h) + 1 * (a * e - b * d)); first by fld.
    rewrite -{1}R02 -{1}R12 -R22.
    transitivity (i * (a * (e * i - f * h) - b * (d * i - f * g) + c * (d * h - e * g))); first by fld.
    by rewrite D mulr1.
Qed.

Notation "A @@ P" := (P (A 0%N 0%N) (A 0%N 1%N) (A 0%N 2%N) (A 1%N 0%N) (A 1%N 1%N) (A 1%N 2%N)
  (A 2%N 0%N) (A 2%N 1%N) (A 2%N 2%N)) (at level 10, only parsing).
Notation "A @t P" := (P (A 0%N 0%N) (A 1%N 0%N) (A 2%N 0%N) (A 0%N 1%N) (A 1%N 1%N) (A 2%N 1%N)
  (A 0%N 2%N) (A 1%N 2%N) (A 2%N 2%N)) (at level 10, only parsing).

Lemma orth_iff (A : nat -> nat -> T) : mx 3 3 A *m (mx 3 3 A)^T = 1%:M <-> A @@ orth.
Proof.
  split.
  - move=> /matrixP H.
    pose o0 := @Ordinal 3 0 isT. pose o1 := @Ordinal 3 1 isT. pose o2 := @Ordinal 3 2 isT.
    split; [move: (H o0 o0)|move: (H o1 o1)|move: (H o2 o2)|move: (H o0 o1)|move: (H o0 o2)|move: (H o1 o2)];
    rewrite !mxE !big_ord_recl big_ord0 !mxE /= addr0 addrA; nrm A; by [].
  - case=> R00 R11 R22 R01 R02 R12.
    ents3; rewrite !mxE !big_ord_recl big_ord0 !mxE /= addr0 addrA; nrm A => //;
      by rewrite [X in X + _ + _]mulrC [X in _ + X + _]mulrC [X in _ + _ + X]mulrC.
Qed.

Lemma det3E (A : nat -> nat -> T) : \det (mx 3 3 A) =
  A 0%N 0%N * (A 1%N 1%N * A 2%N 2%N - A 1%N 2%N * A 2%N 1%N)
  - A 0%N 1%N * (A 1%N 0%N * A 2%N 2%N - A 1%N 2%N * A 2%N 0%N)
  + A 0%N 2%N * (A 1%N 0%N * A 2%N 1%N - A 1%N 1%N * A 2%N 0%N).
Proof. by rewrite -det_3_ok. Qed.

Lemma rot_entries (A : nat -> nat -> T) :
  is_rotation (mx 3 3 A) -> A @@ orth /\ A @t orth /\ A @@ cof.
Proof.
  case=> H D.
  have O := proj1 (orth_iff A) H.
  split=> //; split.
  - have H' := mulmx1C H.
    apply: (proj1 (orth_iff (fun i j => A j i))).
    have -> : mx 3 3 (fun i j => A j i) = (mx 3 3 A)^T by apply/matrixP => i j; rewrite !mxE.
    by rewrite trmxK.
  - apply: orth_cof => //. by rewrite -det3E.
Qed.

Lemma rot_from (A : nat -> nat -> T) :
  A @@ orth ->
  A 0%N 0%N * (A 1%N 1%N * A 2%N 2%N - A 1%N 2%N * A 2%N 1%N)
  - A 0%N 1%N * (A 1%N 0%N * A 2%N 2%N - A 1%N 2%N * A 2%N 0%N)
  + A 0%N 2%N * (A 1%N 0%N * A 2%N 1%N - A 1%N 1%N * A 2%N 0%N) = 1 -> is_rotation (mx 3 3 A).
Proof. move=> O D; split; [exact/orth_iff | by rewrite det3E]. Qed.

(* lengths *)
Lemma l2_3 (a : nat -> T) : l2NormSqr 3 a = a 0%N * a 0%N + a 1%N * a 1%N + a 2%N * a 2%N.
Proof. rewrite /l2NormSqr loop_sum !big_ord_recl big_ord0 /=. nrv a. by fld. Qed.
Lemma l2_2 (a : nat -> T) : l2NormSqr 2 a = a 0%N * a 0%N + a 1%N * a 1%N.
Proof. rewrite /l2NormSqr loop_sum !big_ord_recl big_ord0 /=. nrv a. by fld. Qed.
Lemma l2_4 (a : nat -> T) : l2NormSqr 4 a = a 0%N * a 0%N + a 1%N * a 1%N + a 2%N * a 2%N + a 3%N * a 3%N.
Proof. rewrite /l2NormSqr loop_sum !big_ord_recl big_ord0 /=. nrv a. by fld. Qed.
Lemma dot_3 (a b : nat -> T) : dot 3 a b = a 0%N * b 0%N + a 1%N * b 1%N + a 2%N * b 2%N.
Proof. rewrite /dot loop_sum !big_ord_recl big_ord0 /=. nrv a. nrv b. by fld. Qed.

Lemma l2_ge0 n (a : nat -> T) : 0 <= l2NormSqr n a.
Proof. rewrite /l2NormSqr loop_sum add0r. apply: sumr_ge0 => i _. by rewrite -expr2 sqr_ge0. Qed.

Lemma normalizedE n (a : nat -> T) i : (i < n)%N -> normalized n a i = a i / length n a.
Proof.
  move=> Hi. rewrite /normalized.
  rewrite (@fill1 _ n _ (fun i => a i / length n a)) ?Hi //.
Qed.

Lemma length2 n (a : nat -> T) : length n a * length n a = l2NormSqr n a.
Proof. by rewrite -expr2 sqr_sqrtr // l2_ge0. Qed.

Lemma length_gt0 n (a : nat -> T) : l2NormSqr n a <> 0 -> 0 < length n a.
Proof. move=> H. rewrite sqrtr_gt0 lt_def l2_ge0 andbT. exact/eqP. Qed.

Lemma normalized_unit n (a : nat -> T) : l2NormSqr n a <> 0 -> l2NormSqr n (normalized n a) = 1.
Proof.
  move=> H. rewrite {1}/l2NormSqr loop_sum add0r.
  transitivity (\sum_(i < n) a i * a i * (length n a * length n a)^-1).
    apply: eq_bigr => i _. rewrite normalizedE // invfM. by rewrite mulrACA.
  rewrite -mulr_suml length2.
  have -> : \sum_(i < n) a i * a i = l2NormSqr n a by rewrite /l2NormSqr loop_sum add0r.
  by rewrite divff //; apply/eqP.
Qed.
End R.
