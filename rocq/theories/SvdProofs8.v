(* A matrix below the tolerance. *)
From mathcomp Require Import all_ssreflect all_algebra.
From Coq Require Import Field.
From Verif Require Import FieldTac MatModel MatSpec MatProofs MatProofs2 RotModel RotSpec RotProofs SvdModel SvdSpec SvdProofs SvdProofs2 SvdProofs4 SvdProofs5 SvdProofs6.
Set Implicit Arguments.
Unset Strict Implicit.
Unset Printing Implicit Defensive.
Import GRing.Theory Num.Theory Order.Theory.
Local Open Scope ring_scope.

Section Small.
Variable T : rcfType.
Notation mat := (nat -> nat -> T).
Implicit Types (A B U V H X : mat).

Lemma conv00 i k : computeConventional (givens_id T i k) 0 0 = Giv i k 1 0.
Proof. by rewrite /computeConventional !mulr0 addr0 eqxx. Qed.
Lemma row_id i k A a b : i != k -> (b < 3)%N -> rowRotation 3 (Giv i k 1 0) A a b = A a b.
Proof.
move=> ne hb; rewrite rowRotationE //= !mul1r !mul0r subr0 add0r.
by case: (eqVneq a i) => [->|] //; case: (eqVneq a k) => [->|].
Qed.
Lemma col_id i k A a b : i != k -> (a < 3)%N -> columnRotation 3 (Giv i k 1 0) A a b = A a b.
Proof.
move=> ne hb; rewrite columnRotationE //= !mul1r !mul0r subr0 add0r.
by case: (eqVneq b i) => [->|] //; case: (eqVneq b k) => [->|].
Qed.

(* the matrix with the single entry x at (1, 2) *)
Definition single (x : T) : mat := fun i j => if (i == 1%N) && (j == 2%N) then x else 0.

Lemma zc_single H U V x : (forall i j, (i < 3)%N -> (j < 3)%N -> H i j = single x i j) ->
  forall i j, (i < 3)%N -> (j < 3)%N -> (zero_chasing H U V).1.1 i j = single x i j.
Proof.
move=> h; rewrite /zero_chasing /givens_of !h // /single /= eqxx /= !conv00.
move=> i j hi hj; set X := columnRotation 3 _ _.
have x11 : X 1%N 1%N = 0 by rewrite /X col_id // row_id // h.
have x21 : X 2%N 1%N = 0 by rewrite /X col_id // row_id // h.
by rewrite x11 x21 conv00 row_id // /X col_id // row_id // h.
Qed.
Lemma ub_single x i j : (i < 3)%N -> (j < 3)%N -> (upper_bidiagonalize (single x)).1.1 i j = single x i j.
Proof.
move=> hi hj; rewrite /upper_bidiagonalize; apply: zc_single => // a b ha hb.
by rewrite /givens_of {1 2}/single /= conv00 row_id.
Qed.

Lemma svd2_zero B : (forall i j, (i < 2)%N -> (j < 2)%N -> B i j = 0) ->
  exists u v, svd2 B (givens_id T 0 1) (givens_id T 0 1) = (u, (0, 0), v).
Proof.
move=> z; rewrite /svd2; case E : (polar2 _ _) => [r Sm].
have [_ q _ _] := @polar2_eq T B (givens_id T 0 1) r Sm erefl erefl E.
have zB : mx 2 2 B = 0 by apply/matrixP => i j; rewrite !mxE z.
have e i j (hi : (i < 2)%N) (hj : (j < 2)%N) : Sm i j = 0.
  by move: q; rewrite zB mulmx0 => /matrixP /(_ (Ordinal hi) (Ordinal hj)); rewrite !mxE.
by rewrite !e // mulr0 eqxx ltxx; eexists; eexists.
Qed.
Lemma process_zero B U V : (forall i j, (i < 2)%N -> (j < 2)%N -> B i j = 0) -> B 2%N 2%N = 0 ->
  forall i, (process 0 B U V).1.2 i = 0.
Proof.
move=> z z22 i; rewrite /process.
set B_ := mset (mset (mset (mset _ _ _ _) _ _ _) _ _ _) _ _ _.
have [u [v ->]] : exists u v, svd2 B_ (givens_id T 0 1) (givens_id T 0 1) = (u, (0, 0), v).
  by apply: svd2_zero => [[|[|a]]] [|[|b]] // *; rewrite /B_ /mset /= z.
by rewrite /= /vset z22; case: (i == _) => //; case: (i == _) => //; case: (i == _).
Qed.

Lemma small n eta x : 0 < x -> x <= eta -> exists U Sg V,
  svd3 n eta (single x) = Some (U, Sg, V) /\ forall i, Sg i = 0.
Proof.
move=> x0 xe; rewrite /svd3; have ub := @ub_single x.
case E : (upper_bidiagonalize _) ub => [[B U] V] /= ub.
set tol := svd_tol eta B.
have xt : x <= tol.
  apply: (le_trans xe); rewrite /tol /svd_tol /max_.
  have e0 : 0 <= eta by apply: le_trans xe; exact: ltW.
  rewrite -[X in X <= _]mulr1; apply: ler_wpmul2l => //; case: ifP => // /negbT; by rewrite -leNgt.
have l12 : SvdModel.abs (B 1%N 2%N) <= tol by rewrite absE ub // /single /= gtr0_norm.
have nr : qr_running tol B = false.
  by apply/negP => /and5P[_ _ _ _]; rewrite ltNge l12.
have -> : qr_loop n tol (B, U, V) = Some (B, U, V) by case: n {E} => /= [|n]; rewrite nr.
rewrite /svd_finish l12.
have pz : forall i, (process 0 B U V).1.2 i = 0.
  by apply: process_zero => [[|[|i]] [|[|j]]|] // *; rewrite ub.
case: (process 0 B U V) pz => [[U1 S1] V1] /= pz.
by exists U1, S1, V1; rewrite /sort_sigma0 !absE !pz lexx ltxx.
Qed.
End Small.
