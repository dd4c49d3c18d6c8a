(* Sorting of the singular values of 3 x 3 matrices. *)
From mathcomp Require Import all_ssreflect all_algebra.
From Coq Require Import Field.
From Verif Require Import FieldTac MatModel MatSpec MatProofs MatProofs2 RotModel RotSpec RotProofs SvdModel SvdSpec SvdProofs SvdProofs2 SvdProofs4.
Set Implicit Arguments.
Unset Strict Implicit.
Unset Printing Implicit Defensive.
Import GRing.Theory Num.Theory Order.Theory.
Local Open Scope ring_scope.

Section Sort.
Variable T : rcfType.
Let F : fieldType := [fieldType of T].
Add Field ff : (cfield F).
Ltac fld := to_fld F; field; try exact (@two_neq0 T).
Notation mat := (nat -> nat -> T).
Notation vec := (nat -> T).
Implicit Types (U V M : mat) (Sg : vec).

Lemma absE (x : T) : SvdModel.abs x = `|x|.
Proof. by rewrite /SvdModel.abs; case: ifP => h; [rewrite ltr0_norm | rewrite ger0_norm // leNgt h]. Qed.

(* U diag(Sg) V^T *)
Definition P U Sg V i j : T := U i 0%N * Sg 0%N * V j 0%N + U i 1%N * Sg 1%N * V j 1%N + U i 2%N * Sg 2%N * V j 2%N.
Definition one : vec := fun _ => 1.
Definition same (U : mat) (Sg : vec) (V U' : mat) (Sg' : vec) (V' : mat) (e f : T) : Prop :=
  [/\ forall i j, (i < 3)%N -> (j < 3)%N -> P U' Sg' V' i j = P U Sg V i j,
      forall i j, (i < 3)%N -> (j < 3)%N -> P U' one U' i j = P U one U i j,
      forall i j, (i < 3)%N -> (j < 3)%N -> P V' one V' i j = P V one V i j,
      det_3 U' = e * det_3 U & det_3 V' = f * det_3 V].
Lemma same_refl U Sg V : same U Sg V U Sg V 1 1.
Proof. by split; rewrite ?mul1r. Qed.
Lemma same_trans U Sg V U1 S1 V1 U2 S2 V2 e f e' f' :
  same U Sg V U1 S1 V1 e f -> same U1 S1 V1 U2 S2 V2 e' f' -> same U Sg V U2 S2 V2 (e' * e) (f' * f).
Proof.
move=> [a b c d g] [a' b' c' d' g']; split.
- by move=> i j hi hj; rewrite a' // a.
- by move=> i j hi hj; rewrite b' // b.
- by move=> i j hi hj; rewrite c' // c.
- by rewrite d' d mulrA.
- by rewrite g' g mulrA.
Qed.

Lemma same_usv U Sg V U' Sg' V' : same U Sg V U' Sg' V' 1 1 ->
  [/\ mx 3 3 U' *m diag 3 Sg' *m (mx 3 3 V')^T = mx 3 3 U *m diag 3 Sg *m (mx 3 3 V)^T,
      is_rotation (mx 3 3 U) -> is_rotation (mx 3 3 U')
    & is_rotation (mx 3 3 V) -> is_rotation (mx 3 3 V')].
Proof.
have PE (A B : mat) (S : vec) (i j : 'I_3) : (mx 3 3 A *m diag 3 S *m (mx 3 3 B)^T) i j = P A S B i j.
  rewrite mxE !big_ord_recl big_ord0 /= /diag !mul_mx_diag !mxE /= /P; nrm A; nrm B; nrv S; by fld.
have OE (A : mat) (i j : 'I_3) : (mx 3 3 A *m (mx 3 3 A)^T) i j = P A one A i j.
  rewrite mxE !big_ord_recl big_ord0 /= !mxE /= /P /one; nrm A; by fld.
move=> [a b c d g]; split.
- by apply/matrixP => i j; rewrite !PE a.
- case=> o e; split; last by rewrite -det_3_ok d mul1r det_3_ok.
  by rewrite -o; apply/matrixP => i j; rewrite !OE b.
- case=> o e; split; last by rewrite -det_3_ok g mul1r det_3_ok.
  by rewrite -o; apply/matrixP => i j; rewrite !OE c.
Qed.

(* the elementary steps *)
Lemma flipE j U Sg i k : (i < 3)%N ->
  (flip_sign j (U, Sg)).1 i k = (if k == j then - U i k else U i k).
Proof.
by case: i => [|[|[|i]]] // _; rewrite /flip_sign /mset /= ?andbF; case: eqP => // ->.
Qed.
Lemma flipS j U Sg k : (flip_sign j (U, Sg)).2 k = (if k == j then - Sg k else Sg k).
Proof. by rewrite /flip_sign /vset /=; case: eqP => // ->. Qed.
Lemma negE a M i k : (i < 3)%N -> neg_col a M i k = (if k == a then - M i k else M i k).
Proof.
by case: i => [|[|[|i]]] // _; rewrite /neg_col /loop /= /mset /=; case: eqP => // ->; rewrite ?eqxx.
Qed.
Lemma swapS a b Sg k : a != b -> swap_vals a b Sg k = (if k == b then Sg a else if k == a then Sg b else Sg k).
Proof. by move=> ne; rewrite /swap_vals /vset. Qed.
Lemma swapE a b M i k : a != b -> (i < 3)%N ->
  swap_cols a b M i k = (if k == b then M i a else if k == a then M i b else M i k).
Proof.
by move=> ne; case: i => [|[|[|i]]] // _; rewrite /swap_cols /loop /= /mset /=.
Qed.

Ltac entries := let hi := fresh in let hj := fresh in
  intros ? ? hi hj; rewrite /P /one ?flipE ?flipS ?negE ?swapE ?swapS //=; fld.
Ltac dets := rewrite /det_3 ?flipE ?negE ?swapE //=; fld.
Lemma flip_ok j U Sg V : (j < 3)%N ->
  same U Sg V (flip_sign j (U, Sg)).1 (flip_sign j (U, Sg)).2 V (-1) 1.
Proof.
by case: j => [|[|[|j]]] // _; split; first [entries | dets].
Qed.
Lemma swap_ok a b U Sg V : ((a, b) == (0, 1)%N) || ((a, b) == (1, 2)%N) ->
  same U Sg V (swap_cols a b U) (swap_vals a b Sg) (swap_cols a b V) (-1) (-1).
Proof.
by case/orP => /eqP [-> ->]; split; first [entries | dets].
Qed.
Lemma neg_ok a U Sg V : (a < 3)%N -> same U Sg V (neg_col a U) Sg (neg_col a V) (-1) (-1).
Proof.
by case: a => [|[|[|j]]] // _; split; first [entries | dets].
Qed.
Lemma flip2_ok j k U Sg V U1 S1 : (j < 3)%N -> (k < 3)%N -> j != k ->
  flip_sign j (flip_sign k (U, Sg)) = (U1, S1) ->
  same U Sg V U1 S1 V 1 1 /\ forall i, S1 i = if (i == j) || (i == k) then - Sg i else Sg i.
Proof.
move=> hj hk ne; case E : (flip_sign k (U, Sg)) => [U0 S0] E'.
have := flip_ok U Sg V hk; rewrite E /= => s1.
have := flip_ok U0 S0 V hj; rewrite E' /= => s2; split.
  by have := same_trans s1 s2; rewrite mulrNN !mulr1.
move=> i; have := flipS k U Sg i; rewrite E /= => e1; have := flipS j U0 S0 i; rewrite E' /= => ->.
rewrite e1; case: (eqVneq i j) => [->|] //=.
by rewrite (negbTE ne).
Qed.
Lemma swap2 U Sg V U1 S1 V1 U2 S2 V2 : same U Sg V U1 S1 V1 (-1) (-1) -> same U1 S1 V1 U2 S2 V2 (-1) (-1) ->
  same U Sg V U2 S2 V2 1 1.
Proof. by move=> a b; have := same_trans a b; rewrite mulrNN mulr1. Qed.
Lemma same11 U Sg V U1 S1 V1 U2 S2 V2 e f : same U Sg V U1 S1 V1 1 1 -> same U1 S1 V1 U2 S2 V2 e f ->
  same U Sg V U2 S2 V2 e f.
Proof. by move=> a b; have := same_trans a b; rewrite !mulr1. Qed.
Definition sorted3 Sg : Prop := Sg 1%N <= Sg 0%N /\ `|Sg 2%N| <= Sg 1%N.

Lemma sort0_ok U Sg V U' Sg' V' : `|Sg 1%N| <= Sg 0%N -> sort_sigma0 U Sg V = (U', Sg', V') ->
  same U Sg V U' Sg' V' 1 1 /\ sorted3 Sg'.
Proof.
move=> s0; have h0 : Sg 1%N <= Sg 0%N := le_trans (ler_norm _) s0.
rewrite /sort_sigma0 !absE [@flip_sign T]lock; case: ifP => c1.
  case: ifP => c2.
    case E : (locked (@flip_sign T) 2%N (locked (@flip_sign T) 1%N (U, Sg))) => [U1 S1] [<- <- <-].
    rewrite -lock in E; have [h hS] := @flip2_ok 2 1 U Sg V U1 S1 isT isT isT E.
    split=> //; rewrite /sorted3 !hS /= normrN -ltr0_norm //.
  by case=> <- <- <-; split; [exact: same_refl | split=> //; rewrite -(@ger0_norm _ (Sg 1%N)) // leNgt c2].
have c1' : `|Sg 1%N| < `|Sg 2%N| by rewrite ltNge c1.
case E : (if Sg 2%N < 0 then _ else _) => [U1 S1].
have [h [e0 e1 e2]] : same U Sg V U1 S1 V 1 1 /\ [/\ S1 0%N = Sg 0%N, `|S1 1%N| = `|Sg 1%N| & S1 2%N = `|Sg 2%N|].
  move: E; case: ifP => c2 E.
    rewrite -lock in E; have [h hS] := @flip2_ok 2 1 U Sg V U1 S1 isT isT isT E.
    by split=> //; split; rewrite hS //= ?normrN // ltr0_norm.
  case: E => <- <-; split; first exact: same_refl.
  by split=> //; rewrite ger0_norm // leNgt c2.
have sw := swap_ok U1 S1 V (a := 1%N) (b := 2%N) isT.
rewrite !swapS //= e0 e2; case: ifP => c3 [<- <- <-].
  split; first by apply: (same11 h); apply: (swap2 sw); apply: swap_ok.
  rewrite /sorted3 !swapS //= e0 e2 e1; split=> //; exact: ltW.
split; first by apply: (same11 h); apply: (swap2 sw); apply: neg_ok.
rewrite /sorted3 !swapS //= e0 e2 e1; split; last exact: ltW.
by rewrite leNgt c3.
Qed.

Lemma sort1_ok U Sg V U' Sg' V' : `|Sg 2%N| <= Sg 1%N -> sort_sigma1 U Sg V = (U', Sg', V') ->
  same U Sg V U' Sg' V' 1 1 /\ sorted3 Sg'.
Proof.
move=> s0; rewrite /sort_sigma1 !absE [@flip_sign T]lock; case: ifP => c1.
  case: ifP => c2.
    case E : (locked (@flip_sign T) 2%N (locked (@flip_sign T) 0%N (U, Sg))) => [U1 S1] [<- <- <-].
    rewrite -lock in E; have [h hS] := @flip2_ok 2 0 U Sg V U1 S1 isT isT isT E.
    by split=> //; rewrite /sorted3 !hS /= normrN -ltr0_norm.
  by case=> <- <- <-; split; [exact: same_refl | split=> //; rewrite -(@ger0_norm _ (Sg 0%N)) // leNgt c2].
have c1' : `|Sg 0%N| < Sg 1%N by rewrite ltNge c1.
have sw := swap_ok U Sg V (a := 0%N) (b := 1%N) isT.
case E : (if _ then _ else _) => [[U1 S1] V1].
have [h [e0 e1 e2]] : same U Sg V U1 S1 V1 1 1 /\ [/\ S1 0%N = Sg 1%N, `|S1 1%N| <= Sg 1%N & `|S1 2%N| <= `|S1 1%N|].
  move: E; rewrite !swapS //=; case: ifP => c2 [<- <- <-].
    split; first by apply: (swap2 sw); apply: swap_ok.
    by split; rewrite !swapS //= ltW.
  split; first by apply: (swap2 sw); apply: neg_ok.
  split; rewrite !swapS //=; first exact: ltW.
  by rewrite leNgt c2.
case: ifP => c3.
  case E2 : (locked (@flip_sign T) 2%N (locked (@flip_sign T) 1%N (U1, S1))) => [U2 S2] [<- <- <-].
  rewrite -lock in E2; have [h2 hS] := @flip2_ok 2 1 U1 S1 V1 U2 S2 isT isT isT E2.
  split; first exact: same11 h h2.
  by rewrite /sorted3 !hS /= e0 normrN -ltr0_norm.
case=> <- <- <-; split=> //; rewrite /sorted3 e0.
by rewrite -(@ger0_norm _ (S1 1%N)) // leNgt c3.
Qed.
End Sort.
