From mathcomp Require Import all_ssreflect all_algebra.
From Verif Require Import LwModel LbModel.
Import Order.TTheory GRing.Theory Num.Theory.
Set Implicit Arguments.
Unset Strict Implicit.
Local Open Scope ring_scope.

Section P.
Variable F : realFieldType.
Variable n : nat.
Implicit Types (b : 'rV[F]_n * 'rV[F]_n) (x : 'rV[F]_n) (s : seq 'rV[F]_n).

Lemma grow1 b x d : (grow b x).1 0 d <= b.1 0 d /\ (grow b x).1 0 d <= x 0 d.
Proof. rewrite !mxE. by case: ltP => H; split=> //; apply: ltW. Qed.
Lemma grow2 b x d : b.2 0 d <= (grow b x).2 0 d /\ x 0 d <= (grow b x).2 0 d.
Proof. rewrite !mxE. by case: ltP => H; split=> //; apply: ltW. Qed.
Lemma folds s b d : (foldl (@grow F n) b s).1 0 d <= b.1 0 d /\ b.2 0 d <= (foldl (@grow F n) b s).2 0 d.
Proof.
elim: s b => //= x s IH b. have [A B] := IH (grow b x). have [C _] := grow1 b x d. have [D _] := grow2 b x d.
by split; [apply: le_trans A C | apply: le_trans D B].
Qed.
Lemma fold_in s b x d : x \in s -> (foldl (@grow F n) b s).1 0 d <= x 0 d <= (foldl (@grow F n) b s).2 0 d.
Proof.
elim: s b => //= y s IH b. rewrite in_cons => /orP [/eqP ->|H]; last exact: IH.
have [A B] := folds s (grow b y) d. have [_ C] := grow1 b y d. have [_ D] := grow2 b y d.
by rewrite (le_trans A C) (le_trans D B).
Qed.
Lemma fold_is1 s b d : (foldl (@grow F n) b s).1 0 d = b.1 0 d \/
  exists2 x, x \in s & (foldl (@grow F n) b s).1 0 d = x 0 d.
Proof.
elim: s b => /= [b|x s IH b]; first by left.
case: (IH (grow b x)) => [->|[y Y ->]]; last by right; exists y => //; rewrite in_cons Y orbT.
rewrite mxE. case: ltP => H; [right; exists x => //; exact: mem_head | by left].
Qed.
Lemma fold_is2 s b d : (foldl (@grow F n) b s).2 0 d = b.2 0 d \/
  exists2 x, x \in s & (foldl (@grow F n) b s).2 0 d = x 0 d.
Proof.
elim: s b => /= [b|x s IH b]; first by left.
case: (IH (grow b x)) => [->|[y Y ->]]; last by right; exists y => //; rewrite in_cons Y orbT.
rewrite mxE. case: ltP => H; [right; exists x => //; exact: mem_head | by left].
Qed.

(** The linear part. *)
Lemma affine c (p : place F n) : exists M : 'M[F]_n, forall X Y,
  indexToWorld c p Y - indexToWorld c p X = (Y - X) *m M.
Proof.
case: c.
- exists (invmx (i2wSinv p) *m invmx (i2wRinv p)) => X Y.
  by rewrite /indexToWorld opprD addrACA subrr addr0 -!mulmxBl opprD addrACA subrr addr0 mulmxA.
- exists (invmx (i2wSinv p) *m (i2wRinv p)^T) => X Y.
  by rewrite /indexToWorld opprD addrACA subrr addr0 -!mulmxBl mulmxA.
Qed.

Lemma corner_mem c (p : place F n) lo hi loc :
  indexToWorld c p (corner lo hi loc) \in [seq indexToWorld c p (corner lo hi l) | l <- enum {ffun 'I_n -> bool}].
Proof. by apply/mapP; exists loc => //; rewrite mem_enum. Qed.

Lemma corner_low c (p : place F n) (lo hi X : 'rV[F]_n) d : (forall j, lo 0 j <= X 0 j <= hi 0 j) ->
  exists loc, indexToWorld c p (corner lo hi loc) 0 d <= indexToWorld c p X 0 d.
Proof.
move=> H. have [M HM] := affine c p. exists [ffun j => M j d < 0].
rewrite -subr_ge0. have := congr1 (fun r : 'rV_n => r 0 d) (HM (corner lo hi [ffun j => M j d < 0]) X).
rewrite [X in X = _]mxE [X in _ + X]mxE => ->. rewrite mxE; apply: sumr_ge0 => j _.
rewrite !mxE ffunE. have /andP [A B] := H j. case: ltP => C.
- by rewrite mul1r [lo 0 j + _]addrC subrK; apply: mulr_le0; [rewrite subr_le0 | apply: ltW].
- by rewrite mul0r addr0; apply: mulr_ge0 => //; rewrite subr_ge0.
Qed.
Lemma corner_high c (p : place F n) (lo hi X : 'rV[F]_n) d : (forall j, lo 0 j <= X 0 j <= hi 0 j) ->
  exists loc, indexToWorld c p X 0 d <= indexToWorld c p (corner lo hi loc) 0 d.
Proof.
move=> H. have [M HM] := affine c p. exists [ffun j => 0 < M j d].
rewrite -subr_ge0. have := congr1 (fun r : 'rV_n => r 0 d) (HM X (corner lo hi [ffun j => 0 < M j d])).
rewrite [X in X = _]mxE [X in _ + X]mxE => ->. rewrite mxE; apply: sumr_ge0 => j _.
rewrite !mxE ffunE. have /andP [A B] := H j. case: ltP => C.
- by rewrite mul1r [lo 0 j + _]addrC subrK; apply: mulr_ge0; [rewrite subr_ge0 | apply: ltW].
- by rewrite mul0r addr0; apply: mulr_le0 => //; rewrite subr_le0.
Qed.
End P.
