(* Proofs about MatModel. *)
From mathcomp Require Import all_ssreflect all_algebra.
From Verif Require Import MatModel MatSpec.
From Coq Require Import Ring Field.
Import GRing.Theory.
Set Implicit Arguments.
Unset Strict Implicit.
Unset Printing Implicit Defensive.
Local Open Scope ring_scope.

(* the ring operations as plain functions, for the ring and field tactics *)
Definition radd (R : comRingType) (x y : R) : R := x + y.
Definition rmul (R : comRingType) (x y : R) : R := x * y.
Definition ropp (R : comRingType) (x : R) : R := - x.
Definition rsub (R : comRingType) (x y : R) : R := radd x (ropp y).
Definition rzero (R : comRingType) : R := 0.
Definition rone (R : comRingType) : R := 1.

Lemma cring (R : comRingType) :
  ring_theory (rzero R) (rone R) (@radd R) (@rmul R) (@rsub R) (@ropp R) eq.
Proof.
  split.
  - exact: add0r. - exact: addrC. - exact: addrA. - exact: mul1r. - exact: mulrC.
  - exact: mulrA. - exact: mulrDl. - by []. - exact: subrr.
Qed.

Ltac to_ring R :=
  repeat match goal with
  | |- context [@GRing.add _ ?x ?y] => change (@GRing.add _ x y) with (@radd R x y)
  | |- context [@GRing.mul _ ?x ?y] => change (@GRing.mul _ x y) with (@rmul R x y)
  | |- context [@GRing.opp _ ?x] => change (@GRing.opp _ x) with (@ropp R x)
  | |- context [@GRing.zero ?a] => change (@GRing.zero a) with (rzero R)
  | |- context [@GRing.one ?a] => change (@GRing.one a) with (rone R)
  end;
  match goal with |- @eq _ ?l ?r => change (@eq (GRing.ComRing.sort R) l r) end.

(* ---------- loops ---------- *)
Lemma loop_ind (S : Type) (P : nat -> S -> Prop) n f (s : S) :
  P 0%N s -> (forall i s, (i < n)%N -> P i s -> P i.+1 (f i s)) -> P n (loop n f s).
Proof.
  move=> H0 H. rewrite /loop.
  have G : forall k a s', (a + k = n)%N -> P a s' -> P n (foldl (fun s i => f i s) s' (iota a k)).
  { elim => [|k IH] a s' /= Ha Ps'.
    - by rewrite -Ha addn0.
    - apply: IH; first by rewrite addSnnS.
      apply: H => //. by rewrite -Ha -addSnnS leq_addr. }
  exact: (G n 0%N s).
Qed.

Section R.
Variable R : comRingType.
Add Ring cr : (cring R).
Ltac rng := to_ring R; ring.

(* a loop that writes entry i in round i *)
Lemma fill1 (T : Type) n (body : nat -> (nat -> T) -> (nat -> T)) v r0 :
  (forall i r a, body i r a = if a == i then v i else r a) ->
  forall a, loop n body r0 a = if (a < n)%N then v a else r0 a.
Proof.
  move=> H.
  apply: (loop_ind (P := fun k r => forall a, r a = if (a < k)%N then v a else r0 a)) => //.
  move=> i s Hi IH a. rewrite H ltnS leq_eqVlt IH. by case: eqP => [->|].
Qed.

Lemma fill_row (T : Type) n i (body : nat -> (nat -> nat -> T) -> (nat -> nat -> T)) v r0 :
  (forall j r a b, body j r a b = if (a == i) && (b == j) then v j else r a b) ->
  forall a b, loop n body r0 a b = if (a == i) && (b < n)%N then v b else r0 a b.
Proof.
  move=> H.
  apply: (loop_ind (P := fun k r => forall a b, r a b = if (a == i) && (b < k)%N then v b else r0 a b)).
  - move=> a b. by rewrite andbF.
  - move=> j s Hj IH a b. rewrite H ltnS leq_eqVlt IH. case: eqP => [->|] //=. by case: eqP => [->|].
Qed.

Lemma fill2 (T : Type) m n (body : nat -> nat -> (nat -> nat -> T) -> (nat -> nat -> T)) v r0 :
  (forall i j r a b, body i j r a b = if (a == i) && (b == j) then v i j else r a b) ->
  forall a b, loop m (fun i r => loop n (body i) r) r0 a b
              = if (a < m)%N && (b < n)%N then v a b else r0 a b.
Proof.
  move=> H.
  apply: (loop_ind (P := fun k r => forall a b, r a b = if (a < k)%N && (b < n)%N then v a b else r0 a b)) => //.
  move=> i s Hi IH a b. rewrite (@fill_row _ n i _ (v i)); last by move=> *; exact: H.
  rewrite (ltnS a i) (leq_eqVlt a i) IH. case: (eqVneq a i) => [->|] //=. rewrite ltnn /=. by case: (b < n)%N.
Qed.

Lemma fill_col (T : Type) n i (body : nat -> (nat -> nat -> T) -> (nat -> nat -> T)) v r0 :
  (forall j r a b, body j r a b = if (a == j) && (b == i) then v j else r a b) ->
  forall a b, loop n body r0 a b = if (a < n)%N && (b == i) then v a else r0 a b.
Proof.
  move=> H.
  apply: (loop_ind (P := fun k r => forall a b, r a b = if (a < k)%N && (b == i) then v a else r0 a b)) => //.
  move=> j s Hj IH a b. rewrite H ltnS leq_eqVlt IH.
  case: (eqVneq a j) => [->|] //=. by rewrite ltnn /=; case: eqP.
Qed.

Lemma fill2T (T : Type) m n (body : nat -> nat -> (nat -> nat -> T) -> (nat -> nat -> T)) v r0 :
  (forall i j r a b, body i j r a b = if (a == j) && (b == i) then v i j else r a b) ->
  forall a b, loop m (fun i r => loop n (body i) r) r0 a b
              = if (b < m)%N && (a < n)%N then v b a else r0 a b.
Proof.
  move=> H.
  apply: (loop_ind (P := fun k r => forall a b, r a b = if (b < k)%N && (a < n)%N then v b a else r0 a b)) => //.
  move=> i s Hi IH a b. rewrite (@fill_col _ n i _ (v i)); last by move=> *; exact: H.
  rewrite (ltnS b i) (leq_eqVlt b i) IH. case: (eqVneq b i) => [->|] /=; last by rewrite andbF.
  rewrite andbT ltnn /=. by case: ltnP.
Qed.

Lemma loop_sum n (f : nat -> R) (z : R) : loop n (fun i s => s + f i) z = z + \sum_(i < n) f i.
Proof.
  apply: (loop_ind (P := fun k s => s = z + \sum_(i < k) f i)).
  - by rewrite big_ord0 addr0.
  - move=> i s _ ->. by rewrite big_ord_recr /= addrA.
Qed.

Lemma loop_msum n (f : nat -> R) i j (r0 : nat -> nat -> R) a b :
  loop n (fun k r => mset r i j (r i j + f k)) (mset r0 i j 0) a b
  = if (a == i) && (b == j) then \sum_(k < n) f k else r0 a b.
Proof.
  apply: (loop_ind (P := fun k r => r i j = \sum_(l < k) f l /\
     r a b = if (a == i) && (b == j) then \sum_(l < k) f l else r0 a b) _ _).2.
  - rewrite big_ord0 /mset !eqxx /=. by case: (_ && _).
  - move=> k r _ [E1 E2]. rewrite big_ord_recr /= /mset !eqxx /= E1 E2. by case: (_ && _).
Qed.

Lemma loop_vsum n (f : nat -> R) i (r0 : nat -> R) a :
  loop n (fun k r => vset r i (r i + f k)) (vset r0 i 0) a
  = if a == i then \sum_(k < n) f k else r0 a.
Proof.
  apply: (loop_ind (P := fun k r => r i = \sum_(l < k) f l /\
     r a = if a == i then \sum_(l < k) f l else r0 a) _ _).2.
  - rewrite big_ord0 /vset !eqxx /=. by case: (_ == _).
  - move=> k r _ [E1 E2]. rewrite big_ord_recr /= /vset !eqxx /= E1 E2. by case: (_ == _).
Qed.

(* ---------- products ---------- *)
Lemma matmul_ok Ni Nk Nj (A B : nat -> nat -> R) :
  mx Ni Nj (matmul Ni Nk Nj A B) = mx Ni Nk A *m mx Nk Nj B.
Proof.
  apply/matrixP => i j. rewrite !mxE /matmul.
  rewrite (@fill2 _ _ _ _ (fun i j => \sum_(k < Nk) A i k * B k j)).
  - rewrite !ltn_ord /=. by apply: eq_bigr => k _; rewrite !mxE.
  - move=> i' j' r a b. by rewrite loop_msum.
Qed.

Lemma transpose_ok M N (A : nat -> nat -> R) : mx N M (transpose M N A) = (mx M N A)^T.
Proof.
  apply/matrixP => i j. rewrite !mxE /transpose.
  rewrite (@fill2T _ _ _ _ (fun i j => A i j)) => //. by rewrite !ltn_ord.
Qed.

Lemma matvec_ok M N (A : nat -> nat -> R) x : cv M (matvec M N A x) = mx M N A *m cv N x.
Proof.
  apply/matrixP => i j. rewrite !mxE /matvec.
  rewrite (@fill1 _ _ _ (fun i => \sum_(j < N) A i j * x j)).
  - rewrite ltn_ord. by apply: eq_bigr => k _; rewrite !mxE.
  - move=> i' r a. by rewrite loop_vsum.
Qed.

Lemma vecmat_ok M N (A : nat -> nat -> R) x : rv N (vecmat M N x A) = rv M x *m mx M N A.
Proof.
  apply/matrixP => i j. rewrite !mxE /vecmat.
  rewrite (@fill1 _ _ _ (fun j => \sum_(i < M) A i j * x i)).
  - rewrite ltn_ord. by apply: eq_bigr => k _; rewrite !mxE mulrC.
  - move=> i' r a. by rewrite loop_vsum.
Qed.

Lemma dot_ok n (a b : nat -> R) : dot n a b = (rv n a *m cv n b) 0 0.
Proof. rewrite /dot loop_sum add0r !mxE. by apply: eq_bigr => k _; rewrite !mxE. Qed.

Lemma l2_ok n (a : nat -> R) : l2NormSqr n a = (rv n a *m cv n a) 0 0.
Proof. exact: dot_ok. Qed.

Lemma trace_ok n (A : nat -> nat -> R) : trace n A = \tr (mx n n A).
Proof. rewrite /trace loop_sum add0r. by apply: eq_bigr => k _; rewrite !mxE. Qed.

Lemma dyadic_ok m n (c r : nat -> R) : mx m n (dyadic_prod m n c r) = cv m c *m rv n r.
Proof.
  apply/matrixP => i j. rewrite !mxE /dyadic_prod.
  rewrite (@fill2 _ _ _ _ (fun i j => c i * r j)) => //. by rewrite !ltn_ord /= big_ord1 !mxE.
Qed.

Lemma diag_r_ok m n (A : nat -> nat -> R) d :
  mx m n (diag_mul_r m n A d) = mx m n A *m diag_mx (rv n d).
Proof.
  apply/matrixP => i j. rewrite mul_mx_diag !mxE /diag_mul_r.
  rewrite (@fill2 _ _ _ _ (fun i j => A i j * d j)) => //. by rewrite !ltn_ord.
Qed.
Lemma diag_l_ok m n (A : nat -> nat -> R) d :
  mx m n (diag_mul_l m n d A) = diag_mx (rv m d) *m mx m n A.
Proof.
  apply/matrixP => i j. rewrite mul_diag_mx !mxE /diag_mul_l.
  rewrite (@fill2 _ _ _ _ (fun i j => A i j * d i)) => //. by rewrite !ltn_ord mulrC.
Qed.

Lemma affine_mv_ok m n (A : nat -> nat -> R) x :
  cv m (affine_mv m.+1 n.+1 A x) = mx m n.+1 A *m cv n.+1 (hom n x).
Proof.
  apply/matrixP => i j. rewrite !mxE /affine_mv /=.
  rewrite (@fill1 _ _ _ (fun i => \sum_(j < n.+1) (if (j : nat) == n then A i j else A i j * x j))).
  - rewrite ltn_ord. apply: eq_bigr => k _; rewrite !mxE /hom.
    case: (ltngtP k n) => H //; last by rewrite mulr1.
    by move: (ltn_ord k); rewrite ltnS leqNgt H.
  - move=> i' r a. by rewrite (loop_vsum _ (fun j => if j == n then A i' j else A i' j * x j)).
Qed.

Lemma affine_vm_ok m n (A : nat -> nat -> R) x :
  rv n (affine_vm m.+1 n.+1 x A) = rv m.+1 (hom m x) *m mx m.+1 n A.
Proof.
  apply/matrixP => i j. rewrite !mxE /affine_vm /=.
  rewrite (@fill1 _ _ _ (fun j => \sum_(i < m.+1) (if (i : nat) == m then A i j else A i j * x i))).
  - rewrite ltn_ord. apply: eq_bigr => k _; rewrite !mxE /hom.
    case: (ltngtP k m) => H; first by rewrite mulrC.
    + by move: (ltn_ord k); rewrite ltnS leqNgt H.
    + by rewrite mul1r.
  - move=> i' r a. by rewrite (loop_vsum _ (fun i => if i == m then A i i' else A i i' * x i)).
Qed.
End R.
