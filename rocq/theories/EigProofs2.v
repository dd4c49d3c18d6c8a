(* Proofs about the projection to positive semi-definite matrices. *)
From mathcomp Require Import all_ssreflect all_algebra.
From Coq Require Import Field.
From Verif Require Import FieldTac MatModel MatSpec MatProofs MatProofs2 RotModel RotSpec RotProofs SvdModel SvdSpec SvdProofs SvdProofs2 SvdProofs4 SvdProofs5 EigModel EigSpec EigProofs.
Set Implicit Arguments.
Unset Strict Implicit.
Unset Printing Implicit Defensive.
Import GRing.Theory Num.Theory Order.Theory.
Local Open Scope ring_scope.

Section Psd.
Variable T : rcfType.
Let F : fieldType := [fieldType of T].
Add Field ff : (cfield F).
Ltac fld := to_fld F; field; try exact (@two_neq0 T).
Notation mat := (nat -> nat -> T).
Notation vec := (nat -> T).

Lemma colM m n p (A : 'M[T]_(m, n)) (B : 'M[T]_(n, p)) j : col j (A *m B) = A *m col j B.
Proof. by rewrite !colE mulmxA. Qed.

Lemma clamp_ok n (eps : T) (e : vec) a :
  loop n (fun i e => if e i < eps then vset e i 0 else e) e a
  = if (a < n)%N && (e a < eps) then 0 else e a.
Proof.
apply: (loop_ind (P := fun k r => forall a, r a = if (a < k)%N && (e a < eps) then 0 else e a) _ _) => //.
move=> i s hi IH b; rewrite IH ltnn /= ltnS leq_eqVlt.
case: (eqVneq b i) => [->|ne] /=.
  by case: ifP => h; rewrite /vset ?eqxx // IH ltnn.
by case: ifP => h; rewrite /vset ?(negbTE ne) IH.
Qed.

Lemma inner_k n i (f : nat -> T) (M : mat) a b :
  loop n (fun k M => mset M i k (M i k + f k)) M a b = if (a == i) && (b < n)%N then M a b + f b else M a b.
Proof.
apply: (loop_ind (P := fun k r => forall a b, r a b = if (a == i) && (b < k)%N then M a b + f b else M a b) _ _) => //.
  by move=> x y; rewrite andbF.
move=> k s hk IH x y; rewrite /mset !IH eqxx ltnn /= (ltnS y k) (leq_eqVlt y k).
case: (eqVneq x i) => [->|] //=; by case: (eqVneq y k) => [->|].
Qed.
Lemma middle_j n m i (f : nat -> nat -> T) (M : mat) a b :
  loop m (fun j M => loop n (fun k M => mset M i k (M i k + f j k)) M) M a b
  = if (a == i) && (b < n)%N then M a b + \sum_(j < m) f j b else M a b.
Proof.
apply: (loop_ind (P := fun m r => forall a b, r a b = if (a == i) && (b < n)%N then M a b + \sum_(j < m) f j b else M a b) _ _) => //.
  by move=> x y; rewrite big_ord0 addr0; case: ifP.
move=> j s hj IH x y; rewrite inner_k IH big_ord_recr /=.
by case: (_ && _); rewrite ?addrA.
Qed.
Lemma rebuild_entry n eps e (E : mat) a b : (a < n)%N -> (b < n)%N ->
  rebuild n eps e E a b = \sum_(j < n) E a j * (if e j < eps then 0 else e j) * E b j.
Proof.
move=> ha hb; rewrite /rebuild; set e' := loop n _ e.
have h : forall m a b, loop m (fun i M => loop n (fun j M => loop n (fun k M =>
      mset M i k (M i k + E i j * e' j * E k j)) M) M) (@mnew T) a b
    = if (a < m)%N && (b < n)%N then \sum_(j < n) E a j * e' j * E b j else 0.
  move=> m; apply: (loop_ind (P := fun m r => forall a b, r a b = if (a < m)%N && (b < n)%N then \sum_(j < n) E a j * e' j * E b j else 0) _ _) => //.
  move=> i s hi IH x y; rewrite (@middle_j n n i (fun j k => E i j * e' j * E k j)) IH (ltnS x i) (leq_eqVlt x i).
  case: (eqVneq x i) => [->|] //=; rewrite ltnn /=; case: ifP => // _; by rewrite add0r.
rewrite h ha hb /=; apply: eq_bigr => j _; by rewrite /e' clamp_ok ltn_ord.
Qed.
Definition clamp (eps : T) (e : vec) : vec := fun j => if e j < eps then 0 else e j.

Lemma diagE n (e : vec) (i j : 'I_n) : diag n e i j = if i == j then e i else 0.
Proof. by rewrite /diag !mxE; case: eqP => [->|] /=; rewrite ?mulr1n ?mulr0n. Qed.
Lemma ede n (E : 'M[T]_n) e i j : (E *m diag n e *m E^T) i j = \sum_k E i k * e k * E j k.
Proof.
rewrite mxE; apply: eq_bigr => k _; congr (_ * _); last by rewrite mxE.
rewrite mxE (bigD1 k) //= diagE eqxx big1 ?addr0 // => l lk; by rewrite diagE (negbTE lk) mulr0.
Qed.
Lemma rebuild_ok n eps e (E : mat) :
  mx n n (rebuild n eps e E) = mx n n E *m diag n (clamp eps e) *m (mx n n E)^T.
Proof.
apply/matrixP => i j; rewrite ede mxE rebuild_entry //.
by apply: eq_bigr => k _; rewrite !mxE.
Qed.

Lemma quad_ede n (E : 'M[T]_n) e x : quadratic (E *m diag n e *m E^T) x = \sum_(k < n) e k * ((E^T *m x) k 0) ^+ 2.
Proof.
rewrite /quadratic; set y := E^T *m x.
have -> : x^T *m (E *m diag n e *m E^T) *m x = y^T *m diag n e *m y.
  by rewrite /y trmx_mul trmxK !mulmxA.
rewrite mxE; apply: eq_bigr => k _.
rewrite mxE (bigD1 k) //= big1 ?addr0; last by move=> l lk; rewrite diagE (negbTE lk) mulr0.
by rewrite diagE eqxx [y^T _ _]mxE expr2 mulrA [e k * _]mulrC.
Qed.
Lemma psd_ede n (E : 'M[T]_n) e : (forall k, (k < n)%N -> 0 <= e k) -> psd (E *m diag n e *m E^T).
Proof.
move=> h; split; first by rewrite /symmetric !trmx_mul trmxK /diag tr_diag_mx mulmxA.
by move=> x; rewrite quad_ede; apply: sumr_ge0 => k _; rewrite mulr_ge0 ?sqr_ge0 ?h.
Qed.
Lemma rebuild_psd n eps e (E : mat) : 0 <= eps -> psd (mx n n (rebuild n eps e E)).
Proof.
move=> e0; rewrite rebuild_ok; apply: psd_ede => k _; rewrite /clamp; case: ltP => // h; exact: le_trans h.
Qed.

Lemma quad_col n (E : 'M[T]_n) e k : E^T *m E = 1%:M -> quadratic (E *m diag n e *m E^T) (col k E) = e k.
Proof.
move=> o; rewrite quad_ede -colM o (bigD1 k) //= !mxE eqxx expr1n mulr1 big1 ?addr0 // => i ik.
by rewrite !mxE (negbTE ik) expr0n mulr0.
Qed.
Lemma eq_diag n (e f : vec) : (forall i : 'I_n, e i = f i) -> diag n e = diag n f.
Proof. by move=> h; rewrite /diag; congr diag_mx; apply/rowP => i; rewrite !mxE h. Qed.
Lemma rebuild_same n eps e (E : mat) : (mx n n E)^T *m mx n n E = 1%:M ->
  (forall x, eps * (x^T *m x) 0 0 <= quadratic (mx n n E *m diag n e *m (mx n n E)^T) x) ->
  mx n n (rebuild n eps e E) = mx n n E *m diag n e *m (mx n n E)^T.
Proof.
move=> o h; rewrite rebuild_ok; congr (_ *m _ *m _); apply: eq_diag => i; rewrite /clamp.
have := h (col i (mx n n E)); rewrite quad_col // tr_col -row_mul -colM o.
by rewrite !mxE eqxx mulr1 => le; rewrite ltNge le.
Qed.

Lemma frob_conj n (E X : 'M[T]_n) : E^T *m E = 1%:M -> frob2 (E *m X *m E^T) = frob2 X.
Proof. by move=> o; rewrite frob2_r ?trmxK // frob2_l. Qed.
Lemma diagB n (e f : vec) : diag n e - diag n f = diag n (fun i => e i - f i).
Proof. by apply/matrixP => i j; rewrite mxE [X in _ + X]mxE !diagE; case: ifP; rewrite ?subr0. Qed.
Lemma frob_diag n (e : vec) : frob2 (diag n e) = \sum_(i < n) e i ^+ 2.
Proof.
apply: eq_bigr => i _; rewrite (bigD1 i) //= diagE eqxx big1 ?addr0 // => j ji.
by rewrite diagE eq_sym (negbTE ji) expr0n.
Qed.
Lemma frob_ge_diag n (X : 'M[T]_n) : \sum_i X i i ^+ 2 <= frob2 X.
Proof.
apply: ler_sum => i _; rewrite (bigD1 i) //= ler_addl; apply: sumr_ge0 => j _; exact: sqr_ge0.
Qed.
Lemma rebuild_near n eps e (E : mat) (P : 'M[T]_n) (M := mx n n E *m diag n e *m (mx n n E)^T) : 0 <= eps ->
  (mx n n E)^T *m mx n n E = 1%:M -> psd P ->
  frob2 (mx n n (rebuild n eps e E) - M) <= frob2 (P - M) + n%:R * eps ^+ 2.
Proof.
move=> e0 o [_ pP]; rewrite rebuild_ok /M.
move: (mx n n E) o => Em o; have o' := mulmx1C o.
rewrite -mulmxBl -mulmxBr frob_conj // diagB frob_diag.
have -> : frob2 (P - Em *m diag n e *m Em^T) = frob2 (Em^T *m P *m Em - diag n e).
  rewrite -(frob_conj (Em^T *m P *m Em - diag n e) o) mulmxBr mulmxBl.
  congr (frob2 (_ - _)); by rewrite !mulmxA o' mul1mx -mulmxA o' mulmx1.
set Q := Em^T *m P *m Em.
apply: (le_trans (y := \sum_(i < n) ((Q i i - e i) ^+ 2 + eps ^+ 2))); last first.
  rewrite big_split /= sumr_const card_ord -[eps ^+ 2 *+ n]mulr_natl ler_add2r.
  apply: le_trans (frob_ge_diag _); apply: ler_sum => i _.
  have -> : (Q - diag n e) i i = Q i i - e i by rewrite mxE [X in _ + X]mxE diagE eqxx.
  by [].
apply: ler_sum => i _; rewrite /clamp.
have q0 : 0 <= Q i i.
  have := pP (col i Em); rewrite /quadratic tr_col -row_mul.
  by rewrite -row_mul -colM !mxE.
case: ltP => [lt|ge]; last by rewrite subrr expr0n addr_ge0 ?sqr_ge0.
rewrite sub0r sqrrN; case: (lerP 0 (e i)) => h.
  by rewrite ler_paddl ?sqr_ge0 // ler_sqr ?nnegrE // ltW.
rewrite ler_paddr ?sqr_ge0 // -(sqrrN (e i)) ler_sqr ?nnegrE ?oppr_ge0 ?(ltW h) ?ler_addr //.
by rewrite addr_ge0 // oppr_ge0 ltW.
Qed.

(* from the product to eigenvectors *)
Lemma basis_of n (M E : 'M[T]_n) e : E^T *m E = 1%:M -> M = E *m diag n e *m E^T -> eigenbasis M e E.
Proof.
move=> o ->; split=> // j; rewrite -colM -!mulmxA o mulmx1.
apply/colP => i; rewrite !mxE (bigD1 j) //= diagE eqxx big1 ?addr0; last first.
  by move=> k kj; rewrite diagE (negbTE kj) mulr0.
by rewrite mulrC.
Qed.
Lemma of_basis n (M E : 'M[T]_n) e : eigenbasis M e E -> M = E *m diag n e *m E^T.
Proof.
move=> [o h]; rewrite -[LHS]mulmx1 -(mulmx1C o) mulmxA; congr (_ *m _).
apply/matrixP => i j; have := h j; rewrite -colM => /colP /(_ i); rewrite !mxE => ->.
rewrite (bigD1 j) //= diagE eqxx big1 ?addr0; first by rewrite mulrC.
by move=> k kj; rewrite diagE (negbTE kj) mulr0.
Qed.

(* orthogonal of a vector with three entries *)
Lemma orth3_ok (v : vec) : dot 3 v (orthogonal3 v) = 0 /\
  ((exists i, (i < 3)%N /\ v i != 0) -> exists i, (i < 3)%N /\ orthogonal3 v i != 0).
Proof.
have key : forall r : vec, dot 3 v (cross3 v r) = 0.
  move=> r; rewrite dot_3 /cross3 /vset /=; by fld.
split; first exact: key.
move=> [i [hi vi]]; rewrite /orthogonal3 !absE.
have z0 (x y : T) : `|x| < y -> y != 0 by move=> h; rewrite gt_eqF // (le_lt_trans _ h).
case: (ltP `|v 0%N| `|v 1%N|) => h.
- have v1 : v 1%N != 0 by rewrite -normr_eq0; exact: z0 h.
  case: ltP => _; [exists 2%N | exists 0%N]; rewrite /cross3 /vset /vnew /= !(mulr0, mulr1, subr0, sub0r, oppr_eq0) //.
- case: ltP => h2.
    have v2 : v 2%N != 0 by rewrite -normr_eq0; exact: z0 h2.
    by exists 0%N; rewrite /cross3 /vset /vnew /= !(mulr0, mulr1, subr0, sub0r, oppr_eq0).
  exists 1%N; rewrite /cross3 /vset /vnew /= !(mulr0, mulr1, subr0, sub0r, oppr_eq0); split=> //.
  apply/eqP => z; move: h h2; rewrite z normr0 normr_le0 => /eqP z1; rewrite z1 normr0 normr_le0 => /eqP z2.
  by move: vi; case: i hi => [|[|[|]]] //; rewrite ?z ?z1 ?z2 eqxx.
Qed.
End Psd.
