(* Conjugate directions: the abstract recurrences. *)
From mathcomp Require Import all_ssreflect all_algebra.
From Verif Require Import CgModel CgSpec.
Import GRing.Theory Num.Theory Order.Theory.
Set Implicit Arguments.
Unset Strict Implicit.
Unset Printing Implicit Defensive.
Local Open Scope ring_scope.

Section Dot.
Variable T : rcfType.
Variable n : nat.
Implicit Types (u v w : 'cV[T]_n) (A : 'M[T]_n).

Lemma dot_mx u v : dot u v = (u^T *m v) 0 0.
Proof. by rewrite mxE /dot; apply: eq_bigr => i _; rewrite mxE. Qed.
Lemma dotC u v : dot u v = dot v u.
Proof. by rewrite /dot; apply: eq_bigr => i _; rewrite mulrC. Qed.
Lemma dotDl u v w : dot (u + v) w = dot u w + dot v w.
Proof. by rewrite !dot_mx linearD /= mulmxDl mxE. Qed.
Lemma dotZl a u w : dot (a *: u) w = a * dot u w.
Proof. by rewrite !dot_mx linearZ /= -scalemxAl mxE. Qed.
Lemma dotNl u w : dot (- u) w = - dot u w.
Proof. by rewrite -scaleN1r dotZl mulN1r. Qed.
Lemma dotBl u v w : dot (u - v) w = dot u w - dot v w.
Proof. by rewrite dotDl dotNl. Qed.
Lemma dotDr u v w : dot w (u + v) = dot w u + dot w v.
Proof. by rewrite !(dotC w) dotDl. Qed.
Lemma dotZr a u w : dot w (a *: u) = a * dot w u.
Proof. by rewrite !(dotC w) dotZl. Qed.
Lemma dotBr u v w : dot w (u - v) = dot w u - dot w v.
Proof. by rewrite !(dotC w) dotBl. Qed.
Lemma dot0l u : dot 0 u = 0.
Proof. by rewrite -(scale0r 0) dotZl mul0r. Qed.
Lemma dot0r u : dot u 0 = 0.
Proof. by rewrite dotC dot0l. Qed.
Lemma dot_suml k (f : 'I_k -> 'cV[T]_n) w : dot (\sum_j f j) w = \sum_j dot (f j) w.
Proof.
elim/big_ind2: _ => [|u1 u2 v1 v2 <- <-|//]; first exact: dot0l.
by rewrite dotDl.
Qed.
Lemma dot_mulmx A u v : dot (A *m u) v = dot u (A^T *m v).
Proof. by rewrite !dot_mx trmx_mul mulmxA. Qed.
Lemma dot_sym A u v : symmetric A -> dot (A *m u) v = dot u (A *m v).
Proof. by move=> h; rewrite dot_mulmx h. Qed.
Lemma dot_ge0 u : 0 <= dot u u.
Proof. by apply: sumr_ge0 => i _; rewrite -expr2 sqr_ge0. Qed.
Lemma dot_eq0 u : dot u u = 0 -> u = 0.
Proof.
move=> h; apply/colP => i; rewrite mxE.
have /psumr_eq0P h2 : forall j : 'I_n, true -> 0 <= u j 0 * u j 0
  by move=> j _; rewrite -expr2 sqr_ge0.
have := h2 h i isT.
by move/eqP; rewrite mulf_eq0 => /orP[] /eqP.
Qed.

Lemma dotProductE u v : dotProduct u v = dot u v.
Proof.
rewrite /dotProduct /dot.
have -> : \sum_i u i 0 * v i 0 = 0 + \sum_(i <- enum 'I_n) u i 0 * v i 0.
  by rewrite add0r big_enum.
have gen : forall s (a : T), foldl (fun t (i : 'I_n) => t + (\col_i (u i 0 * v i 0)) i 0) a s
    = a + \sum_(i <- s) u i 0 * v i 0.
  elim=> [|i s IH] a /=; first by rewrite big_nil addr0.
  by rewrite IH big_cons mxE addrA.
exact: gen.
Qed.
Lemma linear_combineE m u v : linear_combine m u v = v + m *: u.
Proof. by apply/colP => i; rewrite !mxE mul1r addrC. Qed.
Lemma minusE u v : minus u v = u - v.
Proof. by apply/colP => i; rewrite !mxE. Qed.
End Dot.

Section Core.
Variable T : rcfType.
Variable n : nat.
Variables (r q p w : nat -> 'cV[T]_n) (z d : nat -> T).
Variable K : nat.
Hypothesis Hz : forall k, (k <= K)%N -> z k = dot (r k) (q k).
Hypothesis Hd : forall k, (k < K)%N -> d k = dot (w k) (p k).
Hypothesis Hr : forall k, (k < K)%N -> r k.+1 = r k - (z k / d k) *: w k.
Hypothesis Hp0 : p 0 = q 0.
Hypothesis Hp : forall k, (k < K)%N -> p k.+1 = q k.+1 + (z k.+1 / z k) *: p k.
Hypothesis Hrq : forall i j, (i <= K)%N -> (j <= K)%N -> dot (r i) (q j) = dot (r j) (q i).
Hypothesis Hwp : forall i j, (i <= K)%N -> (j <= K)%N -> dot (w i) (p j) = dot (w j) (p i).
Hypothesis z0 : forall k, (k < K)%N -> z k != 0.
Hypothesis d0 : forall k, (k < K)%N -> d k != 0.

Lemma w_diff k : (k < K)%N -> w k = (d k / z k) *: (r k - r k.+1).
Proof.
move=> h; rewrite (Hr h) opprB addrC subrK scalerA.
by rewrite mulrA divfK ?z0 // divff ?d0 // scale1r.
Qed.

Definition good k :=
  [/\ forall j, (j < k)%N -> dot (r k) (p j) = 0,
      forall j, (j < k)%N -> dot (w k) (p j) = 0,
      forall j, (j < k)%N -> dot (r k) (q j) = 0 &
      dot (r k) (p k) = z k].

Lemma core k : (k <= K)%N -> good k.
Proof.
elim: k => [|k IH] kK.
  by split=> //; rewrite Hz // Hp0.
have kK' := ltnW kK.
have [h1 h2 h3 h4] := IH kK'.
have g1 : forall j, (j < k.+1)%N -> dot (r k.+1) (p j) = 0.
  move=> j; rewrite (ltnS j k) (leq_eqVlt j k) => /orP[/eqP ->|jk]; rewrite (Hr kK) dotBl dotZl.
    by rewrite h4 -(Hd kK) divfK ?d0 // subrr.
  by rewrite h1 // h2 // mulr0 subrr.
have g3 : forall j, (j < k.+1)%N -> dot (r k.+1) (q j) = 0.
  case=> [|j] jk; first by rewrite -Hp0 g1.
  have jK : (j < K)%N by apply: leq_trans kK'; rewrite ltnS in jk.
  have -> : q j.+1 = p j.+1 - (z j.+1 / z j) *: p j by rewrite (Hp jK) addrK.
  by rewrite dotBr dotZr !g1 ?mulr0 ?subrr //; apply: ltnW.
split=> //.
- move=> j jk.
  have jK : (j < K)%N by apply: leq_ltn_trans kK; rewrite -ltnS.
  rewrite (Hwp kK (ltnW jK)) (Hp kK) dotDr dotZr.
  have -> : dot (w j) (q k.+1) = d j / z j * (dot (r k.+1) (q j) - dot (r k.+1) (q j.+1)).
    by rewrite {1}(w_diff jK) dotZl dotBl (Hrq (ltnW jK) kK) (Hrq jK kK).
  rewrite g3 // sub0r.
  move: (jk); rewrite (ltnS j k) (leq_eqVlt j k) => /orP[/eqP jk'|jk'].
    rewrite jk' -(Hd kK) -(Hz kK) mulrN addrC; apply/eqP; rewrite subr_eq0; apply/eqP.
    by rewrite mulrAC [RHS]mulrAC (mulrC (z k.+1)).
  by rewrite g3 // oppr0 mulr0 add0r (Hwp (ltnW jK) kK') h2 // mulr0.
- by rewrite (Hp kK) dotDr dotZr g1 // mulr0 addr0 -(Hz kK).
Qed.

(* as many non-zero residuals as iterations: they are independent *)
Lemma core_rank m (P : 'M[T]_n) :
  (m <= K.+1)%N -> (forall k, (k < m)%N -> z k != 0) ->
  (forall k, (k < m)%N -> P *m q k = q k) ->
  (m <= \rank P)%N.
Proof.
move=> mK zm hP.
pose Q : 'M[T]_(n, m) := \matrix_(i, j) q j i 0.
pose R : 'M[T]_(m, n) := \matrix_(i, j) r i j 0.
have PQ : P *m Q = Q.
  apply/matrixP => i j; rewrite !mxE.
  have := hP j (ltn_ord j) => /colP /(_ i); rewrite mxE => <-.
  by apply: eq_bigr => l _; rewrite !mxE.
have le : (\rank Q <= \rank P)%N by rewrite -{1}PQ mxrankM_maxl.
apply: leq_trans le.
have RQ : R *m Q = diag_mx (\row_j z j).
  apply/matrixP => i j; rewrite !mxE.
  have -> : \sum_(l < n) R i l * Q l j = dot (r i) (q j) by apply: eq_bigr => l _; rewrite !mxE.
  have iK : (i <= K)%N by rewrite -ltnS; apply: leq_trans mK.
  have jK : (j <= K)%N by rewrite -ltnS; apply: leq_trans mK.
  case: (ltngtP i j) => ij.
  - rewrite (Hrq iK jK); have [_ _ h _] := core jK.
    by rewrite h // -val_eqE /= (ltn_eqF ij) mulr0n.
  - have [_ _ h _] := core iK.
    by rewrite h // -val_eqE /= (gtn_eqF ij) mulr0n.
  - by rewrite (val_inj ij) eqxx mulr1n -(Hz jK).
have : (R *m Q) \in unitmx.
  rewrite RQ unitmxE det_diag unitfE.
  by apply/prodf_neq0 => i _; rewrite mxE zm.
move/mxrank_unit => h.
by rewrite -{1}h mxrankM_maxr.
Qed.

(* the directions span the search space *)
Definition in_span k (v : 'cV[T]_n) := exists c : nat -> T, v = \sum_(j < k) c j *: p j.

Lemma span_D k u v : in_span k u -> in_span k v -> in_span k (u + v).
Proof.
move=> [c ->] [e ->]; exists (fun j => c j + e j).
by rewrite -big_split /=; apply: eq_bigr => j _; rewrite scalerDl.
Qed.
Lemma span_Z k a u : in_span k u -> in_span k (a *: u).
Proof.
move=> [c ->]; exists (fun j => a * c j).
by rewrite scaler_sumr; apply: eq_bigr => j _; rewrite scalerA.
Qed.
Lemma span_0 k : in_span k 0.
Proof. by exists (fun=> 0); rewrite big1 // => j _; rewrite scale0r. Qed.
Lemma span_p k j : (j < k)%N -> in_span k (p j).
Proof.
move=> jk; exists (fun l => (l == j)%:R).
rewrite (bigD1 (Ordinal jk)) //= eqxx scale1r big1 ?addr0 // => l lj.
by rewrite -val_eqE /= in lj; rewrite (negbTE lj) scale0r.
Qed.
Lemma span_sum k m (f : nat -> 'cV[T]_n) :
  (forall j, (j < m)%N -> in_span k (f j)) -> in_span k (\sum_(j < m) f j).
Proof.
elim: m => [|m IH] h; first by rewrite big_ord0; exact: span_0.
rewrite big_ord_recr /=; apply: span_D; last exact: h.
by apply: IH => j jm; apply: h; rewrite ltnS ltnW.
Qed.
Lemma span_orth k v : (k <= K)%N -> in_span k v -> dot (r k) v = 0.
Proof.
move=> kK [c ->]; rewrite dotC dot_suml big1 // => j _.
by rewrite dotZl dotC; have [h _ _ _] := core kK; rewrite h ?mulr0.
Qed.
Lemma span_q k j : (k <= K)%N -> (j < k)%N -> in_span k (q j).
Proof.
move=> kK; case: j => [|j] jk; first by rewrite -Hp0; exact: span_p.
have jK : (j < K)%N by apply: leq_trans kK; exact: ltnW.
have -> : q j.+1 = p j.+1 + (- (z j.+1 / z j)) *: p j by rewrite (Hp jK) scaleNr addrK.
by apply: span_D; [exact: span_p | apply: span_Z; apply: span_p; exact: ltnW].
Qed.

(* a map sending every direction where the step goes sends the space forward *)
Lemma krylov_span (f : 'cV[T]_n -> 'cV[T]_n) k :
  (k <= K)%N ->
  (forall u v, f (u + v) = f u + f v) -> (forall a u, f (a *: u) = a *: f u) ->
  (forall j, (j < K)%N -> f (p j) = (d j / z j) *: (q j - q j.+1)) ->
  forall j, (j < k)%N -> in_span k (iter j f (q 0)).
Proof.
move=> kK fD fZ fp.
have f0 : f 0 = 0 by have := fZ 0 0; rewrite !scale0r.
have step m v : (m < k)%N -> in_span m v -> in_span m.+1 (f v).
  move=> mk [c ->].
  have -> : f (\sum_(j < m) c j *: p j) = \sum_(j < m) c j *: f (p j).
    elim: m mk => [|m IH] mk; first by rewrite !big_ord0.
    by rewrite !big_ord_recr /= fD fZ IH // ltnW.
  apply: (span_sum (f := fun j => c j *: f (p j))) => j jm.
  have jK : (j < K)%N by apply: leq_trans kK; apply: leq_trans jm (ltnW _).
  rewrite fp //; apply: span_Z; apply: span_Z.
  have mK : (m.+1 <= K)%N by exact: leq_trans mk kK.
  rewrite -scaleN1r; apply: span_D; first by apply: span_q => //; exact: ltnW.
  by apply: span_Z; apply: span_q.
have main j : (j < k)%N -> in_span j.+1 (iter j f (q 0)).
  elim: j => [|j IH] jk /=; first by rewrite -Hp0; exact: span_p.
  by apply: step => //; apply: IH; exact: ltnW.
move=> j jk; have [c ->] := main j jk.
exists (fun l => if (l < j.+1)%N then c l else 0).
rewrite (big_ord_widen k (fun l => c l *: p l) jk) big_mkcond /=.
by apply: eq_bigr => l _; case: ifP => // _; rewrite scale0r.
Qed.
End Core.
