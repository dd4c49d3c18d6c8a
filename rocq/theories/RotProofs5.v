(* The rotation between two directions in 3D; homogeneous transforms. *)
From mathcomp Require Import all_ssreflect all_algebra.
From Coq Require Import Field.
From Verif Require Import FieldTac MatModel MatSpec MatProofs MatProofs2 RotModel RotSpec RotProofs RotProofs2 RotProofs3.
Set Implicit Arguments.
Unset Strict Implicit.
Unset Printing Implicit Defensive.
Import GRing.Theory Num.Theory Order.Theory.
Local Open Scope ring_scope.

Section R.
Variable T : rcfType.
Let F : fieldType := [fieldType of T].
Add Field ff : (cfield F).
Ltac side := match goal with |- _ /\ _ => split; side | _ =>
  first [assumption | exact (@two_neq0 T) | exact (@two2_neq0 T)] end.
Ltac fld := to_fld F; field; try side.
Ltac hf H := match type of H with @eq _ ?l ?r => change (@eq (GRing.Field.sort F) l r) in H end.
Ltac ring2 := let H1 := fresh in let H2 := fresh in
  to_fld0 F => H1 H2; hf H1; hf H2; refine (@fsub_eq F _ _ _); ring [H1 H2].

(* VecInterface::orthogonal *)
Lemma orthogonal3_dot (a : nat -> T) : dot 3 (orthogonal3 a) a = 0.
Proof.
  rewrite dot_3 /orthogonal3 /cross3.
  by case: ifP => _; case: ifP => _; rewrite /vset /vnew /=; fld.
Qed.

Lemma orthogonal3_neq0 (a : nat -> T) : l2NormSqr 3 a <> 0 -> l2NormSqr 3 (orthogonal3 a) <> 0.
Proof.
  have big (u v : T) : `|u| < `|v| -> v <> 0.
    move=> L E. move: L. by rewrite E normr0 ltNge normr_ge0.
  rewrite !l2_3 /orthogonal3 /cross3. move: (a 0%N) (a 1%N) (a 2%N) => x y z N.
  case: ifP => C1; case: ifP => C2; rewrite /vset /vnew /= => E.
  - apply: (big _ _ C1). apply: (proj1 (sum2_0 (x := y) (y := z) _)). by rewrite -[RHS]E; fld.
  - apply: (big _ _ C1). apply: (proj1 (sum2_0 (x := y) (y := x) _)). by rewrite -[RHS]E; fld.
  - apply: (big _ _ C2). apply: (proj1 (sum2_0 (x := z) (y := x) _)). by rewrite -[RHS]E; fld.
  - have [Ex Ey] : x = 0 /\ y = 0 by apply: sum2_0; rewrite -[RHS]E; fld.
    move: C2; rewrite Ey normr0 => /negbT; rewrite -leNgt normr_le0 => /eqP Ez.
    apply: N. rewrite Ex Ey Ez. by fld.
Qed.

Lemma orthogonal2_ok (a : nat -> T) : l2NormSqr 2 a <> 0 ->
  l2NormSqr 2 (orthogonal2 a) = 1 /\ a 0%N * orthogonal2 a 0%N + a 1%N * orthogonal2 a 1%N = 0.
Proof.
  move=> N. split.
  - apply: normalized_unit. rewrite l2_2 /vset /vnew /= => E. apply: N. rewrite l2_2 -[RHS]E. by fld.
  - rewrite /orthogonal2 !normalizedE //. 
    have := N; move/length_gt0. set v := vset _ 1 _. 
    have -> : v 0%N = - a 1%N by []. have -> : v 1%N = a 0%N by [].
    move: (length 2 v) => l _. rewrite !mulrA -mulrDl mulrN [a 0%N * a 1%N]mulrC addNr mul0r. by [].
Qed.

Lemma cv_3 (M : nat -> nat -> T) (v w : nat -> T) :
  (forall i, (i < 3)%N -> M i 0%N * v 0%N + M i 1%N * v 1%N + M i 2%N * v 2%N = w i) ->
  mx 3 3 M *m cv 3 v = cv 3 w.
Proof.
  move=> H. apply/matrixP => i j.
  rewrite !mxE !big_ord_recl big_ord0 !mxE /= -H // addr0 addrA. nrv v. by nrm (M i).
Qed.

Lemma between3_rot (a b : nat -> T) : l2NormSqr 3 a <> 0 -> l2NormSqr 3 b <> 0 ->
  is_rotation (mx 3 3 (rot_between3 a b)) /\
  mx 3 3 (rot_between3 a b) *m cv 3 (normalized 3 a) = cv 3 (normalized 3 b).
Proof.
  move=> Na Nb.
  have A0 := length_gt0 Na. have B0 := length_gt0 Nb.
  have An : length 3 a <> 0 by apply/eqP; rewrite gt_eqF.
  have Bn : length 3 b <> 0 by apply/eqP; rewrite gt_eqF.
  rewrite /rot_between3 sqrtrM ?l2_ge0 //.
  rewrite -![Num.sqrt _]/(length 3 _).
  have AA := length2 3 a. have BB := length2 3 b.
  rewrite l2_3 in AA. rewrite l2_3 in BB. rewrite !dot_3.
  case: eqP => E.
  - have kE : a 0%N * b 0%N + a 1%N * b 1%N + a 2%N * b 2%N = - (length 3 a * length 3 b).
      rewrite -mulN1r -E mulfVK //. by apply/eqP => /eqP; rewrite mulf_eq0 => /orP [] /eqP.
    have [E0 [E1 E2]] : length 3 b * a 0%N + length 3 a * b 0%N = 0 /\
        length 3 b * a 1%N + length 3 a * b 1%N = 0 /\ length 3 b * a 2%N + length 3 a * b 2%N = 0.
      apply: sum3_0.
      transitivity (length 3 b * length 3 b * (a 0%N * a 0%N + a 1%N * a 1%N + a 2%N * a 2%N)
        + length 3 a * length 3 a * (b 0%N * b 0%N + b 1%N * b 1%N + b 2%N * b 2%N)
        + 2%:R * (length 3 a * length 3 b) * (a 0%N * b 0%N + a 1%N * b 1%N + a 2%N * b 2%N)); first by fld.
      rewrite kE -AA -BB. by fld.
    set c := normalized 3 (orthogonal3 a).
    have U : l2NormSqr 3 c = 1 by apply: normalized_unit; apply: orthogonal3_neq0.
    have D : c 0%N * a 0%N + c 1%N * a 1%N + c 2%N * a 2%N = 0.
      rewrite /c !normalizedE //.
      transitivity (dot 3 (orthogonal3 a) a / length 3 (orthogonal3 a)).
        by rewrite dot_3 !mulrDl -!mulrA ![_^-1 * _]mulrC.
      by rewrite orthogonal3_dot mul0r.
    set q := vset _ 2 _.
    split.
    + apply: q2m_rotation. rewrite /qnorm /quat_of /q /vset /=. rewrite l2_3 in U. rewrite -[RHS]U. by fld.
    + have nb i : (i < 3)%N -> length 3 b * a i + length 3 a * b i = 0 -> normalized 3 b i = - normalized 3 a i.
        move=> Hi Ei. rewrite !normalizedE //. apply/eqP. rewrite -subr_eq0. apply/eqP.
        transitivity ((length 3 b * a i + length 3 a * b i) / (length 3 a * length 3 b)); first by fld.
        by rewrite Ei mul0r.
      have U' : c 0%N * c 0%N = 1 - c 1%N * c 1%N - c 2%N * c 2%N.
        rewrite l2_3 in U. rewrite -U. by fld.
      apply: cv_3 => -[|[|[|i]]] // Hi; rewrite nb //.
      * rewrite /quaternion2matrix /mat3 /mset /= /q /vset /= !normalizedE //.
        transitivity ((- a 0%N + 2%:R * (a 0%N * (c 0%N * c 0%N + c 1%N * c 1%N + c 2%N * c 2%N)
          - a 0%N * (c 1%N * c 1%N + c 2%N * c 2%N) + a 1%N * c 0%N * c 1%N + a 2%N * c 0%N * c 2%N)
          + 2%:R * a 0%N * (1 - (c 0%N * c 0%N + c 1%N * c 1%N + c 2%N * c 2%N))) / length 3 a); first by fld.
        transitivity ((- a 0%N + 2%:R * c 0%N * (c 0%N * a 0%N + c 1%N * a 1%N + c 2%N * a 2%N) +
          2%:R * a 0%N * (1 - (c 0%N * c 0%N + c 1%N * c 1%N + c 2%N * c 2%N))) / length 3 a); first by fld.
        rewrite D U'. by fld.
      * rewrite /quaternion2matrix /mat3 /mset /= /q /vset /= !normalizedE //.
        transitivity ((- a 1%N + 2%:R * c 1%N * (c 0%N * a 0%N + c 1%N * a 1%N + c 2%N * a 2%N) +
          2%:R * a 1%N * (1 - (c 0%N * c 0%N + c 1%N * c 1%N + c 2%N * c 2%N))) / length 3 a); first by fld.
        rewrite D U'. by fld.
      * rewrite /quaternion2matrix /mat3 /mset /= /q /vset /= !normalizedE //.
        transitivity ((- a 2%N + 2%:R * c 2%N * (c 0%N * a 0%N + c 1%N * a 1%N + c 2%N * a 2%N) +
          2%:R * a 2%N * (1 - (c 0%N * c 0%N + c 1%N * c 1%N + c 2%N * c 2%N))) / length 3 a); first by fld.
        rewrite D U'. by fld.
  - set W := _ + length 3 a * length 3 b.
    have Wn : W <> 0.
      move=> E0. apply: E. apply/eqP. rewrite -subr_eq0. apply/eqP.
      transitivity (W / (length 3 a * length 3 b)); first by rewrite /W; fld.
      by rewrite E0 mul0r.
    set q := vset _ 2 _.
    have q0 : q 0%N = a 1%N * b 2%N - a 2%N * b 1%N by [].
    have q1' : q 1%N = a 2%N * b 0%N - a 0%N * b 2%N by [].
    have q2 : q 2%N = a 0%N * b 1%N - a 1%N * b 0%N by [].
    have q3 : q 3%N = W by [].
    have nn : l2NormSqr 4 q = 2%:R * (length 3 a * length 3 b) * W.
      rewrite l2_4 q0 q1' q2 q3 /W. move: AA BB.
      move: (length 3 a) (length 3 b) (a 0%N) (a 1%N) (a 2%N) (b 0%N) (b 1%N) (b 2%N) => A B x y z u v w. ring2.
    have qn : l2NormSqr 4 q <> 0.
      rewrite nn. by move/eqP; rewrite !mulf_eq0 pnatr_eq0 /= => /orP [/orP [] /eqP|/eqP].
    have N0 : length 4 q <> 0 by apply/eqP; rewrite gt_eqF // length_gt0.
    have NN := length2 4 q. rewrite nn in NN.
    split.
    + apply: q2m_rotation. have := normalized_unit qn. rewrite l2_4 => U. rewrite /qnorm /quat_of /= -[RHS]U. by fld.
    + have step i (P : T) : (i < 3)%N -> P = W * (length 3 a * length 3 a * b i - length 3 a * length 3 b * a i) ->
        (a i + 2%:R * P / (length 4 q * length 4 q)) / length 3 a = normalized 3 b i.
        move=> Hi ->. rewrite normalizedE // NN. by fld.
      have cr i : (i < 3)%N -> normalized 3 a i = a i / length 3 a by move=> Hi; rewrite normalizedE.
      have fin (x y z : T) : x * y = z -> x * y = z by [].
      apply: cv_3 => -[|[|[|i]]] // Hi.
      * rewrite -(step _ (W * (q 1%N * a 2%N - q 2%N * a 1%N)
           + (q 1%N * (q 0%N * a 1%N - q 1%N * a 0%N) - q 2%N * (q 2%N * a 0%N - q 0%N * a 2%N)))) //.
        -- rewrite /quaternion2matrix /mat3 /mset /= !normalizedE // q3. by fld.
        -- rewrite q0 q1' q2 /W. move: AA BB.
           move: (length 3 a) (length 3 b) (a 0%N) (a 1%N) (a 2%N) (b 0%N) (b 1%N) (b 2%N) => A B x y z u v w. ring2.
      * rewrite -(step _ (W * (q 2%N * a 0%N - q 0%N * a 2%N)
           + (q 2%N * (q 1%N * a 2%N - q 2%N * a 1%N) - q 0%N * (q 0%N * a 1%N - q 1%N * a 0%N)))) //.
        -- rewrite /quaternion2matrix /mat3 /mset /= !normalizedE // q3. by fld.
        -- rewrite q0 q1' q2 /W. move: AA BB.
           move: (length 3 a) (length 3 b) (a 0%N) (a 1%N) (a 2%N) (b 0%N) (b 1%N) (b 2%N) => A B x y z u v w. ring2.
      * rewrite -(step _ (W * (q 0%N * a 1%N - q 1%N * a 0%N)
           + (q 0%N * (q 2%N * a 0%N - q 0%N * a 2%N) - q 1%N * (q 1%N * a 2%N - q 2%N * a 1%N)))) //.
        -- rewrite /quaternion2matrix /mat3 /mset /= !normalizedE // q3. by fld.
        -- rewrite q0 q1' q2 /W. move: AA BB.
           move: (length 3 a) (length 3 b) (a 0%N) (a 1%N) (a 2%N) (b 0%N) (b 1%N) (b 2%N) => A B x y z u v w. ring2.
Qed.
End R.

Section Transforms.
Variable R : comRingType.
Notation vec := (nat -> R).
Notation mat := (nat -> nat -> R).

Lemma translation_entries n (v : vec) a b :
  setToTranslation n v a b = if (a == n) && (b < n)%N then v b else (a == b)%:R.
Proof. rewrite /setToTranslation (@fill_row _ n n _ v) //. Qed.

Lemma scale_entries n (v : vec) a b :
  setToScale n v a b = if (a == b) && (a < n)%N then v a else (a == b)%:R.
Proof.
  rewrite /setToScale.
  apply: (loop_ind (P := fun k m => m a b = if (a == b) && (a < k)%N then v a else (a == b)%:R)).
  - by rewrite andbF.
  - move=> i s Hi E. rewrite /mset E (ltnS a i) (leq_eqVlt a i).
    case: (eqVneq a i) => [->|Hn] /=.
    + rewrite [b == i]eq_sym ltnn andbT andbF. by case: eqP.
    + by [].
Qed.

Lemma rotation_entries n (r : mat) a b :
  setToRotation n r a b = if (a < n)%N && (b < n)%N then r b a else ((a == n) && (b == n))%:R.
Proof.
  rewrite /setToRotation /mset (@fill2 _ n n _ (fun i j => r j i)) // /mnew.
  case: (eqVneq a n) => [->|Ha]; case: (eqVneq b n) => [->|Hb] //=; rewrite ?ltnn ?andbF //=; by case: ifP.
Qed.

Lemma apply_rowE n (A : mat) (x : vec) (j : 'I_n.+1) :
  apply_row n A x 0 j = \sum_(i < n) x i * A i j + A n j.
Proof.
  rewrite /apply_row !mxE big_ord_recr /= !mxE /hom /= ltnn mul1r. congr (_ + _).
  apply: eq_bigr => i _. by rewrite !mxE /= ltn_ord.
Qed.

Lemma apply_translation n (v x : vec) :
  apply_row n (setToTranslation n v) x = rv n.+1 (hom n (fun i => x i + v i)).
Proof.
  apply/matrixP => i j. rewrite (ord1 i) apply_rowE !mxE translation_entries eqxx /= /hom.
  case: (ltnP j n) => Hj.
  - congr (_ + _). rewrite (bigD1 (Ordinal Hj)) //= translation_entries (ltn_eqF Hj) /= eqxx mulr1.
    rewrite big1 ?addr0 // => k Hk. rewrite translation_entries.
    rewrite (ltn_eqF (ltn_ord k)) /=.
    have -> : (nat_of_ord k == j) = false by apply: negbTE; apply: contraNN Hk => /eqP E; apply/eqP/val_inj.
    by rewrite mulr0.
  - have -> : nat_of_ord j = n by apply/eqP; rewrite eqn_leq Hj -ltnS ltn_ord.
    rewrite eqxx big1 ?add0r // => k _. rewrite translation_entries (ltn_eqF (ltn_ord k)) /=. by rewrite mulr0.
Qed.

Lemma apply_scale n (v x : vec) :
  apply_row n (setToScale n v) x = rv n.+1 (hom n (fun i => x i * v i)).
Proof.
  apply/matrixP => i j. rewrite (ord1 i) apply_rowE !mxE scale_entries /hom ltnn andbF.
  case: (ltnP j n) => Hj.
  - rewrite [n == j]eq_sym (ltn_eqF Hj) addr0.
    rewrite (bigD1 (Ordinal Hj)) //= scale_entries eqxx Hj /=.
    rewrite big1 ?addr0 // => k Hk. rewrite scale_entries.
    have -> : (nat_of_ord k == j) = false by apply: negbTE; apply: contraNN Hk => /eqP E; apply/eqP/val_inj.
    by rewrite mulr0.
  - have -> : nat_of_ord j = n by apply/eqP; rewrite eqn_leq Hj -ltnS ltn_ord.
    rewrite eqxx big1 ?add0r // => k _. rewrite scale_entries (ltn_eqF (ltn_ord k)) /=. by rewrite mulr0.
Qed.

Lemma apply_rotation n (r : mat) (x : vec) :
  apply_row n (setToRotation n r) x = rv n.+1 (hom n (fun i => \sum_(k < n) r i k * x k)).
Proof.
  apply/matrixP => i j. rewrite (ord1 i) apply_rowE !mxE rotation_entries ltnn eqxx /= /hom.
  case: (ltnP j n) => Hj.
  - rewrite (ltn_eqF Hj) addr0. apply: eq_bigr => k _. by rewrite rotation_entries ltn_ord Hj mulrC.
  - have -> : nat_of_ord j = n by apply/eqP; rewrite eqn_leq Hj -ltnS ltn_ord.
    rewrite eqxx big1 ?add0r // => k _. rewrite rotation_entries ltn_ord ltnn /= eqxx (ltn_eqF (ltn_ord k)) /=. by rewrite mulr0.
Qed.

Lemma preScale_entries n (m : mat) (v : vec) a b :
  preScale n m v a b = if (a < n)%N && (b < n.+1)%N then m a b * v a else m a b.
Proof.
  rewrite /preScale.
  apply: (loop_ind (P := fun k (s : mat) => forall b, s a b = if (a < k)%N && (b < n.+1)%N then m a b * v a else m a b)) => //.
  move=> i s Hi IH b'.
  have G : loop n.+1 (fun j m0 => mset m0 i j (m0 i j * v i)) s a b'
     = if (a == i) && (b' < n.+1)%N then s a b' * v i else s a b'.
    apply: (loop_ind (P := fun k (s' : mat) => forall b, s' a b = if (a == i) && (b < k)%N then s a b * v i else s a b)) => [b2|j s' Hj IH' b2].
    - by rewrite andbF.
    - rewrite /mset (ltnS b2 j) (leq_eqVlt b2 j). case: (eqVneq b2 j) => [->|Hn] /=; last by rewrite andbF IH'.
      rewrite !andbT. case: (eqVneq a i) => [E|Hn].
      + by rewrite -E IH' ltnn andbF.
      + by rewrite IH' (negbTE Hn).
  rewrite G (IH b') (ltnS a i) (leq_eqVlt a i). case: (eqVneq a i) => [->|] //=. by rewrite ltnn.
Qed.

Lemma postScale_entries n (m : mat) (v : vec) a b :
  postScale n m v a b = if (a < n.+1)%N && (b < n)%N then m a b * v b else m a b.
Proof.
  rewrite /postScale.
  apply: (loop_ind (P := fun k (s : mat) => forall b, s a b = if (a < k)%N && (b < n)%N then m a b * v b else m a b)) => //.
  move=> i s Hi IH b'.
  have G : loop n (fun j m0 => mset m0 i j (m0 i j * v j)) s a b'
     = if (a == i) && (b' < n)%N then s a b' * v b' else s a b'.
    apply: (loop_ind (P := fun k (s' : mat) => forall b, s' a b = if (a == i) && (b < k)%N then s a b * v b else s a b)) => [b2|j s' Hj IH' b2].
    - by rewrite andbF.
    - rewrite /mset (ltnS b2 j) (leq_eqVlt b2 j). case: (eqVneq b2 j) => [->|Hn] /=; last by rewrite andbF IH'.
      rewrite !andbT. case: (eqVneq a i) => [E|Hn].
      + by rewrite -E IH' ltnn andbF.
      + by rewrite IH' (negbTE Hn).
  rewrite G (IH b') (ltnS a i) (leq_eqVlt a i). case: (eqVneq a i) => [->|] //=. by rewrite ltnn.
Qed.

Lemma preScale_mul n (m : mat) (v : vec) :
  mx n.+1 n.+1 (preScale n m v) = mx n.+1 n.+1 (setToScale n v) *m mx n.+1 n.+1 m.
Proof.
  apply/matrixP => i j. rewrite !mxE preScale_entries ltn_ord andbT (bigD1 i) //= !mxE scale_entries eqxx /=.
  rewrite big1 ?addr0 => [|k Hk].
  - case: ifP => _; [by rewrite mulrC | by rewrite mul1r].
  - rewrite !mxE scale_entries.
    have -> : (nat_of_ord i == k) = false by apply: negbTE; apply: contraNN Hk => /eqP E; apply/eqP/val_inj.
    by rewrite mul0r.
Qed.

Lemma postScale_mul n (m : mat) (v : vec) :
  mx n.+1 n.+1 (postScale n m v) = mx n.+1 n.+1 m *m mx n.+1 n.+1 (setToScale n v).
Proof.
  apply/matrixP => i j. rewrite !mxE postScale_entries ltn_ord /= (bigD1 j) //= !mxE scale_entries eqxx /=.
  rewrite big1 ?addr0 => [|k Hk].
  - case: ifP => _; [by [] | by rewrite mulr1].
  - rewrite !mxE scale_entries.
    have -> : (nat_of_ord k == j) = false by apply: negbTE; apply: contraNN Hk => /eqP E; apply/eqP/val_inj.
    by rewrite mulr0.
Qed.

(* composing: pre acts on the point first, post on its image *)
Lemma apply_pre n (A B C : mat) (x y : vec) :
  mx n.+1 n.+1 C = mx n.+1 n.+1 A *m mx n.+1 n.+1 B ->
  apply_row n A x = rv n.+1 (hom n y) -> apply_row n C x = apply_row n B y.
Proof. by rewrite /apply_row => -> H; rewrite mulmxA H. Qed.

Lemma loop_fst (S S' : Type) n (f : nat -> S -> S) (g : nat -> S' -> S') s s' :
  loop n (fun i (p : S * S') => (f i p.1, g i p.2)) (s, s') = (loop n f s, loop n g s').
Proof.
  rewrite /loop. elim: (iota 0 n) s s' => //= i l IH s s'.
Qed.

Lemma loop_ext (S : Type) n (f g : nat -> S -> S) s :
  (forall i s, f i s = g i s) -> loop n f s = loop n g s.
Proof. move=> H. rewrite /loop. elim: (iota 0 n) s => //= i l IH s. by rewrite H IH. Qed.

Section Dec.
Variable polar : mat -> mat * mat.
Lemma polar_loop n (r s : mat) :
  loop n (fun i s0 => loop n (fun j (s1 : mat * mat) => (mset s1.1 i j (r i j), mset s1.2 i j (s i j))) s0) (@mnew R, @mnew R)
  = (loop n (fun i m => loop n (fun j m => mset m i j (r i j)) m) (@mnew R),
     loop n (fun i m => loop n (fun j m => mset m i j (s i j)) m) (@mnew R)).
Proof.
  rewrite -loop_fst. apply: loop_ext => i [u v]. exact: loop_fst.
Qed.

Lemma dec_col_loop n (H : mat) :
  let TH := loop n (fun i (s : mat * mat) =>
              (mset s.1 i n (s.2 i n), mset s.2 i n 0)) (identity R, H) in
  (forall a b, TH.1 a b = if (a < n)%N && (b == n) then H a n else (a == b)%:R) /\
  (forall a b, TH.2 a b = if (a < n)%N && (b == n) then 0 else H a b).
Proof.
  apply: (loop_ind (P := fun k (s : mat * mat) =>
    (forall a b, s.1 a b = if (a < k)%N && (b == n) then H a n else (a == b)%:R) /\
    (forall a b, s.2 a b = if (a < k)%N && (b == n) then 0 else H a b))) => //.
  move=> i s Hi [E1 E2]. split=> a b /=; rewrite /mset ?E2 ?E1 (ltnS a i) (leq_eqVlt a i).
  - by case: (eqVneq a i) => [->|] //=; rewrite ?ltnn /=; case: eqP.
  - by case: (eqVneq a i) => [->|] //=; rewrite ?ltnn /=; case: eqP.
Qed.

Lemma block_entries n (r : mat) a b :
  mset (loop n (fun i m => loop n (fun j m => mset m i j (r i j)) m) (@mnew R)) n n 1 a b
  = if (a < n)%N && (b < n)%N then r a b else ((a == n) && (b == n))%:R.
Proof.
  rewrite /mset (@fill2 _ n n _ (fun i j => r i j)) // /mnew.
  case: (eqVneq a n) => [->|Ha]; case: (eqVneq b n) => [->|Hb] //=; rewrite ?ltnn ?andbF //=; by case: ifP.
Qed.

Definition blk n (r : mat) : mat := fun a b =>
  if (a < n)%N && (b < n)%N then r a b else ((a == n) && (b == n))%:R.

Lemma blk_mul n (r s l : mat) : mx n n r *m mx n n s = mx n n l ->
  mx n.+1 n.+1 (blk n r) *m mx n.+1 n.+1 (blk n s) = mx n.+1 n.+1 (blk n l).
Proof.
  move=> /matrixP H. apply/matrixP => i j. rewrite !mxE big_ord_recr /= !mxE /blk /= ltnn !andbF !andFb /= eqxx andbT.
  have sumE : \sum_(k < n) mx n.+1 n.+1 (blk n r) i (widen_ord (leqnSn n) k) * mx n.+1 n.+1 (blk n s) (widen_ord (leqnSn n) k) j
     = if (i < n)%N && (j < n)%N then l i j else 0.
    case: ltnP => Hi /=.
    - case: ltnP => Hj /=.
      + move: (H (Ordinal Hi) (Ordinal Hj)); rewrite !mxE /= => <-.
        apply: eq_bigr => k _. by rewrite !mxE /blk /= ltn_ord Hi Hj.
      + apply: big1 => k _. rewrite !mxE /blk /= [(j < n)%N]ltnNge Hj andbF (ltn_eqF (ltn_ord k)) /=. by rewrite mulr0.
    - apply: big1 => k _. rewrite !mxE /blk /= [(i < n)%N]ltnNge Hi (ltn_eqF (ltn_ord k)) /= andbF. by rewrite mul0r.
  rewrite /blk in sumE. rewrite sumE.
  case: (ltnP i n) => Hi /=.
  - rewrite (ltn_eqF Hi) mul0r addr0. by case: ifP.
  - have -> : nat_of_ord i = n by apply/eqP; rewrite eqn_leq Hi -ltnS ltn_ord.
    by rewrite eqxx mul1r add0r.
Qed.

Lemma dec_col n (m : mat) :
  (forall j, (j < n)%N -> m n j = 0) -> m n n = 1 ->
  (forall L, let '(r, s) := polar L in mx n n r *m mx n n s = mx n n L) ->
  let '(t, r, s) := decompose_transform polar n m true in
  mx n.+1 n.+1 t *m mx n.+1 n.+1 r *m mx n.+1 n.+1 s = mx n.+1 n.+1 m.
Proof.
  move=> H0 H1 HP. rewrite /decompose_transform /=.
  have [] := dec_col_loop n m. set TH := loop n _ _. move=> E1 E2.
  set L := (X in polar X). have := HP L. case: (polar L) => r s HL.
  rewrite polar_loop /=.
  have LE a b : (a < n)%N -> (b < n)%N -> L a b = m a b.
    move=> Ha Hb. rewrite /L (@fill2 _ n n _ (fun i j => TH.2 i j)) // Ha Hb E2 (ltn_eqF Hb) andbF //.
  have be X : mx n.+1 n.+1 (mset (loop n (fun i m0 => loop n (fun j m1 => mset m1 i j (X i j)) m0) (@mnew R)) n n 1)
     = mx n.+1 n.+1 (blk n X).
    apply: mx_ext => a b _ _. exact: block_entries.
  rewrite !be -mulmxA (blk_mul HL).
  apply/matrixP => i j. rewrite !mxE big_ord_recr /= !mxE E1 eqxx andbT.
  have sumE : \sum_(k < n) mx n.+1 n.+1 TH.1 i (widen_ord (leqnSn n) k) * mx n.+1 n.+1 (blk n L) (widen_ord (leqnSn n) k) j
     = if (i < n)%N && (j < n)%N then m i j else 0.
    case: (ltnP i n) => Hi /=.
    - rewrite (bigD1 (Ordinal Hi)) //= !mxE /= E1 (ltn_eqF Hi) andbF eqxx mul1r big1 ?addr0.
      + rewrite /blk Hi /= (ltn_eqF Hi) /=. case: ltnP => Hj //. by rewrite LE.
      + move=> k Hk. rewrite !mxE E1 /= (ltn_eqF (ltn_ord k)) andbF.
        have -> : (nat_of_ord i == k) = false by apply: negbTE; apply: contraNN Hk => /eqP E; apply/eqP/val_inj.
        by rewrite mul0r.
    - apply: big1 => k _. rewrite !mxE E1 /= [(i < n)%N]ltnNge Hi /=.
      have -> : nat_of_ord i = n by apply/eqP; rewrite eqn_leq Hi -ltnS ltn_ord.
      by rewrite [n == k]eq_sym (ltn_eqF (ltn_ord k)) mul0r.
  rewrite sumE {sumE} /blk ltnn eqxx /=.
  have last (u : 'I_n.+1) : (n <= u)%N -> nat_of_ord u = n by move=> Hu; apply/eqP; rewrite eqn_leq Hu -ltnS ltn_ord.
  case: (ltnP i n) => Hi /=.
  - case: (ltnP j n) => Hj /=.
    + by rewrite (ltn_eqF Hj) mulr0 addr0.
    + by rewrite (last _ Hj) eqxx mulr1 add0r.
  - rewrite (last _ Hi) eqxx mul1r add0r.
    case: (ltnP j n) => Hj /=.
    + by rewrite (ltn_eqF Hj) H0.
    + by rewrite (last _ Hj) eqxx H1.
Qed.

Lemma dec_row n (m : mat) :
  (forall j, (j < n)%N -> m j n = 0) -> m n n = 1 ->
  (forall L, let '(r, s) := polar L in mx n n r *m mx n n s = mx n n L) ->
  let '(s, r, t) := decompose_transform polar n m false in
  mx n.+1 n.+1 s *m mx n.+1 n.+1 r *m mx n.+1 n.+1 t = mx n.+1 n.+1 m.
Proof.
  move=> H0 H1 HP.
  have tE a b : (a < n.+1)%N -> (b < n.+1)%N -> transpose n.+1 n.+1 m a b = m b a.
    move=> Ha Hb. rewrite /transpose (@fill2T _ _ _ _ (fun i j => m i j)) // Ha Hb //.
  have := dec_col (m := transpose n.+1 n.+1 m) _ _ HP.
  rewrite /decompose_transform /=. set t := (loop n _ _).1. set r := mset _ n n 1. set s := mset _ n n 1.
  move=> H. rewrite !transpose_ok -mulmxA -!trmx_mul H ?transpose_ok ?trmxK //.
  - move=> j Hj. by rewrite tE ?H0 // ltnW // ltnS.
  - by rewrite tE.
Qed.

Lemma dec_parts n (m : mat) :
  let '(t, r, s) := decompose_transform polar n m true in
  mx n.+1 n.+1 t = (mx n.+1 n.+1 (setToTranslation n (fun i => m i n)))^T /\
  exists L, mx n n L = mx n n m /\ extends n r (polar L).1 /\ extends n s (polar L).2.
Proof.
  rewrite /decompose_transform /=.
  have [] := dec_col_loop n m. set TH := loop n _ _. move=> E1 E2.
  set L := (X in polar X).
  split.
  - apply/matrixP => i j. rewrite !mxE E1 translation_entries andbC. by rewrite [(j : nat) == i]eq_sym.
  - exists L. split.
    + apply: mx_ext => a b Ha Hb.
      by rewrite /L (@fill2 _ n n _ (fun i j => TH.2 i j)) // Ha Hb E2 (ltn_eqF Hb) andbF.
    + rewrite polar_loop /=. split=> i j _ _; exact: block_entries.
Qed.

Lemma dec_parts_row n (m : mat) :
  let '(s, r, t) := decompose_transform polar n m false in
  mx n.+1 n.+1 t = mx n.+1 n.+1 (setToTranslation n (fun i => m n i)) /\
  exists L, mx n n L = (mx n n m)^T /\
    extends n r (fun i j => (polar L).1 j i) /\ extends n s (fun i j => (polar L).2 j i).
Proof.
  have tE (A : mat) a b : (a < n.+1)%N -> (b < n.+1)%N -> transpose n.+1 n.+1 A a b = A b a.
    move=> Ha Hb. rewrite /transpose (@fill2T _ _ _ _ (fun i j => A i j)) // Ha Hb //.
  have := dec_parts n (transpose n.+1 n.+1 m).
  rewrite /decompose_transform /=. set t := (loop n _ _).1. set r := mset _ n n 1. set s := mset _ n n 1.
  move=> [Ht [L [HL [Hr Hs]]]]. split.
  - rewrite transpose_ok Ht trmxK. apply: mx_ext => i j Hi Hj. rewrite !translation_entries.
    case: ifP => // /andP [_ Hj']. by rewrite tE // ltnW // ltnS.
  - exists L. split.
    + rewrite HL. apply/matrixP => i j. rewrite !mxE tE // ltnW // ltnS //.
    + split=> i j Hi Hj; rewrite tE // ?Hr ?Hs // andbC [(j == n) && _]andbC //.
Qed.
End Dec.
End Transforms.
