(* Determinants and inverses. *)
From mathcomp Require Import all_ssreflect all_algebra.
From Verif Require Import MatModel MatSpec MatProofs.
From Coq Require Import Ring Field.
Import GRing.Theory.
Set Implicit Arguments.
Unset Strict Implicit.
Unset Printing Implicit Defensive.
Local Open Scope ring_scope.

Section R.
Variable R : comRingType.
Add Ring cr : (cring R).
Ltac rng := to_ring R; ring.
Ltac nrm A := repeat match goal with |- context [A ?i ?j] =>
  let i' := eval compute in i in let j' := eval compute in j in
  progress change (A i j) with (A i' j') end.

Definition minor0 (A : nat -> nat -> R) (j : nat) : nat -> nat -> R :=
  fun a b => A a.+1 (bump j b).

Lemma mx_ext (T : Type) m n (A B : nat -> nat -> T) :
  (forall i j, (i < m)%N -> (j < n)%N -> A i j = B i j) -> mx m n A = mx m n B.
Proof. move=> H. apply/matrixP => i j. rewrite !mxE. exact: H. Qed.

Lemma mx_inj (T : Type) m n (A B : nat -> nat -> T) i j :
  mx m n A = mx m n B -> (i < m)%N -> (j < n)%N -> A i j = B i j.
Proof. move=> /matrixP H Hi Hj. move: (H (Ordinal Hi) (Ordinal Hj)). by rewrite !mxE. Qed.

Lemma detS n (A : nat -> nat -> R) :
  \det (mx n.+1 n.+1 A)
  = \sum_(j < n.+1) (if odd j then -1 else 1) * A 0%N j * \det (mx n n (minor0 A j)).
Proof.
  rewrite (expand_det_row _ ord0). apply: eq_bigr => j _.
  rewrite /cofactor mxE /= add0n -signr_odd mulrA.
  apply: f_equal2.
  - case: (odd j); rewrite /= ?expr1 ?expr0; rng.
  - congr (\det _). apply/matrixP => a b. rewrite !mxE /minor0. by rewrite /= /bump.
Qed.

Lemma det_1_ok (A : nat -> nat -> R) : det_1 A = \det (mx 1 1 A).
Proof. by rewrite det_mx11 mxE. Qed.

Lemma det_2_ok (A : nat -> nat -> R) : det_2 A = \det (mx 2 2 A).
Proof.
  rewrite detS !big_ord_recl big_ord0 /= -!det_1_ok /det_1 /det_2 /minor0 /bump /=. nrm A. rng.
Qed.

Lemma det_3_ok (A : nat -> nat -> R) : det_3 A = \det (mx 3 3 A).
Proof.
  rewrite detS !big_ord_recl big_ord0 /= -!det_2_ok /det_2 /det_3 /minor0 /bump /=. nrm A. rng.
Qed.

Lemma det_4_ok (A : nat -> nat -> R) : det_4 A = \det (mx 4 4 A).
Proof.
  rewrite detS !big_ord_recl big_ord0 /= -!det_3_ok /det_3 /det_4 /d_det3 /d_det2 /minor0 /bump /=.
  nrm A. rng.
Qed.

Lemma fill_minor_ok n j (A m : nat -> nat -> R) a b :
  (j < n.+1)%N -> (a < n)%N -> (b < n)%N -> fill_minor n.+1 j A m a b = minor0 A j a b.
Proof.
  move=> Hj Ha Hb. rewrite /fill_minor /=.
  set row := fun (m : nat -> nat -> R) r => _.
  have Hrow : forall m r a b, (b < n)%N -> row m r a b = if a == r.-1 then A r (bump j b) else m a b.
  { move=> m' r a' b' Hb'. rewrite /row.
    have Hm : forall a b,
      let s := loop n.+1 (fun c (s : nat * (nat -> nat -> R)) =>
         let (cOffset, m) := s in
         if c == j then (1%N, m) else (cOffset, mset m r.-1 (c - cOffset) (A r c))) (0%N, m') in
      s.1 = (j < n.+1)%N :> nat /\
      s.2 a b = if (a == r.-1) && (b < n.+1 - (j < n.+1))%N then A r (bump j b) else m' a b.
    { move=> a0 b0.
      apply: (loop_ind (P := fun c (s : nat * (nat -> nat -> R)) => s.1 = (j < c)%N :> nat /\
        s.2 a0 b0 = if (a0 == r.-1) && (b0 < c - (j < c))%N then A r (bump j b0) else m' a0 b0)) => /=.
      - split => //. by rewrite sub0n andbF.
      - move=> c [off m1] Hc /= [-> E]. rewrite (ltnS j c).
        case: (eqVneq c j) => [Ecj|Ncj] /=.
        + rewrite Ecj leqnn. split => //. move: E. by rewrite Ecj ltnn subn0 subSS subn0.
        + move: Ncj; rewrite neq_ltn => /orP [Hcj|Hcj].
          * have F1 : (j <= c)%N = false by rewrite leqNgt Hcj.
            have F2 : (j < c)%N = false by rewrite ltnNge (ltnW Hcj).
            move: E. rewrite F1 F2 /= !subn0 => E. split => //. rewrite /mset E.
            rewrite (ltnS b0 c) (leq_eqVlt b0 c). case: (eqVneq a0 r.-1) => //= _.
            case: (eqVneq b0 c) => [->|] //=.
            by rewrite /bump F1.
          * have F1 : (j <= c)%N = true by rewrite ltnW.
            have Hc0 : (0 < c)%N by apply: leq_ltn_trans Hcj.
            move: E. rewrite F1 Hcj /= subSS subn0 => E. split => //. rewrite /mset E.
            case: (eqVneq a0 r.-1) => //= _.
            have -> : (b0 < c)%N = (b0 <= c - 1)%N by rewrite subn1 -{1}(prednK Hc0) ltnS.
            rewrite (leq_eqVlt b0).
            case: (eqVneq b0 (c - 1)%N) => [->|] //=.
            congr (A r _). rewrite /bump subn1.
            have -> : (j <= c.-1)%N = true by rewrite -ltnS prednK.
            by rewrite add1n prednK. }
    case: (Hm a' b') => _ /= ->. by rewrite Hj subSS subn0 Hb' andbT. }
  have G : forall k s m a b, (b < n)%N ->
     foldl row m (iota s.+1 k) a b = if (s <= a < s + k)%N then minor0 A j a b else m a b.
  { elim => [|k IH] s m' a' b' Hb' /=.
    - by rewrite addn0 ltnNge andbN.
    - rewrite IH // Hrow //=. rewrite -addSnnS.
      case: (eqVneq a' s) => [->|Hne].
      + by rewrite ltnn leqnn addSn ltnS leq_addr.
      + by rewrite (leq_eqVlt s) eq_sym (negbTE Hne). }
  by rewrite G // add0n Ha.
Qed.

Lemma loopS (S : Type) n f (s : S) : loop n.+1 f s = f n (loop n f s).
Proof. by rewrite /loop -addn1 iotaD foldl_cat. Qed.

Lemma determinant_ok n (A : nat -> nat -> R) :
  determinant n.+1 A = \det (mx n.+1 n.+1 A).
Proof.
  elim: n A => [|n IH] A; first by rewrite -det_1_ok.
  case: n IH => [|[|[|n]]] IH.
  - by rewrite -det_2_ok. - by rewrite -det_3_ok. - by rewrite -det_4_ok.
  - rewrite detS.
    transitivity (0 + \sum_(j < n.+4.+1) (if odd j then -1 else 1) * A 0%N j * \det (mx n.+4 n.+4 (minor0 A j)));
      last by rewrite add0r.
    rewrite -(loop_sum _ (fun j => (if odd j then -1 else 1) * A 0%N j * \det (mx n.+4 n.+4 (minor0 A j)))).
    change (determinant n.+4.+1 A) with
      (loop n.+4.+1 (fun j (s : R * (nat -> nat -> R)) =>
         let (det, m) := s in
         let m := fill_minor n.+4.+1 j A m in
         (det + (if odd j then -1 else 1) * A 0%N j * determinant n.+4 m, m)) (0, @mnew R)).1.
    set f := (fun j (s : R * _) => _).
    have G : forall k, (k <= n.+4.+1)%N -> (loop k f (0, @mnew R)).1 =
       loop k (fun j s => s + (if odd j then -1 else 1) * A 0%N j * \det (mx n.+4 n.+4 (minor0 A j))) 0.
    { elim => [|k IHk] Hk //. rewrite !loopS.
      move: (IHk (ltnW Hk)). case: (loop k f _) => det m E.
      have Hf : (f k (det, m)).1 = det + (if odd k then -1 else 1) * A 0%N k
                  * determinant n.+4 (fill_minor n.+4.+1 k A m) by [].
      rewrite Hf IH -E. congr (_ + _ * \det _).
      apply: mx_ext => i j Hi Hj. by rewrite fill_minor_ok. }
    exact: G.
Qed.
End R.
