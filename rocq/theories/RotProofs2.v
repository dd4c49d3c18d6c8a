(* The constructions give rotations. *)
From mathcomp Require Import all_ssreflect all_algebra.
From Coq Require Import Field.
From Verif Require Import FieldTac MatModel MatSpec MatProofs MatProofs2 RotModel RotSpec RotProofs.
Set Implicit Arguments.
Unset Strict Implicit.
Unset Printing Implicit Defensive.
Import GRing.Theory Num.Theory Order.Theory.
Local Open Scope ring_scope.

Section R.
Variable T : rcfType.
Let F : fieldType := [fieldType of T].
Add Field ff : (cfield F).
Ltac side := match goal with |- _ /\ _ => split; side | _ =>
  first [assumption | exact (@two_neq0 T) | exact (@two2_neq0 T)] end.
Ltac fld := to_fld F; field; try side.

Ltac hf H := match type of H with @eq _ ?l ?r => change (@eq (GRing.Field.sort F) l r) in H end.
Ltac ring2 := let H1 := fresh in let H2 := fresh in
  to_fld0 F => H1 H2; hf H1; hf H2; refine (@fsub_eq F _ _ _); ring [H1 H2].
Ltac ring1 := let H1 := fresh in
  to_fld0 F => H1; hf H1; refine (@fsub_eq F _ _ _); ring [H1].

Lemma rot_mul n (A B : 'M[T]_n) : is_rotation A -> is_rotation B -> is_rotation (A *m B).
Proof.
  move=> [A1 A2] [B1 B2]; split; last by rewrite det_mulmx A2 B2 mulr1.
  by rewrite trmx_mul mulmxA -[A *m B *m _]mulmxA B1 mulmx1.
Qed.
Lemma rot_tr n (A : 'M[T]_n) : is_rotation A -> is_rotation A^T.
Proof. move=> [A1 A2]; split; last by rewrite det_tr. rewrite trmxK. exact: mulmx1C. Qed.

Lemma rows3E (a b c : T * T * T) : rows3 a b c = mx 3 3 (fun i j =>
   let r := nth a [:: a; b; c] i in nth r.1.1 [:: r.1.1; r.1.2; r.2] j).
Proof. by []. Qed.

Lemma rot_Rz c s : is_angle c s -> is_rotation (Rz c s : 'M[T]_3).
Proof.
  rewrite /is_angle !expr2 => H. rewrite /Rz rows3E. apply: rot_from => /=; last first.
    rewrite -[RHS]H. by fld.
  split; first [by fld | by rewrite -[RHS]H; fld].
Qed.
Lemma rot_Ry c s : is_angle c s -> is_rotation (Ry c s : 'M[T]_3).
Proof.
  rewrite /is_angle !expr2 => H. rewrite /Ry rows3E. apply: rot_from => /=; last first.
    rewrite -[RHS]H. by fld.
  split; first [by fld | by rewrite -[RHS]H; fld].
Qed.
Lemma rot_Rx c s : is_angle c s -> is_rotation (Rx c s : 'M[T]_3).
Proof.
  rewrite /is_angle !expr2 => H. rewrite /Rx rows3E. apply: rot_from => /=; last first.
    rewrite -[RHS]H. by fld.
  split; first [by fld | by rewrite -[RHS]H; fld].
Qed.

Lemma roe_ok (psi theta phi : angle T) :
  mx 3 3 (rot_roe psi theta phi)
  = Rz (cosA psi) (sinA psi) *m Ry (cosA theta) (sinA theta) *m Rz (cosA phi) (sinA phi).
Proof.
  ents3; rewrite !mxE !big_ord_recl big_ord0 !mxE !big_ord_recl !big_ord0 !mxE /rot_roe /mat3 /mset /=; by fld.
Qed.

Lemma ypr_ok (psi theta phi : angle T) :
  mx 3 3 (rot_ypr psi theta phi)
  = (Rz (cosA psi) (sinA psi) *m Ry (cosA theta) (sinA theta) *m Rx (cosA phi) (sinA phi))^T.
Proof.
  ents3; rewrite !mxE !big_ord_recl big_ord0 !mxE !big_ord_recl !big_ord0 !mxE /rot_ypr /mat3 /mset /=; by fld.
Qed.

Lemma rot_angle_ok (t : angle T) : is_angle (cosA t) (sinA t) -> is_rotation (mx 2 2 (rot_angle t)).
Proof.
  rewrite /is_angle !expr2 => H; split.
  - ents2; rewrite !mxE !big_ord_recl big_ord0 !mxE /rot_angle /mset /=; first [by fld | by rewrite -[RHS]H; fld].
  - rewrite -det_2_ok /det_2 /rot_angle /mset /= -H. by fld.
Qed.

(* a unit axis *)
Lemma axis_entries (p : nat -> T) (al : angle T) i j :
  (i < 3)%N -> (j < 3)%N ->
  rot_axis p al i j =
  cosA al * (i == j)%:R + (1 - cosA al) * (normalized 3 p i * normalized 3 p j)
  - sinA al * (mat3 0 (normalized 3 p 2%N) (- normalized 3 p 1%N) (- normalized 3 p 2%N) 0 (normalized 3 p 0%N)
     (normalized 3 p 1%N) (- normalized 3 p 0%N) 0) i j.
Proof.
  move=> Hi Hj. rewrite /rot_axis /dyadic_prod.
  rewrite (@fill2 _ 3 3 _ (fun i j => normalized 3 p i * normalized 3 p j)) ?Hi ?Hj //.
Qed.

Lemma axis_rodrigues (p v : nat -> T) (al : angle T) :
  mx 3 3 (rot_axis p al) *m cv 3 v
  = cv 3 (rodrigues (normalized 3 p) (cosA al) (sinA al) v).
Proof.
  apply/matrixP; case=> [[|[|[|i]]] Hi] // j;
  rewrite !mxE !big_ord_recl big_ord0 !mxE !axis_entries //= /rodrigues /mat3 /mset /=; nrv v; nrv (normalized 3 p); by fld.
Qed.

Lemma axis_rotation (p : nat -> T) (al : angle T) :
  l2NormSqr 3 p <> 0 -> is_angle (cosA al) (sinA al) -> is_rotation (mx 3 3 (rot_axis p al)).
Proof.
  move=> /normalized_unit; rewrite l2_3 /is_angle !expr2 => U H.
  apply: rot_from; rewrite !axis_entries // /mat3 /mset /=;
  move: (normalized 3 p 0%N) (normalized 3 p 1%N) (normalized 3 p 2%N) (cosA al) (sinA al) U H => x y z c s U H;
  have Hz : z * z = 1 - x * x - y * y by [rewrite -U; fld];
  have Hs : s * s = 1 - c * c by [rewrite -H; fld].
  - split; move: Hz Hs; ring2.
  - move: Hz Hs; ring2.
Qed.

(* quaternions *)
Lemma quat_mul (p q : nat -> T) :
  quat_of (quaternionMultiply p q) = hamilton (quat_of p) (quat_of q).
Proof.
  rewrite /quat_of /quaternionMultiply /qmul_ /vset /hamilton /=. congr Quat; by fld.
Qed.
Lemma quat_conj_mul (p q : nat -> T) :
  quat_of (quaternionConjugateMultiply p q) = hamilton (conj (quat_of p)) (quat_of q).
Proof.
  rewrite /quat_of /quaternionConjugateMultiply /qmul_ /vset /hamilton /conj /=. congr Quat; by fld.
Qed.

Lemma q2m_rotation (q : nat -> T) : qnorm (quat_of q) = 1 -> is_rotation (mx 3 3 (quaternion2matrix q)).
Proof.
  rewrite /qnorm /= !expr2 => U.
  apply: rot_from; rewrite /quaternion2matrix /mat3 /mset /=;
  move: (q 0%N) (q 1%N) (q 2%N) (q 3%N) U => x y z w U;
  have Hw : w * w = 1 - x * x - y * y - z * z by [rewrite -U; fld].
  - split; move: Hw; ring1.
  - move: Hw; ring1.
Qed.

(* the matrix acts as v |-> q v q^* *)
Lemma q2m_acts (q v : nat -> T) : qnorm (quat_of q) = 1 ->
  let r := matvec 3 3 (quaternion2matrix q) v in
  hamilton (hamilton (quat_of q) (pure v)) (conj (quat_of q)) = pure r.
Proof.
  rewrite /qnorm /= !expr2 => U.
  have E i : (i < 3)%N -> matvec 3 3 (quaternion2matrix q) v i =
     quaternion2matrix q i 0%N * v 0%N + quaternion2matrix q i 1%N * v 1%N + quaternion2matrix q i 2%N * v 2%N.
    move=> Hi. have /matrixP /(_ (Ordinal Hi) 0) := matvec_ok 3 3 (quaternion2matrix q) v.
    rewrite !mxE /= => ->. rewrite !big_ord_recl big_ord0 !mxE /= addr0 addrA. nrv v.
    by nrm (quaternion2matrix q).
  rewrite /pure !E //.
  rewrite /quaternion2matrix /mat3 /mset /hamilton /conj /quat_of /=;
  move: (q 0%N) (q 1%N) (q 2%N) (q 3%N) (v 0%N) (v 1%N) (v 2%N) U => x y z w v0 v1 v2 U {E};
  have Hw : w * w = 1 - x * x - y * y - z * z by [rewrite -U; fld].
  congr Quat; move: Hw; ring1.
Qed.

Lemma q2m_hom (p q : nat -> T) : qnorm (quat_of p) = 1 -> qnorm (quat_of q) = 1 ->
  mx 3 3 (quaternion2matrix (quaternionMultiply p q))
  = mx 3 3 (quaternion2matrix p) *m mx 3 3 (quaternion2matrix q).
Proof.
  rewrite /qnorm /= !expr2 => U V.
  have Hp : p 3%N * p 3%N = 1 - p 0%N * p 0%N - p 1%N * p 1%N - p 2%N * p 2%N by rewrite -U; fld.
  have Hq : q 3%N * q 3%N = 1 - q 0%N * q 0%N - q 1%N * q 1%N - q 2%N * q 2%N by rewrite -V; fld.
  ents3; rewrite !mxE !big_ord_recl big_ord0 !mxE /quaternion2matrix /quaternionMultiply /qmul_ /vset /mat3 /mset /=;
  move: (p 0%N) (p 1%N) (p 2%N) (p 3%N) (q 0%N) (q 1%N) (q 2%N) (q 3%N) Hp Hq => a b c d e f g h; ring2.
Qed.

(* rotation between two vectors in 2D *)
Lemma between2_rot (a b : nat -> T) : l2NormSqr 2 a <> 0 -> l2NormSqr 2 b <> 0 ->
  is_rotation (mx 2 2 (rot_between2 a b)) /\
  mx 2 2 (rot_between2 a b) *m cv 2 (normalized 2 a) = cv 2 (normalized 2 b).
Proof.
  move=> /normalized_unit + /normalized_unit. rewrite !l2_2 => U V.
  have Ha : normalized 2 a 1%N * normalized 2 a 1%N = 1 - normalized 2 a 0%N * normalized 2 a 0%N by rewrite -U; fld.
  have Hb : normalized 2 b 1%N * normalized 2 b 1%N = 1 - normalized 2 b 0%N * normalized 2 b 0%N by rewrite -V; fld.
  split; first split.
  - ents2; rewrite !mxE !big_ord_recl big_ord0 !mxE /rot_between2 /mset /=;
    move: (normalized 2 a 0%N) (normalized 2 a 1%N) (normalized 2 b 0%N) (normalized 2 b 1%N) Ha Hb => x y z w; ring2.
  - rewrite -det_2_ok /det_2 /rot_between2 /mset /=.
    move: (normalized 2 a 0%N) (normalized 2 a 1%N) (normalized 2 b 0%N) (normalized 2 b 1%N) Ha Hb => x y z w; ring2.
  - apply/matrixP; case=> [[|[|i]] Hi] // j; rewrite !mxE !big_ord_recl big_ord0 !mxE /rot_between2 /mset /=;
    nrv (normalized 2 a); nrv (normalized 2 b);
    move: (normalized 2 a 0%N) (normalized 2 a 1%N) (normalized 2 b 0%N) (normalized 2 b 1%N) Ha Hb => x y z w; ring2.
Qed.
End R.
