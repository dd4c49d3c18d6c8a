(* C61: rotations; C62: homogeneous transforms. *)
From mathcomp Require Import all_ssreflect all_algebra.
From Coq Require Import Field.
From Verif Require Import FieldTac MatModel MatSpec MatProofs MatProofs2 RotModel RotSpec
  RotProofs RotProofs2 RotProofs3 RotProofs4 RotProofs5 RotProofs6.
Set Implicit Arguments.
Unset Strict Implicit.
Unset Printing Implicit Defensive.
Import GRing.Theory Num.Theory Order.Theory.
Local Open Scope ring_scope.

(** C61: a rotation built from an axis and an angle turns every vector about the
    axis by that angle; a 2D rotation by theta has the usual matrix *)
Theorem C61_axis_angle : forall (T : rcfType) (p : nat -> T) (alpha : angle T),
  l2NormSqr 3 p <> 0 -> is_angle (cosA alpha) (sinA alpha) ->
  is_rotation (mx 3 3 (rot_axis p alpha)) /\
  (forall v, mx 3 3 (rot_axis p alpha) *m cv 3 v
     = cv 3 (rodrigues (fun i => p i / Num.sqrt (p 0%N ^+ 2 + p 1%N ^+ 2 + p 2%N ^+ 2)) (cosA alpha) (sinA alpha) v)) /\
  is_rotation (mx 2 2 (rot_angle alpha)) /\
  (forall v, mx 2 2 (rot_angle alpha) *m cv 2 v =
     cv 2 (fun i => if i == 0%N then cosA alpha * v 0%N - sinA alpha * v 1%N
                    else sinA alpha * v 0%N + cosA alpha * v 1%N)).
Proof.
  move=> T p al Hp Ha. split; first exact: axis_rotation.
  split; last split.
  - move=> v. rewrite axis_rodrigues. apply/matrixP => i j. rewrite !mxE.
    have E k : (k < 3)%N -> normalized 3 p k = p k / Num.sqrt (p 0%N ^+ 2 + p 1%N ^+ 2 + p 2%N ^+ 2).
      move=> Hk. by rewrite normalizedE // /length l2_3 !expr2.
    rewrite /rodrigues !E //.
  - exact: rot_angle_ok.
  - move=> v. apply/matrixP; case=> [[|[|i]] Hi] // j;
    rewrite !mxE !big_ord_recl big_ord0 !mxE /rot_angle /mset /= addr0; nrv v; by rewrite ?mulNr.
Qed.
Print Assumptions C61_axis_angle.

(** C61: the two Euler conventions as products of turns about the axes.  Both
    are rotations, but ypr is the inverse of the usual product: it turns
    coordinates, not vectors, so ypr(psi, 0, 0) is the inverse of
    roe(psi, 0, 0) and of the turn about the z axis by psi. *)
Theorem C61_euler : forall (T : rcfType) (psi theta phi : angle T),
  is_angle (cosA psi) (sinA psi) -> is_angle (cosA theta) (sinA theta) -> is_angle (cosA phi) (sinA phi) ->
  mx 3 3 (rot_roe psi theta phi)
    = Rz (cosA psi) (sinA psi) *m Ry (cosA theta) (sinA theta) *m Rz (cosA phi) (sinA phi) /\
  mx 3 3 (rot_ypr psi theta phi)
    = (Rz (cosA psi) (sinA psi) *m Ry (cosA theta) (sinA theta) *m Rx (cosA phi) (sinA phi))^T /\
  is_rotation (mx 3 3 (rot_roe psi theta phi)) /\
  is_rotation (mx 3 3 (rot_ypr psi theta phi)).
Proof.
  move=> T psi theta phi H1 H2 H3.
  have E1 := roe_ok psi theta phi. have E2 := ypr_ok psi theta phi.
  split=> //; split=> //; split.
  - rewrite E1. by repeat apply: rot_mul; auto using rot_Rz, rot_Ry.
  - rewrite E2. apply: rot_tr. by repeat apply: rot_mul; auto using rot_Rz, rot_Ry, rot_Rx.
Qed.
Print Assumptions C61_euler.

Theorem C61_conventions : forall (T : rcfType) (psi : angle T),
  let z := vset (@vnew T) 2 1 in
  let zero := Ang 1 0 in
  mx 3 3 (rot_axis z psi) = Rz (cosA psi) (sinA psi) /\
  mx 3 3 (rot_roe psi zero zero) = Rz (cosA psi) (sinA psi) /\
  mx 3 3 (rot_ypr psi zero zero) = (Rz (cosA psi) (sinA psi))^T.
Proof.
  move=> T psi z zero.
  have U : l2NormSqr 3 z = 1 by rewrite l2_3 /z /vset /vnew /= !mul0r mulr1 !add0r.
  split; last split.
  - apply/matrixP; case=> [[|[|[|i]]] Hi] //; case=> [[|[|[|j]]] Hj] //;
    rewrite !mxE axis_unit // /mat3 /mset /z /vset /vnew /= ?mulr0 ?mul0r ?mulr1 ?addr0 ?add0r ?subr0 ?mulrN ?mulr0 ?mulr1 ?oppr0 ?opprK ?addr0 //.
    by rewrite addrC subrK.
  - rewrite roe_ok /=.
    apply/matrixP; case=> [[|[|[|i]]] Hi] //; case=> [[|[|[|j]]] Hj] //;
    rewrite !mxE !big_ord_recl big_ord0 !mxE !big_ord_recl !big_ord0 !mxE /= ?oppr0 ?mulr0 ?mul0r ?mulr1 ?mul1r ?addr0 ?add0r ?mulr0 ?mulr1 ?addr0 ?add0r //.
  - rewrite ypr_ok /=. congr trmx.
    apply/matrixP; case=> [[|[|[|i]]] Hi] //; case=> [[|[|[|j]]] Hj] //;
    rewrite !mxE !big_ord_recl big_ord0 !mxE !big_ord_recl !big_ord0 !mxE /= ?oppr0 ?mulr0 ?mul0r ?mulr1 ?mul1r ?addr0 ?add0r ?mulr0 ?mulr1 ?addr0 ?add0r //.
Qed.
Print Assumptions C61_conventions.

(** C61: extractAxisRotation and extractAngles give back angles from which the
    constructors rebuild the matrix, whenever the quantities compared with
    zero up to eps are zero or outside the band; the axis is a unit vector. *)
Theorem C61_extract_axis_partial : forall (T : rcfType) (eps : T) (A : nat -> nat -> T),
  0 <= eps -> is_rotation (mx 3 3 A) ->
  (near_zero eps ((\tr (mx 3 3 A) - 1) / 2%:R - 1) -> \tr (mx 3 3 A) = 3%:R) ->
  (near_zero eps ((\tr (mx 3 3 A) - 1) / 2%:R + 1) -> \tr (mx 3 3 A) = - 1) ->
  (near_zero eps (Num.sqrt ((A 0%N 0%N + 1) / 2%:R)) -> A 0%N 0%N = - 1) ->
  let '(p, alpha) := extract_axis eps A in
  p 0%N ^+ 2 + p 1%N ^+ 2 + p 2%N ^+ 2 = 1 /\ is_angle (cosA alpha) (sinA alpha) /\
  mx 3 3 (rot_axis p alpha) = mx 3 3 A.
Proof.
  move=> T eps A He HA. rewrite -trace_ok => H1 H2 H3.
  have := axis_back He HA. have := axis_angle_ok eps HA.
  case: (extract_axis eps A) => p al /= Ha. rewrite /angle_ok in Ha.
  rewrite [1 / 2%:R * _]mulrC [_ * (1 / 2%:R)]mulrA mulr1 mul1r => /(_ H1 H2 H3) [U E].
  split; last by split.
  by rewrite -[RHS]U l2_3 !expr2.
Qed.
Print Assumptions C61_extract_axis_partial.

Theorem C61_extract_angles_partial : forall (T : rcfType) (eps : T) (A : nat -> nat -> T),
  0 <= eps -> is_rotation (mx 3 3 A) ->
  ((near_zero eps (A 2%N 2%N - 1) -> A 2%N 2%N = 1) ->
   (near_zero eps (A 2%N 2%N + 1) -> A 2%N 2%N = - 1) ->
   let '(psi, theta, phi) := extract_roe eps A in
   is_angle (cosA psi) (sinA psi) /\ is_angle (cosA theta) (sinA theta) /\ is_angle (cosA phi) (sinA phi) /\
   mx 3 3 (rot_roe psi theta phi) = mx 3 3 A) /\
  ((near_zero eps (- A 0%N 2%N - 1) -> - A 0%N 2%N = 1) ->
   (near_zero eps (- A 0%N 2%N + 1) -> - A 0%N 2%N = - 1) ->
   let '(psi, theta, phi) := extract_ypr eps A in
   is_angle (cosA psi) (sinA psi) /\ is_angle (cosA theta) (sinA theta) /\ is_angle (cosA phi) (sinA phi) /\
   mx 3 3 (rot_ypr psi theta phi) = mx 3 3 A).
Proof.
  move=> T eps A He HA; split=> H1 H2.
  - have := roe_back He HA H1 H2. have := roe_angles eps HA.
    by case: (extract_roe eps A) => [[psi theta] phi] [? [? ?]] ?.
  - have := ypr_back He HA H1 H2. have := ypr_angles eps HA.
    by case: (extract_ypr eps A) => [[psi theta] phi] [? [? ?]] ?.
Qed.
Print Assumptions C61_extract_angles_partial.

(* a turn by the angle with cosine 3/5 about the y axis meets the hypotheses *)
Section Ex.
Variable T : rcfType.
Let F : fieldType := [fieldType of T].
Add Field ff5 : (cfield F).
Lemma five_neq0 : (5%:R : T) <> 0. Proof. by apply/eqP; rewrite pnatr_eq0. Qed.
Lemma five_neq0' : (1 + (1 + 1) * (1 + 1) : T) <> 0.
Proof. have -> : 1 + (1 + 1) * (1 + 1) = 5%:R :> T by rewrite (natrD _ 1 4) (natrM _ 2 2). exact: five_neq0. Qed.
Ltac side := match goal with |- _ /\ _ => split; side | _ =>
  first [assumption | exact five_neq0' | exact (@two_neq0 T)] end.
Ltac fld := to_fld F; field; try side.
Example C61_nonvacuous :
  let A := turn_y (3%:R / 5%:R : T) (4%:R / 5%:R) in
  is_rotation (mx 3 3 A) /\ ~~ near_zero (1 / 5%:R) (A 2%N 2%N - 1) /\ ~~ near_zero (1 / 5%:R) (A 2%N 2%N + 1)
  /\ extract_roe (1 / 5%:R) A = (Ang 1 0, Ang (3%:R / 5%:R) (4%:R / 5%:R), Ang 1 0).
Proof.
  have E0 : 1 - 3%:R / 5%:R * (3%:R / 5%:R) = (4%:R / 5%:R) ^+ 2 :> T by fld.
  have H5 : (0 : T) < 5%:R by rewrite ltr0n.
  have N1 : near_zero (1 / 5%:R) (3%:R / 5%:R - 1 : T) = false.
    rewrite /near_zero ler_oppl opprB.
    have -> : 1 - 3%:R / 5%:R = 2%:R / 5%:R :> T.
      by fld.
    by rewrite ler_pmul2r ?invr_gt0 // (ler_nat _ 2 1).
  have N2 : near_zero (1 / 5%:R) (3%:R / 5%:R + 1 : T) = false.
    rewrite /near_zero.
    have -> : 3%:R / 5%:R + 1 = 8%:R / 5%:R :> T.
      by fld.
    by rewrite ler_pmul2r ?invr_gt0 // (ler_nat _ 8 1) andbF.
  move=> A. have -> : A 2%N 2%N = 3%:R / 5%:R by [].
  rewrite N1 N2. split; first by apply: turn_y_rot; rewrite /is_angle; fld.
  split=> //; split=> //. rewrite /extract_roe -[A 2%N 2%N]/(3%:R / 5%:R : T) N1 N2 /acos E0 sqrtr_sqr.
  have P : 0 < 4%:R / 5%:R :> T by rewrite divr_gt0 ?ltr0n.
  rewrite gtr0_norm //.
  have at0 y x : x = 4%:R / 5%:R -> y = 0 -> atan2 y x = Ang (1 : T) 0.
    move=> -> ->. rewrite (@atan2E T _ _ (4%:R / 5%:R)) // ?mul0r ?mulr0 ?addr0 //.
    congr Ang. rewrite divff // gt_eqF //.
  rewrite !at0 // /A /turn_y /mat3 /mset /= ?opprK //.
Qed.
End Ex.

(** C61, failing part: with any positive tolerance some rotations other than
    the identity are reported as no rotation (axis and angle, roe), or as a
    pitch of exactly 90 degrees (ypr); rebuilding gives another matrix. *)
Theorem C61_small_angles_refuted : forall (T : rcfType) (eps : T), 0 < eps ->
  exists A B : nat -> nat -> T, is_rotation (mx 3 3 A) /\ is_rotation (mx 3 3 B) /\
    (let '(p, alpha) := extract_axis eps A in mx 3 3 (rot_axis p alpha) <> mx 3 3 A) /\
    (let '(psi, theta, phi) := extract_roe eps A in mx 3 3 (rot_roe psi theta phi) <> mx 3 3 A) /\
    (let '(psi, theta, phi) := extract_ypr eps B in mx 3 3 (rot_ypr psi theta phi) <> mx 3 3 B).
Proof. exact: lost. Qed.
Print Assumptions C61_small_angles_refuted.

(** C61: the rotation between two non-zero vectors takes the direction of the
    first to that of the second, also when they are opposite; orthogonal() *)
Theorem C61_between : forall (T : rcfType) (a b : nat -> T),
  (l2NormSqr 2 a <> 0 -> l2NormSqr 2 b <> 0 ->
   is_rotation (mx 2 2 (rot_between2 a b)) /\
   mx 2 2 (rot_between2 a b) *m cv 2 (normalized 2 a) = cv 2 (normalized 2 b)) /\
  (l2NormSqr 3 a <> 0 -> l2NormSqr 3 b <> 0 ->
   is_rotation (mx 3 3 (rot_between3 a b)) /\
   mx 3 3 (rot_between3 a b) *m cv 3 (normalized 3 a) = cv 3 (normalized 3 b)) /\
  (forall n i, (i < n)%N -> normalized n a i = a i / Num.sqrt (\sum_(k < n) a k ^+ 2)).
Proof.
  move=> T a b; split; first exact: between2_rot. split; first exact: between3_rot.
  move=> n i Hi. rewrite normalizedE // /length /l2NormSqr loop_sum add0r.
  by congr (_ / Num.sqrt _).
Qed.
Print Assumptions C61_between.

Theorem C61_orthogonal : forall (T : rcfType) (a : nat -> T),
  (a 0%N ^+ 2 + a 1%N ^+ 2 <> 0 ->
   orthogonal2 a 0%N ^+ 2 + orthogonal2 a 1%N ^+ 2 = 1 /\
   a 0%N * orthogonal2 a 0%N + a 1%N * orthogonal2 a 1%N = 0) /\
  (a 0%N ^+ 2 + a 1%N ^+ 2 + a 2%N ^+ 2 <> 0 ->
   (exists i, (i < 3)%N /\ orthogonal3 a i <> 0) /\
   orthogonal3 a 0%N * a 0%N + orthogonal3 a 1%N * a 1%N + orthogonal3 a 2%N * a 2%N = 0).
Proof.
  move=> T a; split; rewrite !expr2 => N.
  - have := @orthogonal2_ok T a. rewrite !l2_2 => /(_ N) [U D]. by split.
  - split; last by rewrite -dot_3 orthogonal3_dot.
    have := @orthogonal3_neq0 T a. rewrite !l2_3 => /(_ N) H.
    case: (eqVneq (orthogonal3 a 0%N) 0) => [E0|E]; last by exists 0%N; split=> //; apply/eqP.
    case: (eqVneq (orthogonal3 a 1%N) 0) => [E1|E]; last by exists 1%N; split=> //; apply/eqP.
    case: (eqVneq (orthogonal3 a 2%N) 0) => [E2|E]; last by exists 2%N; split=> //; apply/eqP.
    by exfalso; apply: H; rewrite E0 E1 E2 mulr0 !addr0.
Qed.
Print Assumptions C61_orthogonal.

(* opposite vectors *)
Example C61_between_nonvacuous : forall T : rcfType,
  let a := vset (@vnew T) 0 1 in let b := vset (@vnew T) 0 (-1) in
  l2NormSqr 3 a <> 0 /\ l2NormSqr 3 b <> 0 /\ rot_between3 a b 0%N 0%N = -1.
Proof.
  move=> T a b.
  have Ea : l2NormSqr 3 a = 1 by rewrite l2_3 /a /vset /vnew /= !mulr0 !addr0 mulr1.
  have Eb : l2NormSqr 3 b = 1 by rewrite l2_3 /b /vset /vnew /= !mulr0 !addr0 mulrNN mulr1.
  have n1 : (1 : T) <> 0 by apply/eqP; rewrite oner_eq0.
  rewrite Ea Eb. split=> //; split=> //.
  have [|| _ /matrixP /(_ (@Ordinal 3 0 isT) 0)] := @between3_rot T a b; rewrite ?Ea ?Eb //.
  rewrite !mxE !big_ord_recl big_ord0 !mxE /= !normalized_id //.
  by rewrite /a /b /vset /vnew /= mulr1 !mulr0 !addr0.
Qed.

(** C61: quaternions (x, y, z, w): the products, and the matrix of a unit
    quaternion q, which acts as v |-> q v q^* and turns products of
    quaternions into products of matrices *)
Theorem C61_quaternions : forall (T : rcfType) (p q : nat -> T),
  quat_of (quaternionMultiply p q) = hamilton (quat_of p) (quat_of q) /\
  quat_of (quaternionConjugateMultiply p q) = hamilton (conj (quat_of p)) (quat_of q) /\
  (qnorm (quat_of q) = 1 ->
   is_rotation (mx 3 3 (quaternion2matrix q)) /\
   (forall v w, mx 3 3 (quaternion2matrix q) *m cv 3 v = cv 3 w ->
      hamilton (hamilton (quat_of q) (pure v)) (conj (quat_of q)) = pure w) /\
   (qnorm (quat_of p) = 1 ->
    mx 3 3 (quaternion2matrix (quaternionMultiply p q))
    = mx 3 3 (quaternion2matrix p) *m mx 3 3 (quaternion2matrix q))).
Proof.
  move=> T p q. split; first exact: quat_mul. split; first exact: quat_conj_mul.
  move=> Hq. split; first exact: q2m_rotation. split.
  - move=> v w E. rewrite (q2m_acts _ Hq) /pure.
    have H i : (i < 3)%N -> matvec 3 3 (quaternion2matrix q) v i = w i.
      move=> Hi. have := matvec_ok 3 3 (quaternion2matrix q) v. rewrite E => /matrixP /(_ (Ordinal Hi) 0).
      by rewrite !mxE.
    by rewrite !H.
  - move=> Hp. exact: q2m_hom.
Qed.
Print Assumptions C61_quaternions.

(** C62: points are row vectors (x, 1).  setToTranslation, setToScale and
    setToRotation give the maps x + v, the product by components and r x; the
    pre functions apply the new map before the transform, the post functions
    after it. *)
Theorem C62_set : forall (R : comRingType) (n : nat) (v x : nat -> R) (r : nat -> nat -> R),
  apply_row n (setToTranslation n v) x = rv n.+1 (hom n (fun i => x i + v i)) /\
  apply_row n (setToScale n v) x = rv n.+1 (hom n (fun i => x i * v i)) /\
  apply_row n (setToRotation n r) x = rv n.+1 (hom n (fun i => \sum_(k < n) r i k * x k)).
Proof.
  move=> R n v x r. split; first exact: apply_translation. split; [exact: apply_scale | exact: apply_rotation].
Qed.
Print Assumptions C62_set.

Theorem C62_pre : forall (R : comRingType) (n : nat) (m : nat -> nat -> R) (v x : nat -> R) (r : nat -> nat -> R),
  apply_row n (preTranslate n m v) x = apply_row n m (fun i => x i + v i) /\
  apply_row n (preScale n m v) x = apply_row n m (fun i => x i * v i) /\
  apply_row n (preRotate n m r) x = apply_row n m (fun i => \sum_(k < n) r i k * x k).
Proof.
  move=> R n m v x r. split; [|split].
  - apply: (apply_pre (A := setToTranslation n v)); [exact: matmul_ok | exact: apply_translation].
  - apply: (apply_pre (A := setToScale n v)); [exact: preScale_mul | exact: apply_scale].
  - apply: (apply_pre (A := setToRotation n r)); [exact: matmul_ok | exact: apply_rotation].
Qed.
Print Assumptions C62_pre.

Theorem C62_post : forall (R : comRingType) (n : nat) (m : nat -> nat -> R) (v x y : nat -> R) (r : nat -> nat -> R),
  apply_row n m x = rv n.+1 (hom n y) ->
  apply_row n (postTranslate n m v) x = rv n.+1 (hom n (fun i => y i + v i)) /\
  apply_row n (postScale n m v) x = rv n.+1 (hom n (fun i => y i * v i)) /\
  apply_row n (postRotate n m r) x = rv n.+1 (hom n (fun i => \sum_(k < n) r i k * y k)).
Proof.
  move=> R n m v x y r H. split; [|split].
  - rewrite -apply_translation. apply: (apply_pre (A := m)) => //. exact: matmul_ok.
  - rewrite -apply_scale. apply: (apply_pre (A := m)) => //. exact: postScale_mul.
  - rewrite -apply_rotation. apply: (apply_pre (A := m)) => //. exact: matmul_ok.
Qed.
Print Assumptions C62_post.

Example C62_nonvacuous : forall (R : comRingType) (v w x : nat -> R),
  apply_row 3 (postTranslate 3 (setToScale 3 v) w) x = rv 4 (hom 3 (fun i => x i * v i + w i)).
Proof. move=> R v w x. exact: (proj1 (C62_post w (fun _ _ => 0) (apply_scale 3 v x))). Qed.

(** C62: decompose_transform splits an affine transform into factors with the
    transform as product, in either convention, if polar_decomposition
    factors its argument.  One factor is the translation part of m, the others
    extend the two factors of the linear part (or their transposes). *)
Theorem C62_decompose : forall (R : comRingType) (polar : (nat -> nat -> R) -> (nat -> nat -> R) * (nat -> nat -> R))
    (n : nat) (m : nat -> nat -> R),
  (forall L, let '(r, s) := polar L in mx n n r *m mx n n s = mx n n L) ->
  m n n = 1 ->
  ((forall j, (j < n)%N -> m n j = 0) ->
   let '(t, r, s) := decompose_transform polar n m true in
   mx n.+1 n.+1 t *m mx n.+1 n.+1 r *m mx n.+1 n.+1 s = mx n.+1 n.+1 m) /\
  ((forall j, (j < n)%N -> m j n = 0) ->
   let '(s, r, t) := decompose_transform polar n m false in
   mx n.+1 n.+1 s *m mx n.+1 n.+1 r *m mx n.+1 n.+1 t = mx n.+1 n.+1 m).
Proof.
  move=> R polar n m HP H1; split=> H0; [exact: dec_col | exact: dec_row].
Qed.
Print Assumptions C62_decompose.

Theorem C62_decompose_parts : forall (R : comRingType)
    (polar : (nat -> nat -> R) -> (nat -> nat -> R) * (nat -> nat -> R)) (n : nat) (m : nat -> nat -> R),
  (let '(t, r, s) := decompose_transform polar n m true in
   mx n.+1 n.+1 t = (mx n.+1 n.+1 (setToTranslation n (fun i => m i n)))^T /\
   exists L, mx n n L = mx n n m /\ extends n r (polar L).1 /\ extends n s (polar L).2) /\
  (let '(s, r, t) := decompose_transform polar n m false in
   mx n.+1 n.+1 t = mx n.+1 n.+1 (setToTranslation n (fun i => m n i)) /\
   exists L, mx n n L = (mx n n m)^T /\
     extends n r (fun i j => (polar L).1 j i) /\ extends n s (fun i j => (polar L).2 j i)).
Proof. move=> R polar n m; split; [exact: dec_parts | exact: dec_parts_row]. Qed.
Print Assumptions C62_decompose_parts.

Example C62_decompose_nonvacuous : forall (R : comRingType) (v w : nat -> R),
  let polar L := (L, identity R) in
  let m := postTranslate 3 (setToScale 3 v) w in
  (forall L, let '(r, s) := polar L in mx 3 3 r *m mx 3 3 s = mx 3 3 L) /\
  m 3%N 3%N = 1 /\ (forall j, (j < 3)%N -> m j 3%N = 0) /\ m 3%N 0%N = w 0%N.
Proof.
  move=> R v w polar m. split.
    move=> L; rewrite /polar /=; rewrite -[RHS]mulmx1. congr (_ *m _). by apply/matrixP => i j; rewrite !mxE.
  have E i j : (i < 4)%N -> (j < 4)%N -> m i j = \sum_(k < 4) setToScale 3 v i k * setToTranslation 3 w k j.
    move=> Hi Hj. have /matrixP /(_ (Ordinal Hi) (Ordinal Hj)) := matmul_ok 4 4 4 (setToScale 3 v) (setToTranslation 3 w).
    rewrite !mxE /= => H; rewrite /m /postTranslate H. by apply: eq_bigr => k _; rewrite !mxE.
  split; [|split].
  - rewrite E // !big_ord_recl big_ord0 !scale_entries !translation_entries /= ?mul0r ?mulr0 ?add0r ?addr0 ?mulr1 //.
  - case=> [|[|[|j]]] // _; rewrite E // !big_ord_recl big_ord0 !scale_entries !translation_entries /= ?mul0r ?mulr0 ?add0r ?addr0 //.
  - rewrite E // !big_ord_recl big_ord0 !scale_entries !translation_entries /= ?mul0r ?mulr0 ?add0r ?addr0 ?mul1r //.
Qed.
