(* C89: dihedral angle, gradient and Hessian. *)
From Coq Require Import Reals List Lra Lia Psatz.
From Verif Require Import FricModel FricSpec FricProofs DihModel DihSpec DihProofs DihProofs2 DihProofs3 DihProofs4 DihProofs5.
Import ListNotations.
Local Open Scope R_scope.

(* two proper triangles v2 v0 v1 and v3 v1 v0 *)
Definition proper (v2 v0 v1 w3 : v3) : Prop :=
  cross (vsub v0 v2) (vsub v1 v2) <> zero /\ cross (vsub v1 w3) (vsub v0 w3) <> zero.

(* The angle is the one in (-pi, pi] between the unit normals, measured around the common edge. *)
Theorem C89_angle v2 v0 v1 w3 : proper v2 v0 v1 w3 ->
  let n1 := normalized (cross (vsub v0 v2) (vsub v1 v2)) in
  let n2 := normalized (cross (vsub v1 w3) (vsub v0 w3)) in
  let axis := normalized (vsub v0 v1) in
  let th := dihedral_angle v2 v0 v1 w3 in
  - PI < th <= PI /\ cos th = dot n1 n2 /\ sin th = dot (cross n2 n1) axis /\
  n1 = vadd (scal (cos th) n2) (scal (sin th) (cross axis n2)).
Proof.
  intros [H1 H2] n1 n2 axis th. destruct (angle_value v2 v0 v1 w3 H1 H2) as (R0 & C & S). fold th in R0, C, S.
  pose proof (edge_nz v2 v0 v1 H1) as H3.
  pose proof (norm_pos _ H1) as P1. pose proof (norm_pos _ H2) as P2. pose proof (norm_pos _ H3) as P3.
  assert (C' : cos th = dot n1 n2).
  { rewrite C. unfold cosine, n1, n2. rewrite normalized_dot, (dot_sym _ (normalized _)), normalized_dot, (dot_sym (cross (vsub v1 w3) (vsub v0 w3)) (cross (vsub v0 v2) (vsub v1 v2))). field. lra. }
  assert (S' : sin th = dot (cross n2 n1) axis).
  { rewrite S. unfold sine, n1, n2, axis, normalized.
    generalize dependent (cross (vsub v0 v2) (vsub v1 v2)). generalize dependent (cross (vsub v1 w3) (vsub v0 w3)). generalize dependent (vsub v0 v1).
    intros. unfold dot, cross. cbn. field. lra. }
  split; [exact R0|]. split; [exact C'|]. split; [exact S'|]. rewrite C', S'.
  assert (U2 : dot n2 n2 = 1) by now apply normalized_unit.
  assert (U3 : dot axis axis = 1) by now apply normalized_unit.
  assert (O1 : dot axis n1 = 0).
  { unfold axis, n1. rewrite normalized_dot, dot_sym, normalized_dot.
    replace (dot (cross (vsub v0 v2) (vsub v1 v2)) (vsub v0 v1)) with 0 by (unfold dot, cross, vsub; cbn; ring). unfold Rdiv. ring. }
  assert (O2 : dot axis n2 = 0).
  { unfold axis, n2. rewrite normalized_dot, dot_sym, normalized_dot.
    replace (dot (cross (vsub v1 w3) (vsub v0 w3)) (vsub v0 v1)) with 0 by (unfold dot, cross, vsub; cbn; ring). unfold Rdiv. ring. }
  clearbody n1 n2 axis. clear -U2 U3 O1 O2.
  (* n2, axis x n2 and axis are orthonormal, and n1 is orthogonal to axis *)
  assert (I : scal (dot n2 n2 * dot axis axis - dot axis n2 * dot axis n2) n1 =
     vadd (vadd (scal (dot n1 n2 * dot axis axis - dot axis n2 * dot axis n1) n2) (scal (dot (cross n2 n1) axis) (cross axis n2)))
          (scal (dot axis n1 * dot n2 n2 - dot n1 n2 * dot axis n2) axis)).
  { poly. }
  rewrite U2, U3, O1, O2 in I.
  transitivity (scal (1 * 1 - 0 * 0) n1); [apply v3_eq; unfold scal; cbn; ring|]. rewrite I.
  generalize (cross axis n2) (dot (cross n2 n1) axis) (dot n1 n2). intros. apply v3_eq; unfold vadd, scal; cbn; ring.
Qed.
(* The order in which the two triangles are given does not matter, and the angle does not change under translations. *)
Theorem C89_exchange v2 v0 v1 w3 d : proper v2 v0 v1 w3 ->
  dihedral_angle w3 v1 v0 v2 = dihedral_angle v2 v0 v1 w3 /\
  dihedral_angle (vadd v2 d) (vadd v0 d) (vadd v1 d) (vadd w3 d) = dihedral_angle v2 v0 v1 w3.
Proof.
  intros _. assert (T : forall u v, vsub (vadd u d) (vadd v d) = vsub u v) by (intros; unfold vsub, vadd; cbn; f_equal; ring).
  split; unfold dihedral_angle; [|now rewrite !T].
  set (n1 := cross (vsub v0 v2) (vsub v1 v2)). set (n2 := cross (vsub v1 w3) (vsub v0 w3)).
  rewrite (dot_sym n2 n1), (Rmult_comm (norm_sqr n2)).
  replace (dot (cross n1 n2) (vsub v1 v0)) with (dot (cross n2 n1) (vsub v0 v1)) by (generalize n1 n2; intros; unfold dot, cross, vsub; cbn; ring).
  reflexivity.
Qed.
Lemma flip_nz n : n <> zero -> V3 (vx n) (- vy n) (- vz n) <> zero.
Proof. destruct n as [x y z]. unfold zero. cbn. intros H E. apply H. injection E as E1 E2 E3. f_equal; lra. Qed.
(* A mirror image has the opposite angle. *)
Theorem C89_mirror v2 v0 v1 w3 : proper v2 v0 v1 w3 -> dihedral_angle v2 v0 v1 w3 <> PI ->
  let mirror v := V3 (- vx v) (vy v) (vz v) in
  dihedral_angle (mirror v2) (mirror v0) (mirror v1) (mirror w3) = - dihedral_angle v2 v0 v1 w3.
Proof.
  intros [H1 H2] NP mirror.
  assert (MC : forall p q r, cross (vsub (mirror p) (mirror q)) (vsub (mirror r) (mirror q)) = V3 (vx (cross (vsub p q) (vsub r q))) (- vy (cross (vsub p q) (vsub r q))) (- vz (cross (vsub p q) (vsub r q)))).
  { intros. unfold mirror, cross, vsub. cbn. f_equal; ring. }
  assert (G1 : cross (vsub (mirror v0) (mirror v2)) (vsub (mirror v1) (mirror v2)) <> zero).
  { rewrite MC. now apply flip_nz. }
  assert (G2 : cross (vsub (mirror v1) (mirror w3)) (vsub (mirror v0) (mirror w3)) <> zero).
  { rewrite MC. now apply flip_nz. }
  destruct (angle_value v2 v0 v1 w3 H1 H2) as (R0 & C & S).
  destruct (angle_value _ _ _ _ G1 G2) as (R1 & C1 & S1).
  apply angle_unique; [exact R1|lra| |].
  - rewrite cos_neg, C, C1. unfold cosine. rewrite !MC. unfold norm, norm_sqr, dot. cbn -[cross vsub].
    generalize (cross (vsub v0 v2) (vsub v1 v2)) (cross (vsub v1 w3) (vsub v0 w3)). intros [a1 a2 a3] [b1 b2 b3]. cbn. f_equal; [ring|]. f_equal; f_equal; ring.
  - rewrite sin_neg, S, S1. unfold sine. rewrite !MC. unfold Rdiv. rewrite Ropp_mult_distr_l. f_equal.
    + generalize (cross (vsub v0 v2) (vsub v1 v2)) (cross (vsub v1 w3) (vsub v0 w3)). intros. unfold dot, cross, vsub, mirror. cbn. ring.
    + f_equal. f_equal.
      * generalize (cross (vsub v0 v2) (vsub v1 v2)) (cross (vsub v1 w3) (vsub v0 w3)). intros. f_equal; unfold norm, norm_sqr, dot; cbn; f_equal; ring.
      * unfold norm, norm_sqr, dot, vsub, mirror. cbn. f_equal. ring.
Qed.
(* Away from pi the gradient is the derivative of the angle, whatever the velocities of the four points. *)
Theorem C89_gradient v2 v0 v1 w3 d2 d0 d1 d3 : proper v2 v0 v1 w3 -> dihedral_angle v2 v0 v1 w3 <> PI ->
  derivable_pt_lim (fun t => dihedral_angle (moved v2 d2 t) (moved v0 d0 t) (moved v1 d1 t) (moved w3 d3 t)) 0
    (pair_dot (dihedral_angle_gradient v2 v0 v1 w3) [d2; d0; d1; d3]).
Proof. intros [H1 H2] NP. now apply angle_derivative. Qed.
(* The Hessian is the derivative of the gradient, whatever the velocities, even at pi, and it is symmetric. *)
Theorem C89_hessian v2 v0 v1 w3 d2 d0 d1 d3 i : proper v2 v0 v1 w3 -> (i < 4)%nat ->
  derivative (fun t => nth i (dihedral_angle_gradient (moved v2 d2 t) (moved v0 d0 t) (moved v1 d1 t) (moved w3 d3 t)) zero)
    (apply_row (nth i (dihedral_angle_hessian v2 v0 v1 w3) []) [d2; d0; d1; d3]).
Proof. intros [H1 H2] Hi. exact (rows v2 v0 v1 w3 d2 d0 d1 d3 H1 H2 i Hi). Qed.
Lemma symmetric_shape A P Q X W Y R' S N i j : A = transpose A -> X = transpose X -> Y = transpose Y -> N = transpose N ->
  let H := [[A; transpose P; transpose Q; mzero]; [P; X; W; R']; [Q; transpose W; Y; S]; [mzero; transpose R'; transpose S; N]] in
  nth j (nth i H []) mzero = transpose (nth i (nth j H []) mzero).
Proof.
  intros HA HX HY HN. assert (Z : mzero = transpose mzero) by reflexivity. set (z := mzero) in *. clearbody z.
  destruct i as [|[|[|[|i]]]], j as [|[|[|[|j]]]]; cbn [nth]; rewrite ?tr_tr; auto.
  all: destruct i + destruct j; cbn [nth]; auto; destruct j; auto.
Qed.
Lemma sum_symmetric m : mneg (madd m (transpose m)) = transpose (mneg (madd m (transpose m))).
Proof. destruct m as [[] [] []]. unfold mneg, madd, transpose, vadd, scal. cbn. f_equal; f_equal; ring. Qed.
Lemma m3_ext m n : r0 m = r0 n -> r1 m = r1 n -> r2 m = r2 n -> m = n.
Proof. destruct m, n. cbn. now intros -> -> ->. Qed.
Lemma diagonal_symmetric p q b b' : madd b b' = transpose (madd b b') ->
  msub (madd (madd (msub (madd p (transpose p)) b) q) (transpose q)) b' = transpose (msub (madd (madd (msub (madd p (transpose p)) b) q) (transpose q)) b').
Proof.
  intros E.
  pose proof (f_equal (fun m => vy (r0 m)) E) as E1. pose proof (f_equal (fun m => vz (r0 m)) E) as E2. pose proof (f_equal (fun m => vz (r1 m)) E) as E3.
  cbn in E1, E2, E3. clear E.
  apply m3_ext; apply v3_eq; cbn; lra.
Qed.
Theorem C89_hessian_symmetric v2 v0 v1 w3 i j : proper v2 v0 v1 w3 ->
  let H := dihedral_angle_hessian v2 v0 v1 w3 in
  nth j (nth i H []) mzero = transpose (nth i (nth j H []) mzero).
Proof.
  intros [H1 H2] H. unfold H. rewrite hessian_blocks.
  pose proof (b_sum v2 v0 v1 w3 H1 H2) as B.
  apply symmetric_shape; [apply sum_symmetric| | |apply sum_symmetric]; apply diagonal_symmetric; exact B.
Qed.
(* a roof over the z axis with slopes 0 and 1, and one with a right angle *)
Example C89_ex : proper (V3 (-1) 0 0) (V3 0 0 0) (V3 0 0 1) (V3 0 1 0) /\
  dihedral_angle (V3 (-1) 0 0) (V3 0 0 0) (V3 0 0 1) (V3 1 0 0) = 0 /\
  dihedral_angle (V3 (-1) 0 0) (V3 0 0 0) (V3 0 0 1) (V3 0 1 0) = PI / 2.
Proof.
  split; [|split].
  - unfold proper, cross, vsub, zero. cbn. split; intros E; injection E; intros; lra.
  - apply angle_unique; [| | |].
    + destruct (angle_value (V3 (-1) 0 0) (V3 0 0 0) (V3 0 0 1) (V3 1 0 0)) as (R0 & _); [| |exact R0];
        unfold cross, vsub, zero; cbn; intros E; injection E; intros; lra.
    + pose proof PI_RGT_0. lra.
    + destruct (angle_value (V3 (-1) 0 0) (V3 0 0 0) (V3 0 0 1) (V3 1 0 0)) as (_ & -> & _); [| |].
      1, 2: unfold cross, vsub, zero; cbn; intros E; injection E; intros; lra.
      rewrite cos_0. unfold cosine, norm, norm_sqr, dot, cross, vsub. cbn.
      match goal with |- _ / (sqrt ?x * sqrt ?y) = _ => replace x with 1 by ring; replace y with 1 by ring end. rewrite sqrt_1. field.
    + destruct (angle_value (V3 (-1) 0 0) (V3 0 0 0) (V3 0 0 1) (V3 1 0 0)) as (_ & _ & ->); [| |].
      1, 2: unfold cross, vsub, zero; cbn; intros E; injection E; intros; lra.
      rewrite sin_0. unfold sine, dot, cross, vsub, Rdiv. cbn. ring.
  - assert (P : - PI < PI / 2 <= PI) by (pose proof PI_RGT_0; lra).
    apply angle_unique; [| exact P | |].
    + destruct (angle_value (V3 (-1) 0 0) (V3 0 0 0) (V3 0 0 1) (V3 0 1 0)) as (R0 & _); [| |exact R0];
        unfold cross, vsub, zero; cbn; intros E; injection E; intros; lra.
    + destruct (angle_value (V3 (-1) 0 0) (V3 0 0 0) (V3 0 0 1) (V3 0 1 0)) as (_ & -> & _); [| |].
      1, 2: unfold cross, vsub, zero; cbn; intros E; injection E; intros; lra.
      rewrite cos_PI2. unfold cosine, dot, cross, vsub, Rdiv. cbn. ring.
    + destruct (angle_value (V3 (-1) 0 0) (V3 0 0 0) (V3 0 0 1) (V3 0 1 0)) as (_ & _ & ->); [| |].
      1, 2: unfold cross, vsub, zero; cbn; intros E; injection E; intros; lra.
      rewrite sin_PI2. unfold sine, norm, norm_sqr, dot, cross, vsub. cbn.
      match goal with |- _ / (sqrt ?x * sqrt ?y * sqrt ?z) = _ => replace x with 1 by ring; replace y with 1 by ring; replace z with 1 by ring end. rewrite sqrt_1. field.
Qed.

Print Assumptions C89_angle.
Print Assumptions C89_exchange.
Print Assumptions C89_mirror.
Print Assumptions C89_gradient.
Print Assumptions C89_hessian.
Print Assumptions C89_hessian_symmetric.
