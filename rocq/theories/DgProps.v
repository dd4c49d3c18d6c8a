(* C90: gradients and Hessians of the squared distances and of the edge-edge mollifier. *)
From Coq Require Import Reals List Lra Lia Psatz.
From Verif Require Import FricModel FricSpec DgModel DgSpec DgProofs DgProofs2 DgProofs3 DgProofs4.
Import ListNotations.
Local Open Scope R_scope.

(* Point and line through two different points, in the plane and in space. *)
Theorem C90_point_edge_plane p a b dp da db : a <> b ->
  is_gradient (fun t => dist2_pe2 (moved2 p dp t) (moved2 a da t) (moved2 b db t)) (dist_grad_pe2 p a b) (coords2 [dp; da; db]) /\
  is_jacobian 6 (fun t => dist_grad_pe2 (moved2 p dp t) (moved2 a da t) (moved2 b db t)) (dist_hess_pe2 p a b) (coords2 [dp; da; db]) /\
  symmetric 6 (dist_hess_pe2 p a b).
Proof. intros H. split; [now apply PE2_gradient|]. now apply (PE2_hessian p a b dp da db). Qed.
Theorem C90_point_edge p a b dp da db : a <> b ->
  is_gradient (fun t => dist2_pe3 (moved p dp t) (moved a da t) (moved b db t)) (dist_grad_pe3 p a b) (coords [dp; da; db]) /\
  is_jacobian 9 (fun t => dist_grad_pe3 (moved p dp t) (moved a da t) (moved b db t)) (dist_hess_pe3 p a b) (coords [dp; da; db]) /\
  symmetric 9 (dist_hess_pe3 p a b).
Proof. intros H. split; [now apply PE3_gradient|]. now apply (PE3_hessian p a b dp da db). Qed.
(* The lines of two edges that are not parallel. *)
Theorem C90_edge_edge a b c e da db dc de : cross (vsub b a) (vsub e c) <> zero ->
  is_gradient (fun t => dist2_ee (moved a da t) (moved b db t) (moved c dc t) (moved e de t)) (dist_grad_ee a b c e) (coords [da; db; dc; de]) /\
  is_jacobian 12 (fun t => dist_grad_ee (moved a da t) (moved b db t) (moved c dc t) (moved e de t)) (dist_hess_ee a b c e) (coords [da; db; dc; de]) /\
  symmetric 12 (dist_hess_ee a b c e).
Proof. intros H. split; [now apply EE_gradient|]. now apply (EE_hessian a b c e da db dc de). Qed.
(* Point and plane of a proper triangle. *)
Theorem C90_point_triangle p a b c dp da db dc : cross (vsub b a) (vsub c a) <> zero ->
  is_gradient (fun t => dist2_pt (moved p dp t) (moved a da t) (moved b db t) (moved c dc t)) (dist_grad_pt p a b c) (coords [dp; da; db; dc]) /\
  is_jacobian 12 (fun t => dist_grad_pt (moved p dp t) (moved a da t) (moved b db t) (moved c dc t)) (dist_hess_pt p a b c) (coords [dp; da; db; dc]) /\
  symmetric 12 (dist_hess_pt p a b c).
Proof. intros H. split; [now apply PT_gradient|]. now apply (PT_hessian p a b c dp da db dc). Qed.
(* The squared norm of the cross product of two edges, parallel or not. *)
Theorem C90_cross_norm a b c e da db dc de :
  is_gradient (fun t => cn2_ee (moved a da t) (moved b db t) (moved c dc t) (moved e de t)) (cn2_grad_ee a b c e) (coords [da; db; dc; de]) /\
  is_jacobian 12 (fun t => cn2_grad_ee (moved a da t) (moved b db t) (moved c dc t) (moved e de t)) (cn2_hess_ee a b c e) (coords [da; db; dc; de]) /\
  symmetric 12 (cn2_hess_ee a b c e).
Proof. split; [apply CN_gradient|]. apply (CN_hessian a b c e da db dc de). Qed.

(* The mollifier rises from 0 for parallel edges to 1 at the threshold and stays there. *)
Theorem C90_mollifier_values a b c e eps : 0 < eps ->
  let m := mollifier_ee a b c e eps in
  0 <= m <= 1 /\ (m = 0 <-> cross (vsub b a) (vsub e c) = zero) /\ (m = 1 <-> eps <= cn2_ee a b c e) /\
  forall a' b' c' e', cn2_ee a b c e <= cn2_ee a' b' c' e' -> m <= mollifier_ee a' b' c' e' eps.
Proof.
  intros He m.
  assert (P : forall a b c e, 0 <= cn2_ee a b c e).
  { intros. unfold cn2_ee, norm_sqr, dot. pose proof (Rle_0_sqr (vx (cross (vsub b0 a0) (vsub e0 c0)))). pose proof (Rle_0_sqr (vy (cross (vsub b0 a0) (vsub e0 c0)))). pose proof (Rle_0_sqr (vz (cross (vsub b0 a0) (vsub e0 c0)))). unfold Rsqr in *. lra. }
  assert (Q : forall x, EEM x eps = 1 - (1 - x / eps) * (1 - x / eps)) by (intros; unfold EEM; ring).
  assert (I : 0 < / eps) by now apply Rinv_0_lt_compat.
  assert (B : forall x, 0 <= x -> x < eps -> 0 <= x / eps < 1).
  { intros x H0 H1. split; [apply Rmult_le_pos; lra|]. apply (Rmult_lt_reg_r eps); [exact He|]. unfold Rdiv. rewrite Rmult_assoc, Rinv_l by lra. lra. }
  assert (Z0 : cn2_ee a b c e = 0 <-> cross (vsub b a) (vsub e c) = zero).
  { unfold cn2_ee. split; [|intros ->; unfold norm_sqr, dot, zero; cbn; ring]. intros Z. destruct (cross (vsub b a) (vsub e c)) as [x y z] eqn:Ec.
    unfold norm_sqr, dot in Z. cbn in Z. pose proof (Rle_0_sqr x). pose proof (Rle_0_sqr y). pose proof (Rle_0_sqr z). unfold Rsqr in *.
    unfold zero. f_equal; nra. }
  pose proof (P a b c e) as Pc. unfold m, mollifier_ee. split; [|split; [|split]].
  - destruct (Rlt_dec _ _) as [H|]; [|lra]. rewrite Q. pose proof (B _ Pc H). nra.
  - rewrite <- Z0. destruct (Rlt_dec _ _) as [H|]; [|split; lra]. rewrite Q. pose proof (B _ Pc H) as Bx. split.
    + intros E. assert (X : cn2_ee a b c e / eps = 0) by nra. apply Rmult_integral in X. lra.
    + intros ->. unfold Rdiv. rewrite Rmult_0_l. ring.
  - destruct (Rlt_dec _ _) as [H|]; [|split; lra]. rewrite Q. pose proof (B _ Pc H) as Bx. split; [nra|lra].
  - intros a' b' c' e' Hle. pose proof (P a' b' c' e') as Pc'. destruct (Rlt_dec (cn2_ee a b c e) eps) as [H|]; destruct (Rlt_dec (cn2_ee a' b' c' e') eps) as [H'|]; try lra.
    + rewrite !Q. pose proof (B _ Pc H). pose proof (B _ Pc' H'). assert (cn2_ee a b c e / eps <= cn2_ee a' b' c' e' / eps) by (apply Rmult_le_compat_r; lra). nra.
    + rewrite Q. pose proof (B _ Pc H). nra.
Qed.
(* With the threshold computed from the edges themselves the mollifier is active exactly when
   the cosine of the angle between them exceeds sqrt 0.99 in size, that is below about 5.74 degrees. *)
Theorem C90_mollifier_threshold a b c e : a <> b -> c <> e ->
  let eps := mollifier_threshold_ee a b c e in let u := vsub b a in let v := vsub e c in
  0 < eps /\ (mollifier_ee a b c e eps < 1 <-> 99 / 100 * (norm_sqr u * norm_sqr v) < dot u v * dot u v).
Proof.
  intros Hu Hv eps u v.
  assert (Pu : 0 < norm_sqr u). { unfold u. pose proof (norm_sqr_nz _ (vsub_nz _ _ Hu)). assert (0 <= norm_sqr (vsub b a)); [|lra]. unfold norm_sqr, dot. pose proof (Rle_0_sqr (vx (vsub b a))). pose proof (Rle_0_sqr (vy (vsub b a))). pose proof (Rle_0_sqr (vz (vsub b a))). unfold Rsqr in *. lra. }
  assert (Pv : 0 < norm_sqr v). { unfold v. pose proof (norm_sqr_nz _ (vsub_nz _ _ Hv)). assert (0 <= norm_sqr (vsub e c)); [|lra]. unfold norm_sqr, dot. pose proof (Rle_0_sqr (vx (vsub e c))). pose proof (Rle_0_sqr (vy (vsub e c))). pose proof (Rle_0_sqr (vz (vsub e c))). unfold Rsqr in *. lra. }
  assert (E : eps = 1 / 100 * (norm_sqr u * norm_sqr v)).
  { unfold eps, mollifier_threshold_ee, u, v, norm_sqr, dot, vsub. cbn. ring. }
  assert (L : cn2_ee a b c e = norm_sqr u * norm_sqr v - dot u v * dot u v).
  { unfold cn2_ee. fold u v. destruct u, v. unfold norm_sqr, dot, cross. cbn. ring. }
  assert (P : 0 < norm_sqr u * norm_sqr v) by now apply Rmult_lt_0_compat.
  assert (He : 0 < eps) by lra. split; [exact He|].
  pose proof (C90_mollifier_values a b c e eps He) as (B & _ & O & _).
  assert (O' : mollifier_ee a b c e eps < 1 <-> cn2_ee a b c e < eps).
  { split; intros H.
    - destruct (Rlt_or_le (cn2_ee a b c e) eps) as [|K]; [assumption|]. apply O in K. lra.
    - destruct (Req_dec (mollifier_ee a b c e eps) 1) as [K|K]; [|lra]. apply O in K. lra. }
  rewrite O', L, E. lra.
Qed.
(* Its gradient is the derivative everywhere, also at the threshold. *)
Theorem C90_mollifier_gradient a b c e da db dc de eps : 0 < eps ->
  is_gradient (fun t => mollifier_ee (moved a da t) (moved b db t) (moved c dc t) (moved e de t) eps) (mollifier_grad_ee a b c e eps) (coords [da; db; dc; de]).
Proof. intros He. now apply mollifier_gradient. Qed.
(* Away from the threshold its Hessian is the derivative of the gradient. *)
Theorem C90_mollifier_hessian a b c e da db dc de eps : 0 < eps -> cn2_ee a b c e <> eps ->
  is_jacobian 12 (fun t => mollifier_grad_ee (moved a da t) (moved b db t) (moved c dc t) (moved e de t) eps) (mollifier_hess_ee a b c e eps) (coords [da; db; dc; de]).
Proof. intros He H. now apply mollifier_hessian. Qed.
(* At the threshold the gradient has a kink and there is no second derivative. *)
Theorem C90_mollifier_kink : exists a b c e da db dc de eps, 0 < eps /\ cn2_ee a b c e = eps /\
  forall h, ~ is_jacobian 12 (fun t => mollifier_grad_ee (moved a da t) (moved b db t) (moved c dc t) (moved e de t) eps) h (coords [da; db; dc; de]).
Proof.
  set (o := V3 0 0 0). set (y := V3 0 1 0). exists o, (V3 1 0 0), o, y, o, o, o, y, 1.
  split; [lra|]. split; [unfold cn2_ee, norm_sqr, dot, cross, vsub; cbn; ring|]. intros h (_ & _ & _ & H).
  specialize (H 10%nat ltac:(lia)). set (L := weighted _ _) in H. clearbody L.
  assert (C : forall t, cn2_ee (moved o o t) (moved (V3 1 0 0) o t) (moved o o t) (moved y y t) = (1 + t) * (1 + t)).
  { intros t. unfold cn2_ee, norm_sqr, dot, cross, vsub, moved. cbn. ring. }
  assert (V : forall t, nth 10 (mollifier_grad_ee (moved o o t) (moved (V3 1 0 0) o t) (moved o o t) (moved y y t) 1) 0 =
    if Rlt_dec ((1 + t) * (1 + t)) 1 then 2 * (1 - (1 + t) * (1 + t)) * (2 * (1 + t)) else 0).
  { intros t. unfold mollifier_grad_ee. rewrite C. destruct (Rlt_dec _ _); [|reflexivity].
    rewrite (nth_indep _ 0 (g_EEM ((1 + t) * (1 + t)) 1 * 0)) by (rewrite map_length; cbn; lia). rewrite map_nth.
    unfold g_EEM, cn2_grad_ee, on_4, g_EECN2, moved, real, o, y. cbn -[Rdiv]. field. }
  destruct (H 1 Rlt_0_1) as [[q Hq] Hd]. cbn [pos] in Hd. set (k := Rmin q (1 / 100) / 2).
  assert (Hk : 0 < k /\ k < q /\ k < 1 / 100).
  { unfold k. pose proof (Rmin_l q (1 / 100)). pose proof (Rmin_r q (1 / 100)). assert (0 < Rmin q (1 / 100)) by (apply Rmin_glb_lt; lra). lra. }
  clearbody k.
  pose proof (Hd k ltac:(lra) ltac:(rewrite Rabs_right; lra)) as H1.
  pose proof (Hd (- k) ltac:(lra) ltac:(rewrite Rabs_left; lra)) as H2.
  rewrite !V in H1, H2. rewrite !Rplus_0_l in H1, H2.
  destruct (Rlt_dec ((1 + 0) * (1 + 0)) 1); [lra|]. destruct (Rlt_dec ((1 + k) * (1 + k)) 1); [nra|]. destruct (Rlt_dec ((1 + - k) * (1 + - k)) 1); [|nra].
  replace ((0 - 0) / k - L) with (- L) in H1 by (field; lra).
  replace ((2 * (1 - (1 + - k) * (1 + - k)) * (2 * (1 + - k)) - 0) / - k - L) with (- (4 * (2 - k) * (1 - k)) - L) in H2 by (field; lra).
  apply Rabs_def2 in H1, H2. nra.
Qed.
(* the unit edges along x and y at distance 2, and a point at distance 2 from a triangle *)
Example C90_ex : let o := V3 0 0 0 in let x := V3 1 0 0 in let y := V3 0 1 0 in let up := V3 0 0 2 in
  cross (vsub x o) (vsub (vadd y up) up) <> zero /\ dist2_ee o x up (vadd y up) = 4 /\ nth 8 (dist_grad_ee o x up (vadd y up)) 0 = 4 /\
  cross (vsub x o) (vsub y o) <> zero /\ dist2_pt up o x y = 4 /\ nth 2 (dist_grad_pt up o x y) 0 = 4 /\ nth 26 (dist_hess_pt up o x y) 0 = 2.
Proof.
  cbn zeta. unfold cross, vsub, vadd, zero. cbn. split; [intros E; injection E; intros; lra|].
  split; [unfold dist2_ee, norm_sqr, dot, cross, vsub; cbn; field|].
  split; [unfold dist_grad_ee, on_4, g_EE, real; cbn; field|].
  split; [intros E; injection E; intros; lra|].
  split; [unfold dist2_pt, norm_sqr, dot, cross, vsub; cbn; field|].
  split; [unfold dist_grad_pt, on_4, g_PT, real; cbn; field|].
  unfold dist_hess_pt, on_4, H_PT, real. cbn. field.
Qed.

Print Assumptions C90_point_edge_plane.
Print Assumptions C90_point_edge.
Print Assumptions C90_edge_edge.
Print Assumptions C90_point_triangle.
Print Assumptions C90_cross_norm.
Print Assumptions C90_mollifier_values.
Print Assumptions C90_mollifier_threshold.
Print Assumptions C90_mollifier_gradient.
Print Assumptions C90_mollifier_hessian.
Print Assumptions C90_mollifier_kink.
