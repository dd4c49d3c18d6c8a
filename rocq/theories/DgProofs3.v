(* C90: the derivatives for each kind of distance. *)
From Coq Require Import Bool ZArith Reals List Lra Lia.
From Verif Require Import FricModel FricSpec DgModel DgSpec DgProofs DgProofs2.
Import ListNotations.
Local Open Scope R_scope.

Lemma sq2_nz (a b : v2) : a <> b -> (ux b - ux a) * (ux b - ux a) + (uy b - uy a) * (uy b - uy a) <> 0.
Proof.
  intros NZ E. apply NZ. destruct a as [a a'], b as [b b']. cbn in *.
  pose proof (Rle_0_sqr (b - a)). pose proof (Rle_0_sqr (b' - a')). unfold Rsqr in *.
  assert (Ea : (b - a) * (b - a) = 0) by lra. assert (Eb : (b' - a') * (b' - a') = 0) by lra.
  apply Rmult_integral in Ea, Eb. f_equal; lra.
Qed.
Lemma norm_sqr_nz v : v <> zero -> norm_sqr v <> 0.
Proof.
  intros NZ E. apply NZ. destruct v as [x y z]. unfold norm_sqr, dot, zero in *. cbn in *.
  pose proof (Rle_0_sqr x). pose proof (Rle_0_sqr y). pose proof (Rle_0_sqr z). unfold Rsqr in *.
  assert (Ea : x * x = 0) by lra. assert (Eb : y * y = 0) by lra. assert (Ec : z * z = 0) by lra.
  apply Rmult_integral in Ea, Eb, Ec. f_equal; lra.
Qed.
Lemma vsub_nz a b : a <> b -> vsub b a <> zero.
Proof. intros H E. apply H. destruct a, b. unfold vsub, zero in E. cbn in E. injection E as E1 E2 E3. f_equal; lra. Qed.
(* ---- point-edge, in the plane ---- *)
Section S_PE2.
Variables p a b dp da db : v2.
Hypothesis (NZ : a <> b).
Definition D_PE2 : R := (ux b - ux a) * (ux b - ux a) + (uy b - uy a) * (uy b - uy a).
Definition l_PE2 : positive -> R := env (/ D_PE2)
  [ux p; uy p; ux a - ux p; uy a - uy p; ux b - ux a; uy b - uy a]
  [ux dp; uy dp; ux da - ux dp; uy da - uy dp; ux db - ux da; uy db - uy da].
Lemma PE2_nz : D_PE2 <> 0.
Proof. now apply sq2_nz. Qed.
Lemma PE2_D : pval l_PE2 (N e2) = D_PE2.
Proof. rewrite pval_N. cbv -[Rplus Rmult Rminus Rinv Ropp IZR ux uy vx vy vz]. reflexivity. Qed.
Lemma PE2_x t : map (eval (along l_PE2 t)) c2 = coords2 [moved2 p dp t; moved2 a da t; moved2 b db t].
Proof. coordinates. Qed.
Lemma PE2_x0 : map (eval l_PE2) c2 = coords2 [p; a; b].
Proof. coordinates. Qed.
Lemma PE2_d : map (eval l_PE2) (map DgProofs.dd c2) = coords2 [dp; da; db].
Proof. coordinates. Qed.
Lemma PE2_hom l' : map (eval l') (at_6 z0 (g_PE2D expr) c2) = at_6 0 (g_PE2D real) (map (eval l') c2).
Proof. vm_cast_no_check (eq_refl (map (eval l') (at_6 z0 (g_PE2D expr) c2))). Qed.
Lemma PE2_hom_f l' : eval l' (at_6 z0 (pe2 expr) c2) = at_6 0 (pe2 real) (map (eval l') c2).
Proof. vm_cast_no_check (eq_refl (eval l' (at_6 z0 (pe2 expr) c2))). Qed.
Lemma PE2_gradient : is_gradient (fun t => dist2_pe2 (moved2 p dp t) (moved2 a da t) (moved2 b db t)) (dist_grad_pe2 p a b) (coords2 [dp; da; db]).
Proof.
  pose proof PE2_nz as Z.
  assert (Z1 : pval l_PE2 (N e2) <> 0) by now rewrite PE2_D. assert (Z2 : l_PE2 1%positive = / pval l_PE2 (N e2)) by now rewrite PE2_D.
  pose proof (gradient_by_check l_PE2 (N e2) c2 Z1 Z2 (at_6 0 (g_PE2D real)) (at_6 z0 (g_PE2D expr)) PE2_hom
    (at_6 0 (pe2 real)) (at_6 z0 (pe2 expr)) PE2_hom_f pe2_g) as G.
  rewrite PE2_x0, PE2_d in G. revert G. apply is_gradient_ext; [|reflexivity|reflexivity]. intros t. now rewrite PE2_x.
Qed.
Lemma PE2_hessian : is_jacobian 6 (fun t => dist_grad_pe2 (moved2 p dp t) (moved2 a da t) (moved2 b db t)) (dist_hess_pe2 p a b) (coords2 [dp; da; db]) /\
  symmetric 6 (dist_hess_pe2 p a b).
Proof.
  pose proof PE2_nz as Z.
  assert (Q : dist_hess_pe2 p a b = map (eval l_PE2) (at_6 z0 (H_PE2D expr) c2)).
  { change (at_6 0 (H_PE2D real) (coords2 [p; a; b]) = map (eval l_PE2) (at_6 z0 (H_PE2D expr) c2)). rewrite <- PE2_x0.
    vm_cast_no_check (eq_refl (map (eval l_PE2) (at_6 z0 (H_PE2D expr) c2))). }
  split.
  - assert (Z1 : pval l_PE2 (N e2) <> 0) by now rewrite PE2_D. assert (Z2 : l_PE2 1%positive = / pval l_PE2 (N e2)) by now rewrite PE2_D.
    assert (Q' : map (eval l_PE2) (at_6 z0 (H_PE2D expr) c2) = at_6 0 (H_PE2D real) (map (eval l_PE2) c2)) by (rewrite PE2_x0; symmetry; exact Q).
    pose proof (jacobian_by_check l_PE2 (N e2) c2 Z1 Z2 (at_6 0 (g_PE2D real)) (at_6 z0 (g_PE2D expr)) PE2_hom 6
      (at_6 0 (H_PE2D real)) (at_6 z0 (H_PE2D expr)) Q' pe2_h) as G.
    rewrite PE2_x0, PE2_d in G. revert G. apply is_jacobian_ext; [|reflexivity|reflexivity]. intros t. now rewrite PE2_x.
  - rewrite Q. apply (symmetric_by_check l_PE2 (N e2)); [now rewrite PE2_D|now rewrite PE2_D|exact pe2_s].
Qed.
End S_PE2.
(* ---- point-edge ---- *)
Section S_PE3.
Variables p a b dp da db : v3.
Hypothesis (NZ : a <> b).
Definition D_PE3 : R := norm_sqr (vsub b a).
Definition l_PE3 : positive -> R := env (/ D_PE3)
  [vx p; vy p; vz p; vx a - vx p; vy a - vy p; vz a - vz p; vx b - vx a; vy b - vy a; vz b - vz a]
  [vx dp; vy dp; vz dp; vx da - vx dp; vy da - vy dp; vz da - vz dp; vx db - vx da; vy db - vy da; vz db - vz da].
Lemma PE3_nz : D_PE3 <> 0.
Proof. apply norm_sqr_nz. now apply vsub_nz. Qed.
Lemma PE3_D : pval l_PE3 (N e3) = D_PE3.
Proof. rewrite pval_N. cbv -[Rplus Rmult Rminus Rinv Ropp IZR ux uy vx vy vz]. reflexivity. Qed.
Lemma PE3_x t : map (eval (along l_PE3 t)) c3 = coords [moved p dp t; moved a da t; moved b db t].
Proof. coordinates. Qed.
Lemma PE3_x0 : map (eval l_PE3) c3 = coords [p; a; b].
Proof. coordinates. Qed.
Lemma PE3_d : map (eval l_PE3) (map DgProofs.dd c3) = coords [dp; da; db].
Proof. coordinates. Qed.
Lemma PE3_hom l' : map (eval l') (at_9 z0 (g_PE3D expr) c3) = at_9 0 (g_PE3D real) (map (eval l') c3).
Proof. vm_cast_no_check (eq_refl (map (eval l') (at_9 z0 (g_PE3D expr) c3))). Qed.
Lemma PE3_hom_f l' : eval l' (at_9 z0 (pe3 expr) c3) = at_9 0 (pe3 real) (map (eval l') c3).
Proof. vm_cast_no_check (eq_refl (eval l' (at_9 z0 (pe3 expr) c3))). Qed.
Lemma PE3_gradient : is_gradient (fun t => dist2_pe3 (moved p dp t) (moved a da t) (moved b db t)) (dist_grad_pe3 p a b) (coords [dp; da; db]).
Proof.
  pose proof PE3_nz as Z.
  assert (Z1 : pval l_PE3 (N e3) <> 0) by now rewrite PE3_D. assert (Z2 : l_PE3 1%positive = / pval l_PE3 (N e3)) by now rewrite PE3_D.
  pose proof (gradient_by_check l_PE3 (N e3) c3 Z1 Z2 (at_9 0 (g_PE3D real)) (at_9 z0 (g_PE3D expr)) PE3_hom
    (at_9 0 (pe3 real)) (at_9 z0 (pe3 expr)) PE3_hom_f pe3_g) as G.
  rewrite PE3_x0, PE3_d in G. revert G. apply is_gradient_ext; [|reflexivity|reflexivity]. intros t. now rewrite PE3_x.
Qed.
Lemma PE3_hessian : is_jacobian 9 (fun t => dist_grad_pe3 (moved p dp t) (moved a da t) (moved b db t)) (dist_hess_pe3 p a b) (coords [dp; da; db]) /\
  symmetric 9 (dist_hess_pe3 p a b).
Proof.
  pose proof PE3_nz as Z.
  assert (Q : dist_hess_pe3 p a b = map (eval l_PE3) (at_9 z0 (H_PE3D expr) c3)).
  { change (at_9 0 (H_PE3D real) (coords [p; a; b]) = map (eval l_PE3) (at_9 z0 (H_PE3D expr) c3)). rewrite <- PE3_x0.
    vm_cast_no_check (eq_refl (map (eval l_PE3) (at_9 z0 (H_PE3D expr) c3))). }
  split.
  - assert (Z1 : pval l_PE3 (N e3) <> 0) by now rewrite PE3_D. assert (Z2 : l_PE3 1%positive = / pval l_PE3 (N e3)) by now rewrite PE3_D.
    assert (Q' : map (eval l_PE3) (at_9 z0 (H_PE3D expr) c3) = at_9 0 (H_PE3D real) (map (eval l_PE3) c3)) by (rewrite PE3_x0; symmetry; exact Q).
    pose proof (jacobian_by_check l_PE3 (N e3) c3 Z1 Z2 (at_9 0 (g_PE3D real)) (at_9 z0 (g_PE3D expr)) PE3_hom 9
      (at_9 0 (H_PE3D real)) (at_9 z0 (H_PE3D expr)) Q' pe3_h) as G.
    rewrite PE3_x0, PE3_d in G. revert G. apply is_jacobian_ext; [|reflexivity|reflexivity]. intros t. now rewrite PE3_x.
  - rewrite Q. apply (symmetric_by_check l_PE3 (N e3)); [now rewrite PE3_D|now rewrite PE3_D|exact pe3_s].
Qed.
End S_PE3.
(* ---- edge-edge ---- *)
Section S_EE.
Variables a b c e da db dc de : v3.
Hypothesis (NZ : cross (vsub b a) (vsub e c) <> zero).
Definition D_EE : R := norm_sqr (cross (vsub b a) (vsub e c)).
Definition l_EE : positive -> R := env (/ D_EE)
  [vx a; vy a; vz a; vx b - vx a; vy b - vy a; vz b - vz a; vx c - vx a; vy c - vy a; vz c - vz a; vx e - vx c; vy e - vy c; vz e - vz c]
  [vx da; vy da; vz da; vx db - vx da; vy db - vy da; vz db - vz da; vx dc - vx da; vy dc - vy da; vz dc - vz da; vx de - vx dc; vy de - vy dc; vz de - vz dc].
Lemma EE_nz : D_EE <> 0.
Proof. now apply norm_sqr_nz. Qed.
Lemma EE_D : pval l_EE (N ee_n) = D_EE.
Proof. rewrite pval_N. cbv -[Rplus Rmult Rminus Rinv Ropp IZR ux uy vx vy vz]. reflexivity. Qed.
Lemma EE_x t : map (eval (along l_EE t)) ce = coords [moved a da t; moved b db t; moved c dc t; moved e de t].
Proof. coordinates. Qed.
Lemma EE_x0 : map (eval l_EE) ce = coords [a; b; c; e].
Proof. coordinates. Qed.
Lemma EE_d : map (eval l_EE) (map DgProofs.dd ce) = coords [da; db; dc; de].
Proof. coordinates. Qed.
Lemma EE_hom l' : map (eval l') (at_12 z0 (g_EE expr) ce) = at_12 0 (g_EE real) (map (eval l') ce).
Proof. vm_cast_no_check (eq_refl (map (eval l') (at_12 z0 (g_EE expr) ce))). Qed.
Lemma EE_hom_f l' : eval l' (at_12 z0 (ee expr) ce) = at_12 0 (ee real) (map (eval l') ce).
Proof. vm_cast_no_check (eq_refl (eval l' (at_12 z0 (ee expr) ce))). Qed.
Lemma EE_gradient : is_gradient (fun t => dist2_ee (moved a da t) (moved b db t) (moved c dc t) (moved e de t)) (dist_grad_ee a b c e) (coords [da; db; dc; de]).
Proof.
  pose proof EE_nz as Z.
  assert (Z1 : pval l_EE (N ee_n) <> 0) by now rewrite EE_D. assert (Z2 : l_EE 1%positive = / pval l_EE (N ee_n)) by now rewrite EE_D.
  pose proof (gradient_by_check l_EE (N ee_n) ce Z1 Z2 (at_12 0 (g_EE real)) (at_12 z0 (g_EE expr)) EE_hom
    (at_12 0 (ee real)) (at_12 z0 (ee expr)) EE_hom_f ee_g) as G.
  rewrite EE_x0, EE_d in G. revert G. apply is_gradient_ext; [|reflexivity|reflexivity]. intros t. now rewrite EE_x.
Qed.
Lemma EE_hessian : is_jacobian 12 (fun t => dist_grad_ee (moved a da t) (moved b db t) (moved c dc t) (moved e de t)) (dist_hess_ee a b c e) (coords [da; db; dc; de]) /\
  symmetric 12 (dist_hess_ee a b c e).
Proof.
  pose proof EE_nz as Z.
  assert (Q : dist_hess_ee a b c e = map (eval l_EE) (at_12 z0 (H_EE expr) ce)).
  { change (at_12 0 (H_EE real) (coords [a; b; c; e]) = map (eval l_EE) (at_12 z0 (H_EE expr) ce)). rewrite <- EE_x0.
    vm_cast_no_check (eq_refl (map (eval l_EE) (at_12 z0 (H_EE expr) ce))). }
  split.
  - assert (Z1 : pval l_EE (N ee_n) <> 0) by now rewrite EE_D. assert (Z2 : l_EE 1%positive = / pval l_EE (N ee_n)) by now rewrite EE_D.
    assert (Q' : map (eval l_EE) (at_12 z0 (H_EE expr) ce) = at_12 0 (H_EE real) (map (eval l_EE) ce)) by (rewrite EE_x0; symmetry; exact Q).
    pose proof (jacobian_by_check l_EE (N ee_n) ce Z1 Z2 (at_12 0 (g_EE real)) (at_12 z0 (g_EE expr)) EE_hom 12
      (at_12 0 (H_EE real)) (at_12 z0 (H_EE expr)) Q' ee_h) as G.
    rewrite EE_x0, EE_d in G. revert G. apply is_jacobian_ext; [|reflexivity|reflexivity]. intros t. now rewrite EE_x.
  - rewrite Q. apply (symmetric_by_check l_EE (N ee_n)); [now rewrite EE_D|now rewrite EE_D|exact ee_s].
Qed.
End S_EE.
(* ---- squared norm of the cross product of two edges ---- *)
Section S_CN.
Variables a b c e da db dc de : v3.
Definition D_CN : R := 1.
Definition l_CN : positive -> R := env (/ D_CN)
  [vx a; vy a; vz a; vx b - vx a; vy b - vy a; vz b - vz a; vx c - vx a; vy c - vy a; vz c - vz a; vx e - vx c; vy e - vy c; vz e - vz c]
  [vx da; vy da; vz da; vx db - vx da; vy db - vy da; vz db - vz da; vx dc - vx da; vy dc - vy da; vz dc - vz da; vx de - vx dc; vy de - vy dc; vz de - vz dc].
Lemma CN_nz : D_CN <> 0.
Proof. unfold D_CN. lra. Qed.
Lemma CN_D : pval l_CN (N (EC 1)) = D_CN.
Proof. rewrite pval_N. cbv -[Rplus Rmult Rminus Rinv Ropp IZR ux uy vx vy vz]. reflexivity. Qed.
Lemma CN_x t : map (eval (along l_CN t)) ce = coords [moved a da t; moved b db t; moved c dc t; moved e de t].
Proof. coordinates. Qed.
Lemma CN_x0 : map (eval l_CN) ce = coords [a; b; c; e].
Proof. coordinates. Qed.
Lemma CN_d : map (eval l_CN) (map DgProofs.dd ce) = coords [da; db; dc; de].
Proof. coordinates. Qed.
Lemma CN_hom l' : map (eval l') (at_12 z0 (g_EECN2 expr) ce) = at_12 0 (g_EECN2 real) (map (eval l') ce).
Proof. vm_cast_no_check (eq_refl (map (eval l') (at_12 z0 (g_EECN2 expr) ce))). Qed.
Lemma CN_hom_f l' : eval l' (at_12 z0 (cn2 expr) ce) = at_12 0 (cn2 real) (map (eval l') ce).
Proof. vm_cast_no_check (eq_refl (eval l' (at_12 z0 (cn2 expr) ce))). Qed.
Lemma CN_gradient : is_gradient (fun t => cn2_ee (moved a da t) (moved b db t) (moved c dc t) (moved e de t)) (cn2_grad_ee a b c e) (coords [da; db; dc; de]).
Proof.
  pose proof CN_nz as Z.
  assert (Z1 : pval l_CN (N (EC 1)) <> 0) by now rewrite CN_D. assert (Z2 : l_CN 1%positive = / pval l_CN (N (EC 1))) by now rewrite CN_D.
  pose proof (gradient_by_check l_CN (N (EC 1)) ce Z1 Z2 (at_12 0 (g_EECN2 real)) (at_12 z0 (g_EECN2 expr)) CN_hom
    (at_12 0 (cn2 real)) (at_12 z0 (cn2 expr)) CN_hom_f cn_g) as G.
  rewrite CN_x0, CN_d in G. revert G. apply is_gradient_ext; [|reflexivity|reflexivity]. intros t. now rewrite CN_x.
Qed.
Lemma CN_hessian : is_jacobian 12 (fun t => cn2_grad_ee (moved a da t) (moved b db t) (moved c dc t) (moved e de t)) (cn2_hess_ee a b c e) (coords [da; db; dc; de]) /\
  symmetric 12 (cn2_hess_ee a b c e).
Proof.
  pose proof CN_nz as Z.
  assert (Q : cn2_hess_ee a b c e = map (eval l_CN) (at_12 z0 (H_EECN2 expr) ce)).
  { change (at_12 0 (H_EECN2 real) (coords [a; b; c; e]) = map (eval l_CN) (at_12 z0 (H_EECN2 expr) ce)). rewrite <- CN_x0.
    vm_cast_no_check (eq_refl (map (eval l_CN) (at_12 z0 (H_EECN2 expr) ce))). }
  split.
  - assert (Z1 : pval l_CN (N (EC 1)) <> 0) by now rewrite CN_D. assert (Z2 : l_CN 1%positive = / pval l_CN (N (EC 1))) by now rewrite CN_D.
    assert (Q' : map (eval l_CN) (at_12 z0 (H_EECN2 expr) ce) = at_12 0 (H_EECN2 real) (map (eval l_CN) ce)) by (rewrite CN_x0; symmetry; exact Q).
    pose proof (jacobian_by_check l_CN (N (EC 1)) ce Z1 Z2 (at_12 0 (g_EECN2 real)) (at_12 z0 (g_EECN2 expr)) CN_hom 12
      (at_12 0 (H_EECN2 real)) (at_12 z0 (H_EECN2 expr)) Q' cn_h) as G.
    rewrite CN_x0, CN_d in G. revert G. apply is_jacobian_ext; [|reflexivity|reflexivity]. intros t. now rewrite CN_x.
  - rewrite Q. apply (symmetric_by_check l_CN (N (EC 1))); [now rewrite CN_D|now rewrite CN_D|exact cn_s].
Qed.
End S_CN.
(* ---- point-triangle ---- *)
Section S_PT.
Variables p a b c dp da db dc : v3.
Hypothesis (NZ : cross (vsub b a) (vsub c a) <> zero).
Definition D_PT : R := norm_sqr (cross (vsub b a) (vsub c a)).
Definition l_PT : positive -> R := env (/ D_PT)
  [vx p; vy p; vz p; vx a - vx p; vy a - vy p; vz a - vz p; vx b - vx a; vy b - vy a; vz b - vz a; vx c - vx a; vy c - vy a; vz c - vz a]
  [vx dp; vy dp; vz dp; vx da - vx dp; vy da - vy dp; vz da - vz dp; vx db - vx da; vy db - vy da; vz db - vz da; vx dc - vx da; vy dc - vy da; vz dc - vz da].
Lemma PT_nz : D_PT <> 0.
Proof. now apply norm_sqr_nz. Qed.
Lemma PT_D : pval l_PT (N pt_n) = D_PT.
Proof. rewrite pval_N. cbv -[Rplus Rmult Rminus Rinv Ropp IZR ux uy vx vy vz]. reflexivity. Qed.
Lemma PT_x t : map (eval (along l_PT t)) ct = coords [moved p dp t; moved a da t; moved b db t; moved c dc t].
Proof. coordinates. Qed.
Lemma PT_x0 : map (eval l_PT) ct = coords [p; a; b; c].
Proof. coordinates. Qed.
Lemma PT_d : map (eval l_PT) (map DgProofs.dd ct) = coords [dp; da; db; dc].
Proof. coordinates. Qed.
Lemma PT_hom l' : map (eval l') (at_12 z0 (g_PT expr) ct) = at_12 0 (g_PT real) (map (eval l') ct).
Proof. vm_cast_no_check (eq_refl (map (eval l') (at_12 z0 (g_PT expr) ct))). Qed.
Lemma PT_hom_f l' : eval l' (at_12 z0 (pt expr) ct) = at_12 0 (pt real) (map (eval l') ct).
Proof. vm_cast_no_check (eq_refl (eval l' (at_12 z0 (pt expr) ct))). Qed.
Lemma PT_gradient : is_gradient (fun t => dist2_pt (moved p dp t) (moved a da t) (moved b db t) (moved c dc t)) (dist_grad_pt p a b c) (coords [dp; da; db; dc]).
Proof.
  pose proof PT_nz as Z.
  assert (Z1 : pval l_PT (N pt_n) <> 0) by now rewrite PT_D. assert (Z2 : l_PT 1%positive = / pval l_PT (N pt_n)) by now rewrite PT_D.
  pose proof (gradient_by_check l_PT (N pt_n) ct Z1 Z2 (at_12 0 (g_PT real)) (at_12 z0 (g_PT expr)) PT_hom
    (at_12 0 (pt real)) (at_12 z0 (pt expr)) PT_hom_f pt_g) as G.
  rewrite PT_x0, PT_d in G. revert G. apply is_gradient_ext; [|reflexivity|reflexivity]. intros t. now rewrite PT_x.
Qed.
Lemma PT_hessian : is_jacobian 12 (fun t => dist_grad_pt (moved p dp t) (moved a da t) (moved b db t) (moved c dc t)) (dist_hess_pt p a b c) (coords [dp; da; db; dc]) /\
  symmetric 12 (dist_hess_pt p a b c).
Proof.
  pose proof PT_nz as Z.
  assert (Q : dist_hess_pt p a b c = map (eval l_PT) (at_12 z0 (H_PT expr) ct)).
  { change (at_12 0 (H_PT real) (coords [p; a; b; c]) = map (eval l_PT) (at_12 z0 (H_PT expr) ct)). rewrite <- PT_x0.
    vm_cast_no_check (eq_refl (map (eval l_PT) (at_12 z0 (H_PT expr) ct))). }
  split.
  - assert (Z1 : pval l_PT (N pt_n) <> 0) by now rewrite PT_D. assert (Z2 : l_PT 1%positive = / pval l_PT (N pt_n)) by now rewrite PT_D.
    assert (Q' : map (eval l_PT) (at_12 z0 (H_PT expr) ct) = at_12 0 (H_PT real) (map (eval l_PT) ct)) by (rewrite PT_x0; symmetry; exact Q).
    pose proof (jacobian_by_check l_PT (N pt_n) ct Z1 Z2 (at_12 0 (g_PT real)) (at_12 z0 (g_PT expr)) PT_hom 12
      (at_12 0 (H_PT real)) (at_12 z0 (H_PT expr)) Q' pt_h) as G.
    rewrite PT_x0, PT_d in G. revert G. apply is_jacobian_ext; [|reflexivity|reflexivity]. intros t. now rewrite PT_x.
  - rewrite Q. apply (symmetric_by_check l_PT (N pt_n)); [now rewrite PT_D|now rewrite PT_D|exact pt_s].
Qed.
End S_PT.
