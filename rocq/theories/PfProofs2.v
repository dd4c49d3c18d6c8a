(* C91: the Jacobians for each kind of contact. *)
From Coq Require Import Bool ZArith Reals List Lra Lia.
From Verif Require Import FricModel FricSpec DgModel DgSpec DgProofs DgProofs2 DgProofs3 PfModel PfSpec PfProofs.
Import ListNotations.
Local Open Scope R_scope.

(* the variable of dHat, and those of 1/dHat, 1/D, f, 1/f, g and 1/g for roots f and g *)
Definition dv : ex := EV 27.
Definition base : list atom := [AInv dv 31].
Definition with_root (f : ex) (p q : positive) : list atom := [ARoot f p; AInv (ERoot f) q].
(* first point, second relative to it, further points *)
Definition cpp : list ex := [X 1; X 2; X 3; EAdd (X 1) (X 4); EAdd (X 2) (X 5); EAdd (X 3) (X 6)].
Definition cppp : list ex := [X 1; X 2; X 3; EAdd (X 1) (X 4); EAdd (X 2) (X 5); EAdd (X 3) (X 6);
  EAdd (X 1) (X 7); EAdd (X 2) (X 8); EAdd (X 3) (X 9);
  EAdd (EAdd (X 1) (X 4)) (X 10); EAdd (EAdd (X 2) (X 5)) (X 11); EAdd (EAdd (X 3) (X 6)) (X 12)].
Definition cppe : list ex := [X 1; X 2; X 3; EAdd (X 1) (X 4); EAdd (X 2) (X 5); EAdd (X 3) (X 6);
  EAdd (EAdd (X 1) (X 4)) (X 7); EAdd (EAdd (X 2) (X 5)) (X 8); EAdd (EAdd (X 3) (X 6)) (X 9);
  EAdd (X 1) (X 10); EAdd (X 2) (X 11); EAdd (X 3) (X 12)].
Section Any.
Context {T : Type} (o : ops T).
Definition pp (a0 a1 a2 b0 b1 b2 : T) : T := sq3 o (sub o b0 a0) (sub o b1 a1) (sub o b2 a2).
Definition pp' (a0 a1 a2 b0 b1 b2 c0 c1 c2 d0 d1 d2 : T) : T := pp a0 a1 a2 b0 b1 b2.
Definition pe' (a0 a1 a2 b0 b1 b2 c0 c1 c2 d0 d1 d2 : T) : T := pe3 o a0 a1 a2 b0 b1 b2 c0 c1 c2.
Definition cn_ppp (a0 a1 a2 b0 b1 b2 c0 c1 c2 d0 d1 d2 : T) : T := cn2 o a0 a1 a2 c0 c1 c2 b0 b1 b2 d0 d1 d2.
Definition cn_ppe (a0 a1 a2 b0 b1 b2 c0 c1 c2 d0 d1 d2 : T) : T := cn2 o a0 a1 a2 d0 d1 d2 b0 b1 b2 c0 c1 c2.
End Any.
Lemma norm_sqr_pos v : v <> zero -> 0 < norm_sqr v.
Proof.
  intros H. pose proof (norm_sqr_nz v H). assert (0 <= norm_sqr v); [|lra]. unfold norm_sqr, dot.
  pose proof (Rle_0_sqr (vx v)). pose proof (Rle_0_sqr (vy v)). pose proof (Rle_0_sqr (vz v)). unfold Rsqr in *. lra.
Qed.
Lemma sqrt_pos_inv x : 0 < sqrt x -> 0 < x.
Proof. intros H. destruct (Rlt_or_le 0 x) as [|L]; [assumption|]. rewrite sqrt_neg_0 in H by exact L. lra. Qed.
Lemma sqrt_nz x : 0 < x -> sqrt x <> 0.
Proof. intros H. pose proof (sqrt_lt_R0 x H). lra. Qed.

Section S_PP2.
Variables (x0 x1 d0 d1 : v3) (dHat : R).
Hypothesis (Hd : dHat <> 0) (Hf : 0 < dist_pp x0 x1).
Definition l_PP2 : positive -> R := env 0
  [vx x0; vy x0; vz x0; vx x1 - vx x0; vy x1 - vy x0; vz x1 - vz x0]
  [vx d0; vy d0; vz d0; vx d1 - vx d0; vy d1 - vy d0; vz d1 - vz d0; 0; 0; 0; 0; 0; 0;
   dHat; / 2; / dHat; / 1; sqrt (dist2_pp x0 x1); / sqrt (dist2_pp x0 x1); sqrt (1); / sqrt (1)].
Definition a_PP2 : list atom := base ++ with_root (at_6 z0 (pp expr) cpp) 35 37.
Lemma PP2_x t : map (eval (along l_PP2 t)) cpp = coords [moved x0 d0 t; moved x1 d1 t].
Proof. coordinates. Qed.
Lemma PP2_x0 : map (eval l_PP2) cpp = coords [x0; x1].
Proof. coordinates. Qed.
Lemma PP2_d : map (eval l_PP2) (map DgProofs.dd cpp) = coords [d0; d1].
Proof. coordinates. Qed.
Definition f_PP2 (l : list ex) : ex := quot expr (ERoot (at_6 z0 (pp expr) l)) dv.
Lemma PP2_f l' : eval l' (f_PP2 cpp) = sqrt (at_6 0 (pp real) (map (eval l') cpp)) / l' 27%positive.
Proof. vm_cast_no_check (eq_refl (eval l' (f_PP2 cpp))). Qed.
Lemma PP2_m l' : map (eval l') (at_6 z0 (detail_pp2 expr ERoot dv) cpp) = at_6 0 (detail_pp2 real sqrt (l' 27%positive)) (map (eval l') cpp).
Proof. vm_cast_no_check (eq_refl (map (eval l') (at_6 z0 (detail_pp2 expr ERoot dv) cpp))). Qed.
Lemma PP2_r l' : eval l' (at_6 z0 (pp expr) cpp) = at_6 0 (pp real) (map (eval l') cpp).
Proof. vm_cast_no_check (eq_refl (eval l' (at_6 z0 (pp expr) cpp))). Qed.
Lemma PP2_rv : eval l_PP2 (at_6 z0 (pp expr) cpp) = dist2_pp x0 x1.
Proof. rewrite PP2_r, PP2_x0. reflexivity. Qed.
Lemma PP2_valid : Forall (valid l_PP2) a_PP2.
Proof.
  pose proof PP2_rv as RV. pose proof (sqrt_pos_inv _ Hf) as Hf'.
  unfold a_PP2, with_root. cbn [app base]. repeat apply Forall_cons; [..|apply Forall_nil].
  - split; [exact Hd|reflexivity].
  - cbn [valid]. rewrite RV. split; [exact Hf'|reflexivity].
  - cbn [valid eval]. rewrite RV. split; [now apply sqrt_nz|reflexivity].
Qed.
Lemma PP2_c : col_ok a_PP2 cpp (f_PP2 cpp) 1 0 (at_6 z0 (detail_pp2 expr ERoot dv) cpp) = true. Proof. now vm_compute. Qed.
Lemma PP2_b : blank_ok 6 1 [0]%nat (at_6 z0 (detail_pp2 expr ERoot dv) cpp) = true. Proof. now vm_compute. Qed.
Lemma PP2_mv : map (eval l_PP2) (at_6 z0 (detail_pp2 expr ERoot dv) cpp) = pFpx_pp2 x0 x1 dHat.
Proof. rewrite PP2_m, PP2_x0. reflexivity. Qed.
Lemma PP2_distance : is_gradient (fun t => dist_pp (moved x0 d0 t) (moved x1 d1 t) / dHat) (column 1 0 (pFpx_pp2 x0 x1 dHat)) (coords [d0; d1]).
Proof.
  assert (S : forall t, (along l_PP2 t) 27%positive = dHat) by reflexivity.
  pose proof (PP2_valid) as V.
  pose proof (gradient_of_column l_PP2 a_PP2 cpp 1 0 V (f_PP2 cpp) _ _ PP2_mv PP2_c) as Q.
  rewrite PP2_d in Q. revert Q. apply is_gradient_ext; [|reflexivity|reflexivity].
  intros t. rewrite PP2_f, PP2_x, S. reflexivity.
Qed.
Lemma PP2_blank : only_columns 6 1 [0]%nat (pFpx_pp2 x0 x1 dHat).
Proof. rewrite <- PP2_mv. apply blank_by_check. exact PP2_b. Qed.
End S_PP2.
Section S_PE2.
Variables (x0 x1 x2 d0 d1 d2 : v3) (dHat : R).
Hypothesis (Hd : dHat <> 0) (Hf : 0 < dist_pe x0 x1 x2).
Hypothesis (HD : x1 <> x2).
Definition l_PE2 : positive -> R := env 0
  [vx x0; vy x0; vz x0; vx x1 - vx x0; vy x1 - vy x0; vz x1 - vz x0; vx x2 - vx x1; vy x2 - vy x1; vz x2 - vz x1]
  [vx d0; vy d0; vz d0; vx d1 - vx d0; vy d1 - vy d0; vz d1 - vz d0; vx d2 - vx d1; vy d2 - vy d1; vz d2 - vz d1; 0; 0; 0;
   dHat; / 2; / dHat; / (norm_sqr (vsub x2 x1)); sqrt (dist2_pe3 x0 x1 x2); / sqrt (dist2_pe3 x0 x1 x2); sqrt (1); / sqrt (1)].
Definition a_PE2 : list atom := base ++ [AInv e3 33] ++ with_root (at_9 z0 (pe3 expr) c3) 35 37.
Lemma PE2_x t : map (eval (along l_PE2 t)) c3 = coords [moved x0 d0 t; moved x1 d1 t; moved x2 d2 t].
Proof. coordinates. Qed.
Lemma PE2_x0 : map (eval l_PE2) c3 = coords [x0; x1; x2].
Proof. coordinates. Qed.
Lemma PE2_d : map (eval l_PE2) (map DgProofs.dd c3) = coords [d0; d1; d2].
Proof. coordinates. Qed.
Definition f_PE2 (l : list ex) : ex := quot expr (ERoot (at_9 z0 (pe3 expr) l)) dv.
Lemma PE2_f l' : eval l' (f_PE2 c3) = sqrt (at_9 0 (pe3 real) (map (eval l') c3)) / l' 27%positive.
Proof. vm_cast_no_check (eq_refl (eval l' (f_PE2 c3))). Qed.
Lemma PE2_m l' : map (eval l') (at_9 z0 (detail_pe2 expr ERoot dv) c3) = at_9 0 (detail_pe2 real sqrt (l' 27%positive)) (map (eval l') c3).
Proof. vm_cast_no_check (eq_refl (map (eval l') (at_9 z0 (detail_pe2 expr ERoot dv) c3))). Qed.
Lemma PE2_r l' : eval l' (at_9 z0 (pe3 expr) c3) = at_9 0 (pe3 real) (map (eval l') c3).
Proof. vm_cast_no_check (eq_refl (eval l' (at_9 z0 (pe3 expr) c3))). Qed.
Lemma PE2_rv : eval l_PE2 (at_9 z0 (pe3 expr) c3) = dist2_pe3 x0 x1 x2.
Proof. rewrite PE2_r, PE2_x0. reflexivity. Qed.
Lemma PE2_D : eval l_PE2 e3 = norm_sqr (vsub x2 x1).
Proof. cbv -[Rplus Rmult Rminus Rinv Ropp IZR ux uy vx vy vz]. reflexivity. Qed.
Lemma PE2_valid : Forall (valid l_PE2) a_PE2.
Proof.
  pose proof PE2_rv as RV. pose proof (sqrt_pos_inv _ Hf) as Hf'.
  unfold a_PE2, with_root. cbn [app base]. repeat apply Forall_cons; [..|apply Forall_nil].
  - split; [exact Hd|reflexivity].
  - cbn [valid]. rewrite PE2_D. split; [apply norm_sqr_nz; now apply vsub_nz|reflexivity].
  - cbn [valid]. rewrite RV. split; [exact Hf'|reflexivity].
  - cbn [valid eval]. rewrite RV. split; [now apply sqrt_nz|reflexivity].
Qed.
Lemma PE2_c : col_ok a_PE2 c3 (f_PE2 c3) 4 3 (at_9 z0 (detail_pe2 expr ERoot dv) c3) = true. Proof. now vm_compute. Qed.
Lemma PE2_b : blank_ok 9 4 [3]%nat (at_9 z0 (detail_pe2 expr ERoot dv) c3) = true. Proof. now vm_compute. Qed.
Lemma PE2_mv : map (eval l_PE2) (at_9 z0 (detail_pe2 expr ERoot dv) c3) = pFpx_pe2 x0 x1 x2 dHat.
Proof. rewrite PE2_m, PE2_x0. reflexivity. Qed.
Lemma PE2_distance : is_gradient (fun t => dist_pe (moved x0 d0 t) (moved x1 d1 t) (moved x2 d2 t) / dHat) (column 4 3 (pFpx_pe2 x0 x1 x2 dHat)) (coords [d0; d1; d2]).
Proof.
  assert (S : forall t, (along l_PE2 t) 27%positive = dHat) by reflexivity.
  pose proof (PE2_valid) as V.
  pose proof (gradient_of_column l_PE2 a_PE2 c3 4 3 V (f_PE2 c3) _ _ PE2_mv PE2_c) as Q.
  rewrite PE2_d in Q. revert Q. apply is_gradient_ext; [|reflexivity|reflexivity].
  intros t. rewrite PE2_f, PE2_x, S. reflexivity.
Qed.
Lemma PE2_blank : only_columns 9 4 [3]%nat (pFpx_pe2 x0 x1 x2 dHat).
Proof. rewrite <- PE2_mv. apply blank_by_check. exact PE2_b. Qed.
End S_PE2.
Section S_PPP.
Variables (x0 x1 x2 x3 d0 d1 d2 d3 : v3) (dHat : R).
Hypothesis (Hd : dHat <> 0) (Hf : 0 < dist_pp x0 x1).
Hypothesis (Hg : cross (vsub x2 x0) (vsub x3 x1) <> zero).
Definition l_PPP : positive -> R := env 0
  [vx x0; vy x0; vz x0; vx x1 - vx x0; vy x1 - vy x0; vz x1 - vz x0; vx x2 - vx x0; vy x2 - vy x0; vz x2 - vz x0; vx x3 - vx x1; vy x3 - vy x1; vz x3 - vz x1]
  [vx d0; vy d0; vz d0; vx d1 - vx d0; vy d1 - vy d0; vz d1 - vz d0; vx d2 - vx d0; vy d2 - vy d0; vz d2 - vz d0; vx d3 - vx d1; vy d3 - vy d1; vz d3 - vz d1;
   dHat; / 2; / dHat; / 1; sqrt (dist2_pp x0 x1); / sqrt (dist2_pp x0 x1); sqrt (norm_sqr (cross (vsub x2 x0) (vsub x3 x1))); / sqrt (norm_sqr (cross (vsub x2 x0) (vsub x3 x1)))].
Definition a_PPP : list atom := base ++ with_root (at_12 z0 (pp' expr) cppp) 35 37 ++ with_root (at_12 z0 (cn_ppp expr) cppp) 39 41.
Lemma PPP_x t : map (eval (along l_PPP t)) cppp = coords [moved x0 d0 t; moved x1 d1 t; moved x2 d2 t; moved x3 d3 t].
Proof. coordinates. Qed.
Lemma PPP_x0 : map (eval l_PPP) cppp = coords [x0; x1; x2; x3].
Proof. coordinates. Qed.
Lemma PPP_d : map (eval l_PPP) (map DgProofs.dd cppp) = coords [d0; d1; d2; d3].
Proof. coordinates. Qed.
Definition f_PPP (l : list ex) : ex := quot expr (ERoot (at_12 z0 (pp' expr) l)) dv.
Lemma PPP_f l' : eval l' (f_PPP cppp) = sqrt (at_12 0 (pp' real) (map (eval l') cppp)) / l' 27%positive.
Proof. vm_cast_no_check (eq_refl (eval l' (f_PPP cppp))). Qed.
Lemma PPP_m l' : map (eval l') (at_12 z0 (detail_pppV0V1 expr ERoot dv) cppp) = at_12 0 (detail_pppV0V1 real sqrt (l' 27%positive)) (map (eval l') cppp).
Proof. vm_cast_no_check (eq_refl (map (eval l') (at_12 z0 (detail_pppV0V1 expr ERoot dv) cppp))). Qed.
Lemma PPP_r l' : eval l' (at_12 z0 (pp' expr) cppp) = at_12 0 (pp' real) (map (eval l') cppp).
Proof. vm_cast_no_check (eq_refl (eval l' (at_12 z0 (pp' expr) cppp))). Qed.
Lemma PPP_rv : eval l_PPP (at_12 z0 (pp' expr) cppp) = dist2_pp x0 x1.
Proof. rewrite PPP_r, PPP_x0. reflexivity. Qed.
Lemma PPP_g l' : eval l' (at_12 z0 (cn_ppp expr) cppp) = at_12 0 (cn_ppp real) (map (eval l') cppp).
Proof. vm_cast_no_check (eq_refl (eval l' (at_12 z0 (cn_ppp expr) cppp))). Qed.
Lemma PPP_gr l' : eval l' (ERoot (at_12 z0 (cn_ppp expr) cppp)) = sqrt (at_12 0 (cn_ppp real) (map (eval l') cppp)).
Proof. vm_cast_no_check (eq_refl (eval l' (ERoot (at_12 z0 (cn_ppp expr) cppp)))). Qed.
Lemma PPP_gv : eval l_PPP (at_12 z0 (cn_ppp expr) cppp) = norm_sqr (cross (vsub x2 x0) (vsub x3 x1)).
Proof. rewrite PPP_g, PPP_x0. reflexivity. Qed.
Lemma PPP_valid : Forall (valid l_PPP) a_PPP.
Proof.
  pose proof PPP_rv as RV. pose proof (sqrt_pos_inv _ Hf) as Hf'.
  pose proof PPP_gv as GV. pose proof (norm_sqr_pos _ Hg) as G0.
  unfold a_PPP, with_root. cbn [app base]. repeat apply Forall_cons; [..|apply Forall_nil].
  - split; [exact Hd|reflexivity].
  - cbn [valid]. rewrite RV. split; [exact Hf'|reflexivity].
  - cbn [valid eval]. rewrite RV. split; [now apply sqrt_nz|reflexivity].
  - cbn [valid]. rewrite GV. split; [exact G0|reflexivity].
  - cbn [valid eval]. rewrite GV. split; [now apply sqrt_nz|reflexivity].
Qed.
Lemma PPP_c : col_ok a_PPP cppp (f_PPP cppp) 9 8 (at_12 z0 (detail_pppV0V1 expr ERoot dv) cppp) = true. Proof. now vm_compute. Qed.
Lemma PPP_b : blank_ok 12 9 [4; 8]%nat (at_12 z0 (detail_pppV0V1 expr ERoot dv) cppp) = true. Proof. now vm_compute. Qed.
Lemma PPP_mv : map (eval l_PPP) (at_12 z0 (detail_pppV0V1 expr ERoot dv) cppp) = pFpx_ppp x0 x1 x2 x3 dHat.
Proof. rewrite PPP_m, PPP_x0. reflexivity. Qed.
Lemma PPP_distance : is_gradient (fun t => dist_pp (moved x0 d0 t) (moved x1 d1 t) / dHat) (column 9 8 (pFpx_ppp x0 x1 x2 x3 dHat)) (coords [d0; d1; d2; d3]).
Proof.
  assert (S : forall t, (along l_PPP t) 27%positive = dHat) by reflexivity.
  pose proof (PPP_valid) as V.
  pose proof (gradient_of_column l_PPP a_PPP cppp 9 8 V (f_PPP cppp) _ _ PPP_mv PPP_c) as Q.
  rewrite PPP_d in Q. revert Q. apply is_gradient_ext; [|reflexivity|reflexivity].
  intros t. rewrite PPP_f, PPP_x, S. reflexivity.
Qed.
Lemma PPP_blank : only_columns 12 9 [4; 8]%nat (pFpx_ppp x0 x1 x2 x3 dHat).
Proof. rewrite <- PPP_mv. apply blank_by_check. exact PPP_b. Qed.
Lemma PPP_c4 : col_ok a_PPP cppp (ERoot (at_12 z0 (cn_ppp expr) cppp)) 9 4 (at_12 z0 (detail_pppV0V1 expr ERoot dv) cppp) = true. Proof. now vm_compute. Qed.
Lemma PPP_area : is_gradient (fun t => area (vsub (moved x2 d2 t) (moved x0 d0 t)) (vsub (moved x3 d3 t) (moved x1 d1 t))) (column 9 4 (pFpx_ppp x0 x1 x2 x3 dHat)) (coords [d0; d1; d2; d3]).
Proof.
  pose proof (PPP_valid) as V.
  pose proof (gradient_of_column l_PPP a_PPP cppp 9 4 V (ERoot (at_12 z0 (cn_ppp expr) cppp)) _ _ PPP_mv PPP_c4) as Q.
  rewrite PPP_d in Q. revert Q. apply is_gradient_ext; [|reflexivity|reflexivity].
  intros t. rewrite PPP_gr, PPP_x. reflexivity.
Qed.
End S_PPP.
Section S_PPE.
Variables (x0 x1 x2 x3 d0 d1 d2 d3 : v3) (dHat : R).
Hypothesis (Hd : dHat <> 0) (Hf : 0 < dist_pe x0 x1 x2).
Hypothesis (HD : x1 <> x2).
Hypothesis (Hg : cross (vsub x3 x0) (vsub x2 x1) <> zero).
Definition l_PPE : positive -> R := env 0
  [vx x0; vy x0; vz x0; vx x1 - vx x0; vy x1 - vy x0; vz x1 - vz x0; vx x2 - vx x1; vy x2 - vy x1; vz x2 - vz x1; vx x3 - vx x0; vy x3 - vy x0; vz x3 - vz x0]
  [vx d0; vy d0; vz d0; vx d1 - vx d0; vy d1 - vy d0; vz d1 - vz d0; vx d2 - vx d1; vy d2 - vy d1; vz d2 - vz d1; vx d3 - vx d0; vy d3 - vy d0; vz d3 - vz d0;
   dHat; / 2; / dHat; / (norm_sqr (vsub x2 x1)); sqrt (dist2_pe3 x0 x1 x2); / sqrt (dist2_pe3 x0 x1 x2); sqrt (norm_sqr (cross (vsub x3 x0) (vsub x2 x1))); / sqrt (norm_sqr (cross (vsub x3 x0) (vsub x2 x1)))].
Definition a_PPE : list atom := base ++ [AInv e3 33] ++ with_root (at_12 z0 (pe' expr) cppe) 35 37 ++ with_root (at_12 z0 (cn_ppe expr) cppe) 39 41.
Lemma PPE_x t : map (eval (along l_PPE t)) cppe = coords [moved x0 d0 t; moved x1 d1 t; moved x2 d2 t; moved x3 d3 t].
Proof. coordinates. Qed.
Lemma PPE_x0 : map (eval l_PPE) cppe = coords [x0; x1; x2; x3].
Proof. coordinates. Qed.
Lemma PPE_d : map (eval l_PPE) (map DgProofs.dd cppe) = coords [d0; d1; d2; d3].
Proof. coordinates. Qed.
Definition f_PPE (l : list ex) : ex := quot expr (ERoot (at_12 z0 (pe' expr) l)) dv.
Lemma PPE_f l' : eval l' (f_PPE cppe) = sqrt (at_12 0 (pe' real) (map (eval l') cppe)) / l' 27%positive.
Proof. vm_cast_no_check (eq_refl (eval l' (f_PPE cppe))). Qed.
Lemma PPE_m l' : map (eval l') (at_12 z0 (detail_ppeV0V1 expr ERoot dv) cppe) = at_12 0 (detail_ppeV0V1 real sqrt (l' 27%positive)) (map (eval l') cppe).
Proof. vm_cast_no_check (eq_refl (map (eval l') (at_12 z0 (detail_ppeV0V1 expr ERoot dv) cppe))). Qed.
Lemma PPE_r l' : eval l' (at_12 z0 (pe' expr) cppe) = at_12 0 (pe' real) (map (eval l') cppe).
Proof. vm_cast_no_check (eq_refl (eval l' (at_12 z0 (pe' expr) cppe))). Qed.
Lemma PPE_rv : eval l_PPE (at_12 z0 (pe' expr) cppe) = dist2_pe3 x0 x1 x2.
Proof. rewrite PPE_r, PPE_x0. reflexivity. Qed.
Lemma PPE_g l' : eval l' (at_12 z0 (cn_ppe expr) cppe) = at_12 0 (cn_ppe real) (map (eval l') cppe).
Proof. vm_cast_no_check (eq_refl (eval l' (at_12 z0 (cn_ppe expr) cppe))). Qed.
Lemma PPE_gr l' : eval l' (ERoot (at_12 z0 (cn_ppe expr) cppe)) = sqrt (at_12 0 (cn_ppe real) (map (eval l') cppe)).
Proof. vm_cast_no_check (eq_refl (eval l' (ERoot (at_12 z0 (cn_ppe expr) cppe)))). Qed.
Lemma PPE_gv : eval l_PPE (at_12 z0 (cn_ppe expr) cppe) = norm_sqr (cross (vsub x3 x0) (vsub x2 x1)).
Proof. rewrite PPE_g, PPE_x0. reflexivity. Qed.
Lemma PPE_D : eval l_PPE e3 = norm_sqr (vsub x2 x1).
Proof. cbv -[Rplus Rmult Rminus Rinv Ropp IZR ux uy vx vy vz]. reflexivity. Qed.
Lemma PPE_valid : Forall (valid l_PPE) a_PPE.
Proof.
  pose proof PPE_rv as RV. pose proof (sqrt_pos_inv _ Hf) as Hf'.
  pose proof PPE_gv as GV. pose proof (norm_sqr_pos _ Hg) as G0.
  unfold a_PPE, with_root. cbn [app base]. repeat apply Forall_cons; [..|apply Forall_nil].
  - split; [exact Hd|reflexivity].
  - cbn [valid]. rewrite PPE_D. split; [apply norm_sqr_nz; now apply vsub_nz|reflexivity].
  - cbn [valid]. rewrite RV. split; [exact Hf'|reflexivity].
  - cbn [valid eval]. rewrite RV. split; [now apply sqrt_nz|reflexivity].
  - cbn [valid]. rewrite GV. split; [exact G0|reflexivity].
  - cbn [valid eval]. rewrite GV. split; [now apply sqrt_nz|reflexivity].
Qed.
Lemma PPE_c : col_ok a_PPE cppe (f_PPE cppe) 9 8 (at_12 z0 (detail_ppeV0V1 expr ERoot dv) cppe) = true. Proof. now vm_compute. Qed.
Lemma PPE_b : blank_ok 12 9 [4; 8]%nat (at_12 z0 (detail_ppeV0V1 expr ERoot dv) cppe) = true. Proof. now vm_compute. Qed.
Lemma PPE_mv : map (eval l_PPE) (at_12 z0 (detail_ppeV0V1 expr ERoot dv) cppe) = pFpx_ppe x0 x1 x2 x3 dHat.
Proof. rewrite PPE_m, PPE_x0. reflexivity. Qed.
Lemma PPE_distance : is_gradient (fun t => dist_pe (moved x0 d0 t) (moved x1 d1 t) (moved x2 d2 t) / dHat) (column 9 8 (pFpx_ppe x0 x1 x2 x3 dHat)) (coords [d0; d1; d2; d3]).
Proof.
  assert (S : forall t, (along l_PPE t) 27%positive = dHat) by reflexivity.
  pose proof (PPE_valid) as V.
  pose proof (gradient_of_column l_PPE a_PPE cppe 9 8 V (f_PPE cppe) _ _ PPE_mv PPE_c) as Q.
  rewrite PPE_d in Q. revert Q. apply is_gradient_ext; [|reflexivity|reflexivity].
  intros t. rewrite PPE_f, PPE_x, S. reflexivity.
Qed.
Lemma PPE_blank : only_columns 12 9 [4; 8]%nat (pFpx_ppe x0 x1 x2 x3 dHat).
Proof. rewrite <- PPE_mv. apply blank_by_check. exact PPE_b. Qed.
Lemma PPE_c4 : col_ok a_PPE cppe (ERoot (at_12 z0 (cn_ppe expr) cppe)) 9 4 (at_12 z0 (detail_ppeV0V1 expr ERoot dv) cppe) = true. Proof. now vm_compute. Qed.
Lemma PPE_area : is_gradient (fun t => area (vsub (moved x3 d3 t) (moved x0 d0 t)) (vsub (moved x2 d2 t) (moved x1 d1 t))) (column 9 4 (pFpx_ppe x0 x1 x2 x3 dHat)) (coords [d0; d1; d2; d3]).
Proof.
  pose proof (PPE_valid) as V.
  pose proof (gradient_of_column l_PPE a_PPE cppe 9 4 V (ERoot (at_12 z0 (cn_ppe expr) cppe)) _ _ PPE_mv PPE_c4) as Q.
  rewrite PPE_d in Q. revert Q. apply is_gradient_ext; [|reflexivity|reflexivity].
  intros t. rewrite PPE_gr, PPE_x. reflexivity.
Qed.
End S_PPE.
Section S_PEE.
Variables (x0 x1 x2 x3 d0 d1 d2 d3 : v3) (dHat : R).
Hypothesis (Hd : dHat <> 0) (Hf : 0 < dist_ee x0 x1 x2 x3).
Hypothesis (HD : cross (vsub x1 x0) (vsub x3 x2) <> zero).
Definition l_PEE : positive -> R := env 0
  [vx x0; vy x0; vz x0; vx x1 - vx x0; vy x1 - vy x0; vz x1 - vz x0; vx x2 - vx x0; vy x2 - vy x0; vz x2 - vz x0; vx x3 - vx x2; vy x3 - vy x2; vz x3 - vz x2]
  [vx d0; vy d0; vz d0; vx d1 - vx d0; vy d1 - vy d0; vz d1 - vz d0; vx d2 - vx d0; vy d2 - vy d0; vz d2 - vz d0; vx d3 - vx d2; vy d3 - vy d2; vz d3 - vz d2;
   dHat; / 2; / dHat; / (norm_sqr (cross (vsub x1 x0) (vsub x3 x2))); sqrt (dist2_ee x0 x1 x2 x3); / sqrt (dist2_ee x0 x1 x2 x3); sqrt (norm_sqr (cross (vsub x1 x0) (vsub x3 x2))); / sqrt (norm_sqr (cross (vsub x1 x0) (vsub x3 x2)))].
Definition a_PEE : list atom := base ++ [AInv ee_n 33] ++ with_root (at_12 z0 (ee expr) ce) 35 37 ++ with_root (at_12 z0 (cn2 expr) ce) 39 41.
Lemma PEE_x t : map (eval (along l_PEE t)) ce = coords [moved x0 d0 t; moved x1 d1 t; moved x2 d2 t; moved x3 d3 t].
Proof. coordinates. Qed.
Lemma PEE_x0 : map (eval l_PEE) ce = coords [x0; x1; x2; x3].
Proof. coordinates. Qed.
Lemma PEE_d : map (eval l_PEE) (map DgProofs.dd ce) = coords [d0; d1; d2; d3].
Proof. coordinates. Qed.
Definition f_PEE (l : list ex) : ex := quot expr (ERoot (at_12 z0 (ee expr) l)) dv.
Lemma PEE_f l' : eval l' (f_PEE ce) = sqrt (at_12 0 (ee real) (map (eval l') ce)) / l' 27%positive.
Proof. vm_cast_no_check (eq_refl (eval l' (f_PEE ce))). Qed.
Lemma PEE_m l' : map (eval l') (at_12 z0 (detail_peeV0V1 expr ERoot dv) ce) = at_12 0 (detail_peeV0V1 real sqrt (l' 27%positive)) (map (eval l') ce).
Proof. vm_cast_no_check (eq_refl (map (eval l') (at_12 z0 (detail_peeV0V1 expr ERoot dv) ce))). Qed.
Lemma PEE_r l' : eval l' (at_12 z0 (ee expr) ce) = at_12 0 (ee real) (map (eval l') ce).
Proof. vm_cast_no_check (eq_refl (eval l' (at_12 z0 (ee expr) ce))). Qed.
Lemma PEE_rv : eval l_PEE (at_12 z0 (ee expr) ce) = dist2_ee x0 x1 x2 x3.
Proof. rewrite PEE_r, PEE_x0. reflexivity. Qed.
Lemma PEE_g l' : eval l' (at_12 z0 (cn2 expr) ce) = at_12 0 (cn2 real) (map (eval l') ce).
Proof. vm_cast_no_check (eq_refl (eval l' (at_12 z0 (cn2 expr) ce))). Qed.
Lemma PEE_gr l' : eval l' (ERoot (at_12 z0 (cn2 expr) ce)) = sqrt (at_12 0 (cn2 real) (map (eval l') ce)).
Proof. vm_cast_no_check (eq_refl (eval l' (ERoot (at_12 z0 (cn2 expr) ce)))). Qed.
Lemma PEE_gv : eval l_PEE (at_12 z0 (cn2 expr) ce) = norm_sqr (cross (vsub x1 x0) (vsub x3 x2)).
Proof. rewrite PEE_g, PEE_x0. reflexivity. Qed.
Lemma PEE_D : eval l_PEE ee_n = norm_sqr (cross (vsub x1 x0) (vsub x3 x2)).
Proof. cbv -[Rplus Rmult Rminus Rinv Ropp IZR ux uy vx vy vz]. reflexivity. Qed.
Lemma PEE_valid : Forall (valid l_PEE) a_PEE.
Proof.
  pose proof PEE_rv as RV. pose proof (sqrt_pos_inv _ Hf) as Hf'.
  pose proof PEE_gv as GV. pose proof (norm_sqr_pos _ HD) as G0.
  unfold a_PEE, with_root. cbn [app base]. repeat apply Forall_cons; [..|apply Forall_nil].
  - split; [exact Hd|reflexivity].
  - cbn [valid]. rewrite PEE_D. split; [now apply norm_sqr_nz|reflexivity].
  - cbn [valid]. rewrite RV. split; [exact Hf'|reflexivity].
  - cbn [valid eval]. rewrite RV. split; [now apply sqrt_nz|reflexivity].
  - cbn [valid]. rewrite GV. split; [exact G0|reflexivity].
  - cbn [valid eval]. rewrite GV. split; [now apply sqrt_nz|reflexivity].
Qed.
Lemma PEE_c : col_ok a_PEE ce (f_PEE ce) 9 8 (at_12 z0 (detail_peeV0V1 expr ERoot dv) ce) = true. Proof. now vm_compute. Qed.
Lemma PEE_b : blank_ok 12 9 [4; 8]%nat (at_12 z0 (detail_peeV0V1 expr ERoot dv) ce) = true. Proof. now vm_compute. Qed.
Lemma PEE_mv : map (eval l_PEE) (at_12 z0 (detail_peeV0V1 expr ERoot dv) ce) = pFpx_pee x0 x1 x2 x3 dHat.
Proof. rewrite PEE_m, PEE_x0. reflexivity. Qed.
Lemma PEE_distance : is_gradient (fun t => dist_ee (moved x0 d0 t) (moved x1 d1 t) (moved x2 d2 t) (moved x3 d3 t) / dHat) (column 9 8 (pFpx_pee x0 x1 x2 x3 dHat)) (coords [d0; d1; d2; d3]).
Proof.
  assert (S : forall t, (along l_PEE t) 27%positive = dHat) by reflexivity.
  pose proof (PEE_valid) as V.
  pose proof (gradient_of_column l_PEE a_PEE ce 9 8 V (f_PEE ce) _ _ PEE_mv PEE_c) as Q.
  rewrite PEE_d in Q. revert Q. apply is_gradient_ext; [|reflexivity|reflexivity].
  intros t. rewrite PEE_f, PEE_x, S. reflexivity.
Qed.
Lemma PEE_blank : only_columns 12 9 [4; 8]%nat (pFpx_pee x0 x1 x2 x3 dHat).
Proof. rewrite <- PEE_mv. apply blank_by_check. exact PEE_b. Qed.
Lemma PEE_c4 : col_ok a_PEE ce (ERoot (at_12 z0 (cn2 expr) ce)) 9 4 (at_12 z0 (detail_peeV0V1 expr ERoot dv) ce) = true. Proof. now vm_compute. Qed.
Lemma PEE_area : is_gradient (fun t => area (vsub (moved x1 d1 t) (moved x0 d0 t)) (vsub (moved x3 d3 t) (moved x2 d2 t))) (column 9 4 (pFpx_pee x0 x1 x2 x3 dHat)) (coords [d0; d1; d2; d3]).
Proof.
  pose proof (PEE_valid) as V.
  pose proof (gradient_of_column l_PEE a_PEE ce 9 4 V (ERoot (at_12 z0 (cn2 expr) ce)) _ _ PEE_mv PEE_c4) as Q.
  rewrite PEE_d in Q. revert Q. apply is_gradient_ext; [|reflexivity|reflexivity].
  intros t. rewrite PEE_gr, PEE_x. reflexivity.
Qed.
End S_PEE.
Section S_EE2.
Variables (x0 x1 x2 x3 d0 d1 d2 d3 : v3) (dHat : R).
Hypothesis (Hd : dHat <> 0) (Hf : 0 < dist_ee x0 x1 x2 x3).
Hypothesis (HD : cross (vsub x1 x0) (vsub x3 x2) <> zero).
Definition l_EE2 : positive -> R := env 0
  [vx x0; vy x0; vz x0; vx x1 - vx x0; vy x1 - vy x0; vz x1 - vz x0; vx x2 - vx x0; vy x2 - vy x0; vz x2 - vz x0; vx x3 - vx x2; vy x3 - vy x2; vz x3 - vz x2]
  [vx d0; vy d0; vz d0; vx d1 - vx d0; vy d1 - vy d0; vz d1 - vz d0; vx d2 - vx d0; vy d2 - vy d0; vz d2 - vz d0; vx d3 - vx d2; vy d3 - vy d2; vz d3 - vz d2;
   dHat; / 2; / dHat; / (norm_sqr (cross (vsub x1 x0) (vsub x3 x2))); sqrt (dist2_ee x0 x1 x2 x3); / sqrt (dist2_ee x0 x1 x2 x3); sqrt (1); / sqrt (1)].
Definition a_EE2 : list atom := base ++ [AInv ee_n 33] ++ with_root (at_12 z0 (ee expr) ce) 35 37.
Lemma EE2_x t : map (eval (along l_EE2 t)) ce = coords [moved x0 d0 t; moved x1 d1 t; moved x2 d2 t; moved x3 d3 t].
Proof. coordinates. Qed.
Lemma EE2_x0 : map (eval l_EE2) ce = coords [x0; x1; x2; x3].
Proof. coordinates. Qed.
Lemma EE2_d : map (eval l_EE2) (map DgProofs.dd ce) = coords [d0; d1; d2; d3].
Proof. coordinates. Qed.
Definition f_EE2 (l : list ex) : ex := quot expr (ERoot (at_12 z0 (ee expr) l)) dv.
Lemma EE2_f l' : eval l' (f_EE2 ce) = sqrt (at_12 0 (ee real) (map (eval l') ce)) / l' 27%positive.
Proof. vm_cast_no_check (eq_refl (eval l' (f_EE2 ce))). Qed.
Lemma EE2_m l' : map (eval l') (at_12 z0 (detail_ee2 expr ERoot dv) ce) = at_12 0 (detail_ee2 real sqrt (l' 27%positive)) (map (eval l') ce).
Proof. vm_cast_no_check (eq_refl (map (eval l') (at_12 z0 (detail_ee2 expr ERoot dv) ce))). Qed.
Lemma EE2_r l' : eval l' (at_12 z0 (ee expr) ce) = at_12 0 (ee real) (map (eval l') ce).
Proof. vm_cast_no_check (eq_refl (eval l' (at_12 z0 (ee expr) ce))). Qed.
Lemma EE2_rv : eval l_EE2 (at_12 z0 (ee expr) ce) = dist2_ee x0 x1 x2 x3.
Proof. rewrite EE2_r, EE2_x0. reflexivity. Qed.
Lemma EE2_D : eval l_EE2 ee_n = norm_sqr (cross (vsub x1 x0) (vsub x3 x2)).
Proof. cbv -[Rplus Rmult Rminus Rinv Ropp IZR ux uy vx vy vz]. reflexivity. Qed.
Lemma EE2_valid : Forall (valid l_EE2) a_EE2.
Proof.
  pose proof EE2_rv as RV. pose proof (sqrt_pos_inv _ Hf) as Hf'.
  unfold a_EE2, with_root. cbn [app base]. repeat apply Forall_cons; [..|apply Forall_nil].
  - split; [exact Hd|reflexivity].
  - cbn [valid]. rewrite EE2_D. split; [now apply norm_sqr_nz|reflexivity].
  - cbn [valid]. rewrite RV. split; [exact Hf'|reflexivity].
  - cbn [valid eval]. rewrite RV. split; [now apply sqrt_nz|reflexivity].
Qed.
Lemma EE2_c : col_ok a_EE2 ce (f_EE2 ce) 9 8 (at_12 z0 (detail_ee2 expr ERoot dv) ce) = true. Proof. now vm_compute. Qed.
Lemma EE2_b : blank_ok 12 9 [8]%nat (at_12 z0 (detail_ee2 expr ERoot dv) ce) = true. Proof. now vm_compute. Qed.
Lemma EE2_mv : map (eval l_EE2) (at_12 z0 (detail_ee2 expr ERoot dv) ce) = pFpx_ee2 x0 x1 x2 x3 dHat.
Proof. rewrite EE2_m, EE2_x0. reflexivity. Qed.
Lemma EE2_distance : is_gradient (fun t => dist_ee (moved x0 d0 t) (moved x1 d1 t) (moved x2 d2 t) (moved x3 d3 t) / dHat) (column 9 8 (pFpx_ee2 x0 x1 x2 x3 dHat)) (coords [d0; d1; d2; d3]).
Proof.
  assert (S : forall t, (along l_EE2 t) 27%positive = dHat) by reflexivity.
  pose proof (EE2_valid) as V.
  pose proof (gradient_of_column l_EE2 a_EE2 ce 9 8 V (f_EE2 ce) _ _ EE2_mv EE2_c) as Q.
  rewrite EE2_d in Q. revert Q. apply is_gradient_ext; [|reflexivity|reflexivity].
  intros t. rewrite EE2_f, EE2_x, S. reflexivity.
Qed.
Lemma EE2_blank : only_columns 12 9 [8]%nat (pFpx_ee2 x0 x1 x2 x3 dHat).
Proof. rewrite <- EE2_mv. apply blank_by_check. exact EE2_b. Qed.
End S_EE2.
Section S_PT2.
Variables (x0 x1 x2 x3 d0 d1 d2 d3 : v3) (dHat : R).
Hypothesis (Hd : dHat <> 0) (Hf : 0 < dist_pt x0 x1 x2 x3).
Hypothesis (HD : cross (vsub x2 x1) (vsub x3 x1) <> zero).
Definition l_PT2 : positive -> R := env 0
  [vx x0; vy x0; vz x0; vx x1 - vx x0; vy x1 - vy x0; vz x1 - vz x0; vx x2 - vx x1; vy x2 - vy x1; vz x2 - vz x1; vx x3 - vx x1; vy x3 - vy x1; vz x3 - vz x1]
  [vx d0; vy d0; vz d0; vx d1 - vx d0; vy d1 - vy d0; vz d1 - vz d0; vx d2 - vx d1; vy d2 - vy d1; vz d2 - vz d1; vx d3 - vx d1; vy d3 - vy d1; vz d3 - vz d1;
   dHat; / 2; / dHat; / (norm_sqr (cross (vsub x2 x1) (vsub x3 x1))); sqrt (dist2_pt x0 x1 x2 x3); / sqrt (dist2_pt x0 x1 x2 x3); sqrt (1); / sqrt (1)].
Definition a_PT2 : list atom := base ++ [AInv pt_n 33] ++ with_root (at_12 z0 (pt expr) ct) 35 37.
Lemma PT2_x t : map (eval (along l_PT2 t)) ct = coords [moved x0 d0 t; moved x1 d1 t; moved x2 d2 t; moved x3 d3 t].
Proof. coordinates. Qed.
Lemma PT2_x0 : map (eval l_PT2) ct = coords [x0; x1; x2; x3].
Proof. coordinates. Qed.
Lemma PT2_d : map (eval l_PT2) (map DgProofs.dd ct) = coords [d0; d1; d2; d3].
Proof. coordinates. Qed.
Definition f_PT2 (l : list ex) : ex := quot expr (ERoot (at_12 z0 (pt expr) l)) dv.
Lemma PT2_f l' : eval l' (f_PT2 ct) = sqrt (at_12 0 (pt real) (map (eval l') ct)) / l' 27%positive.
Proof. vm_cast_no_check (eq_refl (eval l' (f_PT2 ct))). Qed.
Lemma PT2_m l' : map (eval l') (at_12 z0 (detail_pt2 expr ERoot dv) ct) = at_12 0 (detail_pt2 real sqrt (l' 27%positive)) (map (eval l') ct).
Proof. vm_cast_no_check (eq_refl (map (eval l') (at_12 z0 (detail_pt2 expr ERoot dv) ct))). Qed.
Lemma PT2_r l' : eval l' (at_12 z0 (pt expr) ct) = at_12 0 (pt real) (map (eval l') ct).
Proof. vm_cast_no_check (eq_refl (eval l' (at_12 z0 (pt expr) ct))). Qed.
Lemma PT2_rv : eval l_PT2 (at_12 z0 (pt expr) ct) = dist2_pt x0 x1 x2 x3.
Proof. rewrite PT2_r, PT2_x0. reflexivity. Qed.
Lemma PT2_D : eval l_PT2 pt_n = norm_sqr (cross (vsub x2 x1) (vsub x3 x1)).
Proof. cbv -[Rplus Rmult Rminus Rinv Ropp IZR ux uy vx vy vz]. reflexivity. Qed.
Lemma PT2_valid : Forall (valid l_PT2) a_PT2.
Proof.
  pose proof PT2_rv as RV. pose proof (sqrt_pos_inv _ Hf) as Hf'.
  unfold a_PT2, with_root. cbn [app base]. repeat apply Forall_cons; [..|apply Forall_nil].
  - split; [exact Hd|reflexivity].
  - cbn [valid]. rewrite PT2_D. split; [now apply norm_sqr_nz|reflexivity].
  - cbn [valid]. rewrite RV. split; [exact Hf'|reflexivity].
  - cbn [valid eval]. rewrite RV. split; [now apply sqrt_nz|reflexivity].
Qed.
Lemma PT2_c : col_ok a_PT2 ct (f_PT2 ct) 9 8 (at_12 z0 (detail_pt2 expr ERoot dv) ct) = true. Proof. now vm_compute. Qed.
Lemma PT2_b : blank_ok 12 9 [8]%nat (at_12 z0 (detail_pt2 expr ERoot dv) ct) = true. Proof. now vm_compute. Qed.
Lemma PT2_mv : map (eval l_PT2) (at_12 z0 (detail_pt2 expr ERoot dv) ct) = pFpx_pt2 x0 x1 x2 x3 dHat.
Proof. rewrite PT2_m, PT2_x0. reflexivity. Qed.
Lemma PT2_distance : is_gradient (fun t => dist_pt (moved x0 d0 t) (moved x1 d1 t) (moved x2 d2 t) (moved x3 d3 t) / dHat) (column 9 8 (pFpx_pt2 x0 x1 x2 x3 dHat)) (coords [d0; d1; d2; d3]).
Proof.
  assert (S : forall t, (along l_PT2 t) 27%positive = dHat) by reflexivity.
  pose proof (PT2_valid) as V.
  pose proof (gradient_of_column l_PT2 a_PT2 ct 9 8 V (f_PT2 ct) _ _ PT2_mv PT2_c) as Q.
  rewrite PT2_d in Q. revert Q. apply is_gradient_ext; [|reflexivity|reflexivity].
  intros t. rewrite PT2_f, PT2_x, S. reflexivity.
Qed.
Lemma PT2_blank : only_columns 12 9 [8]%nat (pFpx_pt2 x0 x1 x2 x3 dHat).
Proof. rewrite <- PT2_mv. apply blank_by_check. exact PT2_b. Qed.
End S_PT2.
