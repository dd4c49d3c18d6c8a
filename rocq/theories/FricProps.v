(* C88: smoothed friction. *)
From Coq Require Import Reals List Lra Lia Psatz.
From Verif Require Import FricModel FricSpec FricProofs.
Import ListNotations.
Local Open Scope R_scope.

(* The potential f0 of the sliding length y is differentiable everywhere with derivative f1 * y. That derivative,
   the magnitude of the friction, grows from 0 to 1, which it reaches at epsvh; f0 is y from there on
   and exceeds it by at most epsvh / 3 before. *)
Theorem C88_potential eps y : 0 < eps -> 0 <= y ->
  derivable_pt_lim (fun t => f0_SF (t * t) eps) y (f1_SF (y * y) eps * y) /\
  0 <= f1_SF (y * y) eps * y <= 1 /\ (eps <= y <-> f1_SF (y * y) eps * y = 1) /\
  (forall z, y <= z -> f1_SF (y * y) eps * y <= f1_SF (z * z) eps * z) /\
  (eps <= y -> f0_SF (y * y) eps = y) /\ y <= f0_SF (y * y) eps <= y + eps / 3.
Proof.
  intros He Hy. assert (E2 : 0 < eps * eps) by nra.
  assert (F : forall z, 0 <= z -> f1_SF (z * z) eps * z = if Rle_dec eps z then 1 else 1 - (1 - z / eps) * (1 - z / eps)).
  { intros z Hz. unfold f1_SF. rewrite (sqrt_square z Hz). destruct (Rle_dec (eps * eps) (z * z)) as [A|A], (Rle_dec eps z) as [B|B].
    - field. lra.
    - exfalso. nra.
    - exfalso. nra.
    - field. lra. }
  assert (Q : forall z, 0 <= z -> z < eps -> 0 <= z / eps < 1).
  { intros z Hz L. split; [apply Rmult_le_pos; [lra|left; now apply Rinv_0_lt_compat]|]. apply (Rmult_lt_reg_r eps); [lra|]. field_simplify; lra. }
  split; [|split; [|split; [|split; [|split]]]].
  - apply (dext _ (comp (fun x => f0_SF x eps) (fun t => t * t)) _ _ (f1_SF (y * y) eps / 2 * (1 * y + y * 1))); [reflexivity|field|].
    apply derivable_pt_lim_comp; [|apply (d_f0 eps (y * y) He); nra].
    apply (derivable_pt_lim_mult (fun t => t) (fun t => t)); apply derivable_pt_lim_id.
  - rewrite (F y Hy). destruct (Rle_dec eps y); [lra|]. pose proof (Q y Hy ltac:(lra)). nra.
  - rewrite (F y Hy). destruct (Rle_dec eps y); [tauto|]. pose proof (Q y Hy ltac:(lra)). split; [lra|nra].
  - intros z Hz. rewrite (F y Hy), (F z) by lra. destruct (Rle_dec eps y), (Rle_dec eps z); try lra.
    + pose proof (Q y Hy ltac:(lra)). nra.
    + pose proof (Q y Hy ltac:(lra)). pose proof (Q z ltac:(lra) ltac:(lra)).
      assert (y / eps <= z / eps) by (apply Rmult_le_compat_r; [left; now apply Rinv_0_lt_compat|lra]). nra.
  - intros L. unfold f0_SF. destruct (Rle_dec _ _); [now apply sqrt_square|nra].
  - unfold f0_SF. rewrite (sqrt_square y Hy). destruct (Rle_dec _ _) as [A|A]; [lra|].
    assert (L : y < eps) by nra. pose proof (Q y Hy L) as K.
    replace (y * y * (- y / 3 + eps) / (eps * eps) + eps / 3) with (y + eps * ((1 - y / eps) * (1 - y / eps) * (1 - y / eps)) / 3) by (field; lra).
    assert (0 <= (1 - y / eps) * (1 - y / eps) * (1 - y / eps) <= 1) by (split; [repeat apply Rmult_le_pos; lra|nra]). nra.
Qed.
(* Inside the threshold, f2_SF_term is the derivative of f1, so that the derivative of the friction f1(|u|^2) u
   in direction d is f1 d + f2 (u . d) / |u| u. *)
Theorem C88_stiffness eps u d : 0 < eps -> 0 < len_sqr u < eps * eps ->
  let f t := f1_SF (len_sqr (fst u + t * fst d, snd u + t * snd d)) eps in
  let k := f2_SF (len_sqr u) eps * (fst u * fst d + snd u * snd d) / sqrt (len_sqr u) in
  derivable_pt_lim (fun t => f t * (fst u + t * fst d)) 0 (f1_SF (len_sqr u) eps * fst d + k * fst u) /\
  derivable_pt_lim (fun t => f t * (snd u + t * snd d)) 0 (f1_SF (len_sqr u) eps * snd d + k * snd u).
Proof.
  intros He [Hu Hu'] f k. assert (S : 0 < sqrt (len_sqr u)) by now apply sqrt_lt_R0.
  assert (E2 : 0 < eps * eps) by nra.
  set (L := fun t => len_sqr u + (2 * (fst u * fst d + snd u * snd d)) * t + len_sqr d * (t * t)).
  assert (LE : forall t, len_sqr (fst u + t * fst d, snd u + t * snd d) = L t) by (intros t; unfold L, len_sqr; cbn [fst snd]; ring).
  assert (L0 : L 0 = len_sqr u) by (unfold L; ring).
  assert (G : derivable_pt_lim (fun x => f1_SF x eps) (len_sqr u) (- (/ (2 * sqrt (len_sqr u))) / (eps * eps))).
  { apply (near _ (fun x => - (1 / (eps * eps)) * sqrt x + 2 / eps) _ _ (eps * eps - len_sqr u)); [lra| |].
    - intros x Hx. apply Rabs_def2 in Hx. unfold f1_SF. destruct (Rle_dec _ _); [lra|]. field. lra.
    - eapply dext; [reflexivity| |apply (derivable_pt_lim_plus (fun x => - (1 / (eps * eps)) * sqrt x) (fun _ => 2 / eps));
        [apply (derivable_pt_lim_scal sqrt); now apply derivable_pt_lim_sqrt|apply derivable_pt_lim_const]].
      field. lra. }
  assert (F : derivable_pt_lim f 0 k).
  { apply (dext _ (comp (fun x => f1_SF x eps) L) _ _ (- (/ (2 * sqrt (len_sqr u))) / (eps * eps) * (2 * (fst u * fst d + snd u * snd d)))).
    - intros t. unfold f, comp. now rewrite LE.
    - unfold k, f2_SF. field. lra.
    - apply derivable_pt_lim_comp; [apply d_quadratic|]. now rewrite L0. }
  assert (f0' : f 0 = f1_SF (len_sqr u) eps) by (unfold f; now rewrite LE, L0).
  assert (P : forall a b, derivable_pt_lim (fun t => f t * (a + t * b)) 0 (f1_SF (len_sqr u) eps * b + k * a)).
  { intros a b. eapply dext; [reflexivity| |apply (derivable_pt_lim_mult f (fun t => a + t * b)); [exact F|]].
    2: apply (dext _ (fun t => a + b * t + 0 * (t * t)) _ _ b); [intros; ring|reflexivity|apply d_quadratic].
    rewrite f0'. ring. }
  split; apply P.
Qed.
(* The comment in f2_SF_term claims the same beyond the threshold; there the derivative of f1 is another. *)
Theorem C88_stiffness_sliding_refuted eps y : 0 < eps -> eps < y ->
  derivable_pt_lim (fun t => f1_SF (t * t) eps) y (-1 / (y * y)) /\ -1 / (y * y) <> f2_SF (y * y) eps.
Proof.
  intros He Hy. split.
  - apply (near _ (fun t => 1 / t) y _ (y - eps)); [lra| |].
    + intros x Hx. apply Rabs_def2 in Hx. unfold f1_SF. destruct (Rle_dec _ _); [|nra]. now rewrite sqrt_square by lra.
    + eapply dext; [reflexivity| |apply (derivable_pt_lim_div (fun _ => 1) (fun t => t) y 0 1); [apply derivable_pt_lim_const|apply derivable_pt_lim_id|lra]].
      unfold Rsqr. field. lra.
  - unfold f2_SF. intros E. assert (H : y * y = eps * eps).
    { apply (Rmult_eq_compat_r (y * y * (eps * eps))) in E.
      replace (-1 / (y * y) * (y * y * (eps * eps))) with (- (eps * eps)) in E by (field; lra).
      replace (-1 / (eps * eps) * (y * y * (eps * eps))) with (- (y * y)) in E by (field; lra). lra. }
    nra.
Qed.
Example C88_values : f1_SF (1 * 1) 2 * 1 = 3 / 4 /\ f1_SF (3 * 3) 2 * 3 = 1 /\ f0_SF 0 3 = 1.
Proof.
  unfold f1_SF, f0_SF. repeat destruct (Rle_dec _ _); try lra. rewrite sqrt_0, !sqrt_square by lra. repeat split; field.
Qed.

(* Closest points: the returned coordinates minimise the distance over the whole line, plane or pair of lines. *)
Theorem C88_closest_edge p a b t : a <> b ->
  dist_sqr p (on_line a b (pe_closest p a b)) <= dist_sqr p (on_line a b t).
Proof.
  intros H. set (e := vsub b a). set (d := vsub p a).
  assert (E : e <> zero).
  { intros C. apply H. destruct a, b. unfold e, vsub, zero in C. cbn in C. injection C as C1 C2 C3. f_equal; lra. }
  assert (K : forall s, dist_sqr p (on_line a b s) = norm_sqr (vadd d (vadd (scal (- s) e) (scal 0 zero)))).
  { intros s. unfold dist_sqr, on_line, d, e, norm_sqr, dot, vadd, vsub, scal, zero. cbn. ring. }
  rewrite !K. pose proof (norm_sqr_pos e E) as P. apply least; [|unfold dot, zero; cbn; ring].
  unfold pe_closest. fold e d.
  replace (dot (vadd d (vadd (scal (- (dot d e / norm_sqr e)) e) (scal 0 zero))) e) with (dot d e - dot d e / norm_sqr e * norm_sqr e)
    by (unfold dot, norm_sqr, vadd, scal, zero, dot; cbn; ring).
  field. lra.
Qed.
Theorem C88_closest_triangle p a b c t : cross (vsub b a) (vsub c a) <> zero ->
  dist_sqr p (on_plane a b c (pt_closest p a b c)) <= dist_sqr p (on_plane a b c t).
Proof.
  intros H. set (e := vsub b a) in *. set (f := vsub c a) in *. set (d := vsub p a).
  assert (K : forall s, dist_sqr p (on_plane a b c s) = norm_sqr (vadd d (vadd (scal (- fst s) e) (scal (- snd s) f)))).
  { intros s. unfold dist_sqr, on_plane, d, e, f, norm_sqr, dot, vadd, vsub, scal. cbn. ring. }
  rewrite !K. pose proof (norm_sqr_pos _ H) as P. rewrite cross_norm in P.
  unfold pt_closest. fold e f d.
  pose proof (solve2_ok (dot e e) (dot e f) (dot f e) (dot f f) (dot e d) (dot f d)) as S.
  destruct (solve2 _ _ _ _ _ _) as [x y]. destruct S as [S1 S2]; [rewrite (dot_sym f e); unfold norm_sqr in P; lra|]. cbn [fst snd].
  apply least.
  - replace (dot (vadd d (vadd (scal (- x) e) (scal (- y) f))) e) with (dot e d - (dot e e * x + dot e f * y)) by (unfold dot, vadd, scal; cbn; ring). lra.
  - replace (dot (vadd d (vadd (scal (- x) e) (scal (- y) f))) f) with (dot f d - (dot f e * x + dot f f * y)) by (unfold dot, vadd, scal; cbn; ring). lra.
Qed.
Theorem C88_closest_edges a b c d s t : cross (vsub b a) (vsub d c) <> zero ->
  dist_sqr (on_line a b (fst (ee_closest a b c d))) (on_line c d (snd (ee_closest a b c d))) <= dist_sqr (on_line a b s) (on_line c d t).
Proof.
  intros H. set (e := vsub b a) in *. set (f := vsub d c) in *. set (g := vsub a c).
  assert (K : forall s t, dist_sqr (on_line a b s) (on_line c d t) = norm_sqr (vadd g (vadd (scal s e) (scal (- t) f)))).
  { intros s' t'. unfold dist_sqr, on_line, g, e, f, norm_sqr, dot, vadd, vsub, scal. cbn. ring. }
  rewrite !K. pose proof (norm_sqr_pos _ H) as P. rewrite cross_norm in P.
  unfold ee_closest. fold e f g.
  pose proof (solve2_ok (norm_sqr e) (- dot f e) (- dot f e) (norm_sqr f) (- dot g e) (dot g f)) as S.
  destruct (solve2 _ _ _ _ _ _) as [x y]. destruct S as [S1 S2]; [rewrite (dot_sym f e); lra|]. cbn [fst snd].
  apply least.
  - replace (dot (vadd g (vadd (scal x e) (scal (- y) f))) e) with (dot g e + (norm_sqr e * x + - dot f e * y)) by (unfold norm_sqr, dot, vadd, scal; cbn; ring). lra.
  - replace (dot (vadd g (vadd (scal x e) (scal (- y) f))) f) with (dot g f - (- dot f e * x + norm_sqr f * y)) by (unfold norm_sqr, dot, vadd, scal; cbn; ring). lra.
Qed.

(* Tangent bases: orthonormal and orthogonal to the direction of contact. *)
Lemma sub_nz a b : a <> b -> vsub b a <> zero.
Proof. intros H C. apply H. destruct a, b. unfold vsub, zero in C. cbn in C. injection C as C1 C2 C3. f_equal; lra. Qed.
Theorem C88_basis_points p0 p1 : p0 <> p1 -> orthonormal (pp_basis p0 p1) (vsub p1 p0).
Proof.
  intros H. pose proof (sub_nz _ _ H) as N. unfold pp_basis. set (v := vsub p1 p0) in *.
  pose proof (norm_sqr_pos v N) as P.
  set (X := V3 0 (- vz v) (vy v)). set (Y := V3 (vz v) 0 (- vx v)).
  assert (EX : norm_sqr X = vz v * vz v + vy v * vy v) by (unfold norm_sqr, dot, X; cbn; ring).
  assert (EY : norm_sqr Y = vz v * vz v + vx v * vx v) by (unfold norm_sqr, dot, Y; cbn; ring).
  unfold norm_sqr, dot in P. cbn zeta.
  assert (K : forall w, w <> zero -> dot w v = 0 -> orthonormal (Basis (normalized w) (normalized (cross v w))) v).
  { intros w W E. apply orthonormal_of; [exact W| | |exact E|apply cross_l].
    - apply cross_nz; [exact N|exact W|now rewrite dot_sym].
    - rewrite dot_sym. apply cross_r. }
  destruct (Rlt_dec _ _) as [L|L]; apply K.
  - intros C. rewrite C, norm_zero in L. pose proof (norm_sqr_nonneg Y). lra.
  - unfold dot, X. cbn. ring.
  - intros C. rewrite C, norm_zero in EY, L. rewrite EX in L. nra.
  - unfold dot, Y. cbn. ring.
Qed.
(* the direction from the closest point of the line *)
Theorem C88_basis_edge p a b : cross (vsub b a) (vsub p a) <> zero ->
  orthonormal (pe_basis p a b) (vsub p (on_line a b (pe_closest p a b))).
Proof.
  intros H. pose proof (cross_left_nz _ _ H) as E. pose proof (norm_sqr_pos _ E) as P. unfold pe_basis.
  set (e := vsub b a) in *. set (d := vsub p a) in *.
  assert (K : forall w, dot w (vsub p (on_line a b (pe_closest p a b))) = dot w d - dot d e / norm_sqr e * dot w e).
  { intros w. unfold pe_closest. fold e d. unfold on_line, e, d, dot, vsub, vadd, scal. cbn. ring. }
  apply orthonormal_of; [exact E|exact H| | |].
  - rewrite dot_sym. apply cross_l.
  - rewrite K, (dot_sym e d). fold (norm_sqr e). field. lra.
  - rewrite K, cross_l, cross_r. ring.
Qed.
Theorem C88_basis_triangle p a b c : cross (vsub b a) (vsub c a) <> zero ->
  orthonormal (pt_basis p a b c) (cross (vsub b a) (vsub c a)).
Proof.
  intros H. pose proof (cross_left_nz _ _ H) as E. unfold pt_basis. set (e := vsub b a) in *. set (n := cross e (vsub c a)) in *.
  assert (Z : dot n e = 0) by apply cross_l.
  apply orthonormal_of; [exact E|now apply cross_nz| | |].
  - rewrite dot_sym. apply cross_r.
  - now rewrite dot_sym.
  - apply cross_l.
Qed.
Theorem C88_basis_edges a b c d : cross (vsub b a) (vsub d c) <> zero ->
  orthonormal (ee_basis a b c d) (cross (vsub b a) (vsub d c)).
Proof.
  intros H. pose proof (cross_left_nz _ _ H) as E. unfold ee_basis. set (e := vsub b a) in *. set (n := cross e (vsub d c)) in *.
  assert (Z : dot n e = 0) by apply cross_l.
  apply orthonormal_of; [exact E|now apply cross_nz| | |].
  - rewrite dot_sym. apply cross_r.
  - now rewrite dot_sym.
  - apply cross_l.
Qed.

(* For any basis and any coordinates of the closest points: the matrix maps displacements to tangential relative
   displacements, and f1 times the vertex forces is the gradient of the potential. *)
Definition at_ (k : nat) (X : list v3) : v3 := nth k X zero.
Ltac vertices := repeat match goal with X : list v3 |- _ => destruct X; try discriminate; cbn [length] in * end.
Ltac unroll := intros; vertices; unfold pp_rel_dx, pe_rel_dx, pt_rel_dx, ee_rel_dx, at_, tangential, dot, mulv, vadd, vsub, scal; cbn; unfold dot; cbn; first [ring | f_equal; ring].
Ltac matrix := intros X HX; split; [reflexivity|]; do 2 eexists; split; [reflexivity|]; split; [reflexivity|]; split; [reflexivity|];
  revert HX; unroll.
Theorem C88_points b : consistent 2 b (fun X => pp_rel_dx (at_ 0 X) (at_ 1 X)) (fun u => pp_to_mesh u b) (pp_TT b).
Proof.
  apply consistent_of; [intros X D t HX HD; unfold pp_rel_dx; revert HX HD; unroll| matrix | unfold pp_to_mesh, pp_rel_dx; unroll].
Qed.
Theorem C88_point_edge b yita :
  consistent 3 b (fun X => pe_rel_dx (at_ 0 X) (at_ 1 X) (at_ 2 X) yita) (fun u => pe_to_mesh u b yita) (pe_TT b yita).
Proof.
  apply consistent_of; [intros X D t HX HD; unfold pe_rel_dx; revert HX HD; unroll| matrix | unfold pe_to_mesh, pe_rel_dx; unroll].
Qed.
Theorem C88_point_triangle b beta1 beta2 :
  consistent 4 b (fun X => pt_rel_dx (at_ 0 X) (at_ 1 X) (at_ 2 X) (at_ 3 X) beta1 beta2)
    (fun u => pt_to_mesh u b beta1 beta2) (pt_TT b beta1 beta2).
Proof.
  apply consistent_of; [intros X D t HX HD; unfold pt_rel_dx; revert HX HD; unroll| matrix | unfold pt_to_mesh, pt_rel_dx; unroll].
Qed.
Theorem C88_edge_edge b gamma1 gamma2 :
  consistent 4 b (fun X => ee_rel_dx (at_ 0 X) (at_ 1 X) (at_ 2 X) (at_ 3 X) gamma1 gamma2)
    (fun u => ee_to_mesh u b gamma1 gamma2) (ee_TT b gamma1 gamma2).
Proof.
  apply consistent_of; [intros X D t HX HD; unfold ee_rel_dx; revert HX HD; unroll| matrix | unfold ee_to_mesh, ee_rel_dx; unroll].
Qed.
(* the relative displacement is the change of the difference between the two points of the contact *)
Theorem C88_relative_motion x0 x1 x2 x3 dx0 dx1 dx2 dx3 s t u :
  let y0 := vadd x0 dx0 in let y1 := vadd x1 dx1 in let y2 := vadd x2 dx2 in let y3 := vadd x3 dx3 in
  pp_rel_dx dx0 dx1 = vsub (vsub y0 y1) (vsub x0 x1) /\
  pe_rel_dx dx0 dx1 dx2 s = vsub (vsub y0 (on_line y1 y2 s)) (vsub x0 (on_line x1 x2 s)) /\
  pt_rel_dx dx0 dx1 dx2 dx3 (fst u) (snd u) = vsub (vsub y0 (on_plane y1 y2 y3 u)) (vsub x0 (on_plane x1 x2 x3 u)) /\
  ee_rel_dx dx0 dx1 dx2 dx3 s t =
    vsub (vsub (on_line y0 y1 s) (on_line y2 y3 t)) (vsub (on_line x0 x1 s) (on_line x2 x3 t)).
Proof.
  unfold pp_rel_dx, pe_rel_dx, pt_rel_dx, ee_rel_dx, on_line, on_plane, vsub, vadd, scal. cbn. repeat split; f_equal; ring.
Qed.
(* the vertex forces add up to zero *)
Theorem C88_momentum b u s t :
  fold_right vadd zero (pp_to_mesh u b) = zero /\ fold_right vadd zero (pe_to_mesh u b s) = zero /\
  fold_right vadd zero (pt_to_mesh u b s t) = zero /\ fold_right vadd zero (ee_to_mesh u b s t) = zero.
Proof. unfold pp_to_mesh, pe_to_mesh, pt_to_mesh, ee_to_mesh, vadd, scal, zero. cbn. repeat split; f_equal; ring. Qed.
Example C88_ex : cross (vsub (V3 1 0 0) (V3 0 0 0)) (vsub (V3 0 1 0) (V3 0 0 0)) <> zero /\
  pt_closest (V3 2 3 5) (V3 0 0 0) (V3 1 0 0) (V3 0 1 0) = (2, 3) /\
  ee_closest (V3 0 0 0) (V3 1 0 0) (V3 3 4 2) (V3 3 5 2) = (3, -4).
Proof.
  split; [|split].
  - unfold cross, vsub, zero. cbn. intros C. injection C as _ _ C. lra.
  - unfold pt_closest, solve2, dot, vsub. cbn. f_equal; field.
  - unfold ee_closest, solve2, norm_sqr, dot, vsub. cbn. f_equal; field.
Qed.

Print Assumptions C88_potential.
Print Assumptions C88_stiffness.
Print Assumptions C88_stiffness_sliding_refuted.
Print Assumptions C88_closest_edge.
Print Assumptions C88_closest_triangle.
Print Assumptions C88_closest_edges.
Print Assumptions C88_basis_points.
Print Assumptions C88_basis_edge.
Print Assumptions C88_basis_triangle.
Print Assumptions C88_basis_edges.
Print Assumptions C88_points.
Print Assumptions C88_point_edge.
Print Assumptions C88_point_triangle.
Print Assumptions C88_edge_edge.
Print Assumptions C88_relative_motion.
Print Assumptions C88_momentum.
