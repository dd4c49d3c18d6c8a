(* Proofs for C88. *)
From Coq Require Import Reals List Lra Lia Psatz.
From Verif Require Import FricModel FricSpec.
Import ListNotations.
Local Open Scope R_scope.

Lemma glue f g h a l : (forall x, x < a -> f x = g x) -> (forall x, a <= x -> f x = h x) -> g a = h a ->
  derivable_pt_lim g a l -> derivable_pt_lim h a l -> derivable_pt_lim f a l.
Proof.
  intros G H E Dg Dh e He. destruct (Dg e He) as [dg Kg]. destruct (Dh e He) as [dh Kh].
  exists (mkposreal _ (Rmin_pos _ _ (cond_pos dg) (cond_pos dh))). intros k Hk K. cbn in K.
  assert (Fa : f a = h a) by (apply H; lra).
  destruct (Rlt_le_dec (a + k) a) as [L|L].
  - rewrite (G _ L), Fa, <- E. apply Kg; [exact Hk|]. pose proof (Rmin_l dg dh). lra.
  - rewrite (H _ L), Fa. apply Kh; [exact Hk|]. pose proof (Rmin_r dg dh). lra.
Qed.
Lemma near f g a l d : 0 < d -> (forall x, Rabs (x - a) < d -> f x = g x) -> derivable_pt_lim g a l -> derivable_pt_lim f a l.
Proof.
  intros Hd E D e He. destruct (D e He) as [dg K]. exists (mkposreal _ (Rmin_pos _ _ (cond_pos dg) Hd)).
  intros k Hk Kk. cbn in Kk. rewrite (E (a + k)), (E a).
  - apply K; [exact Hk|]. pose proof (Rmin_l dg d). lra.
  - rewrite Rminus_diag_eq, Rabs_R0; auto.
  - replace (a + k - a) with k by ring. pose proof (Rmin_r dg d). lra.
Qed.
Lemma dext f g a l l' : (forall x, f x = g x) -> l = l' -> derivable_pt_lim g a l' -> derivable_pt_lim f a l.
Proof. intros E -> D. apply (near f g a l' 1); [lra| |exact D]. intros. apply E. Qed.

(* x sqrt x *)
Lemma d_xsqrt x : 0 <= x -> derivable_pt_lim (fun x => x * sqrt x) x (3 / 2 * sqrt x).
Proof.
  intros [H| <-].
  - apply (dext _ (fun x => id x * sqrt x) _ _ (1 * sqrt x + id x * / (2 * sqrt x))); [reflexivity| |].
    + unfold id. assert (S : 0 < sqrt x) by now apply sqrt_lt_R0. pose proof (sqrt_sqrt x (Rlt_le _ _ H)) as Q.
      rewrite <- Q at 3. field. lra.
    + apply (derivable_pt_lim_mult id sqrt); [apply derivable_pt_lim_id|now apply derivable_pt_lim_sqrt].
  - rewrite sqrt_0, Rmult_0_r. intros e He.
    exists (mkposreal (e * e) (Rmult_lt_0_compat _ _ He He)). intros k Hk K. cbn in K.
    rewrite Rplus_0_l, sqrt_0, Rmult_0_r, !Rminus_0_r.
    replace (k * sqrt k / k) with (sqrt k) by (field; exact Hk).
    rewrite (Rabs_right (sqrt k)) by (apply Rle_ge, sqrt_pos).
    destruct (Rle_dec k 0) as [N|N]; [rewrite sqrt_neg_0; lra|].
    rewrite <- (sqrt_square e) by lra. apply sqrt_lt_1_alt. rewrite Rabs_right in K by lra. lra.
Qed.
Definition inner (e x2 : R) := x2 * (- sqrt x2 / 3 + e) / (e * e) + e / 3.
Lemma d_inner e x : 0 < e -> 0 <= x -> derivable_pt_lim (inner e) x ((- sqrt x + 2 * e) / (e * e) / 2).
Proof.
  intros He Hx.
  apply (dext _ (fun x => (- (1 / (3 * (e * e))) * (x * sqrt x) + (1 / e) * x) + e / 3) _ _
     ((- (1 / (3 * (e * e))) * (3 / 2 * sqrt x) + (1 / e) * 1) + 0)).
  - intros y. unfold inner. field. lra.
  - field. lra.
  - apply (derivable_pt_lim_plus (fun x => - (1 / (3 * (e * e))) * (x * sqrt x) + (1 / e) * x) (fun _ => e / 3)); [|apply derivable_pt_lim_const].
    apply (derivable_pt_lim_plus (fun x => - (1 / (3 * (e * e))) * (x * sqrt x)) (fun x => (1 / e) * x)).
    + apply (derivable_pt_lim_scal (fun x => x * sqrt x)). now apply d_xsqrt.
    + apply (derivable_pt_lim_scal (fun x => x)). apply derivable_pt_lim_id.
Qed.
Lemma d_sqrt_half x : 0 < x -> derivable_pt_lim sqrt x (1 / sqrt x / 2).
Proof.
  intros H. apply (dext _ sqrt _ _ (/ (2 * sqrt x))); [reflexivity| |now apply derivable_pt_lim_sqrt].
  assert (0 < sqrt x) by now apply sqrt_lt_R0. field. lra.
Qed.
(* the derivative of f0 with respect to the squared length is half of f1 *)
Lemma d_f0 e x : 0 < e -> 0 <= x -> derivable_pt_lim (fun x => f0_SF x e) x (f1_SF x e / 2).
Proof.
  intros He Hx. assert (E2 : 0 < e * e) by nra.
  assert (O : forall y, e * e <= y -> f0_SF y e = sqrt y) by (intros y Y; unfold f0_SF; destruct (Rle_dec _ _); [reflexivity|lra]).
  assert (I : forall y, y < e * e -> f0_SF y e = inner e y) by (intros y Y; unfold f0_SF, inner; destruct (Rle_dec _ _); [lra|reflexivity]).
  unfold f1_SF. destruct (Rle_dec (e * e) x) as [L|L].
  - destruct L as [L|<-].
    + apply (near _ sqrt x _ (x - e * e)); [lra| |apply d_sqrt_half; lra].
      intros y Y. apply O. apply Rabs_def2 in Y. lra.
    + apply (glue _ (inner e) sqrt); [exact I|exact O| | |now apply d_sqrt_half].
      * unfold inner. rewrite sqrt_square by lra. field. lra.
      * eapply dext; [reflexivity| |apply d_inner; lra]. rewrite sqrt_square by lra. field. lra.
  - apply (near _ (inner e) x _ (e * e - x)); [lra| |now apply d_inner].
    intros y Y. apply I. apply Rabs_def2 in Y. lra.
Qed.
(* along lines *)
Lemma len_pos u : 0 <= len_sqr u.
Proof. unfold len_sqr. nra. Qed.
Lemma d_quadratic p q r : derivable_pt_lim (fun t => p + q * t + r * (t * t)) 0 q.
Proof.
  apply (dext _ (fun t => (p + q * t) + r * (t * t)) _ _ ((0 + q * 1) + r * (1 * 0 + 0 * 1))); [reflexivity|ring|].
  apply (derivable_pt_lim_plus (fun t => p + q * t) (fun t => r * (t * t))).
  - apply (derivable_pt_lim_plus (fun _ => p) (fun t => q * t)); [apply derivable_pt_lim_const|].
    apply (derivable_pt_lim_scal (fun t => t)), derivable_pt_lim_id.
  - apply (derivable_pt_lim_scal (fun t => t * t)).
    apply (derivable_pt_lim_mult (fun t => t) (fun t => t)); apply derivable_pt_lim_id.
Qed.
Lemma d_potential e a b : 0 < e ->
  derivable_pt_lim (fun t => f0_SF (len_sqr (fst a + t * fst b, snd a + t * snd b)) e) 0
    (f1_SF (len_sqr a) e * (fst a * fst b + snd a * snd b)).
Proof.
  intros He. set (L := fun t => len_sqr a + (2 * (fst a * fst b + snd a * snd b)) * t + len_sqr b * (t * t)).
  apply (dext _ (comp (fun x => f0_SF x e) L) _ _ (f1_SF (L 0) e / 2 * (2 * (fst a * fst b + snd a * snd b)))).
  - intros t. unfold comp, L. f_equal. unfold len_sqr. cbn [fst snd]. ring.
  - replace (L 0) with (len_sqr a) by (unfold L; ring). field.
  - apply derivable_pt_lim_comp; [apply d_quadratic|]. apply d_f0; [exact He|].
    replace (L 0) with (len_sqr a) by (unfold L; ring). apply len_pos.
Qed.

(* stencils *)
Definition lin (n : nat) (rel : list v3 -> v3) : Prop := forall X D t, length X = n -> length D = n ->
  rel (step X t D) = vadd (rel X) (scal t (rel D)).
Lemma tang_lin b v w t : tangential b (vadd v (scal t w)) =
  (fst (tangential b v) + t * fst (tangential b w), snd (tangential b v) + t * snd (tangential b w)).
Proof. unfold tangential, dot, vadd, scal. cbn. f_equal; ring. Qed.
Lemma consistent_of n b rel force TT : lin n rel ->
  (forall X, length X = n -> length (force (tangential b (rel X))) = n /\
     exists r0 r1, TT = [r0; r1] /\ length r0 = (3 * n)%nat /\ length r1 = (3 * n)%nat /\
       tangential b (rel X) = (row_dot r0 (stack X), row_dot r1 (stack X))) ->
  (forall u D, length D = n -> pair_dot (force u) D = fst u * fst (tangential b (rel D)) + snd u * snd (tangential b (rel D))) ->
  consistent n b rel force TT.
Proof.
  intros L T A. split; [exact T|]. intros eps X D He HX HD.
  rewrite (A (tangential b (rel X)) D HD).
  eapply dext; [|reflexivity|apply (d_potential eps (tangential b (rel X)) (tangential b (rel D)) He)].
  intros t. cbn beta. now rewrite (L X D t HX HD), tang_lin.
Qed.
(* v / |v| *)
Lemma norm_sqr_nonneg v : 0 <= norm_sqr v.
Proof. unfold norm_sqr, dot. nra. Qed.
Lemma norm_sqr_pos v : v <> zero -> 0 < norm_sqr v.
Proof.
  intros H. destruct (norm_sqr_nonneg v) as [P|E]; [exact P|]. exfalso. apply H.
  destruct v as [x y z]. unfold norm_sqr, dot in E. cbn in E.
  assert (x = 0) by nra. assert (y = 0) by nra. assert (z = 0) by nra. subst. reflexivity.
Qed.
Lemma norm_pos v : v <> zero -> 0 < norm v.
Proof. intros H. now apply sqrt_lt_R0, norm_sqr_pos. Qed.
Lemma normalized_unit v : v <> zero -> dot (normalized v) (normalized v) = 1.
Proof.
  intros H. pose proof (norm_pos v H) as P. pose proof (sqrt_sqrt (norm_sqr v) (norm_sqr_nonneg v)) as Q. fold (norm v) in Q.
  unfold normalized, dot. cbn.
  replace (vx v / norm v * (vx v / norm v) + vy v / norm v * (vy v / norm v) + vz v / norm v * (vz v / norm v))
    with (norm_sqr v / (norm v * norm v)) by (unfold norm_sqr, dot; field; lra).
  rewrite Q. apply Rinv_r. pose proof (norm_sqr_pos v H). lra.
Qed.
Lemma normalized_dot v w : dot (normalized v) w = dot v w / norm v.
Proof. unfold normalized, dot, Rdiv. cbn. ring. Qed.
Lemma dot_sym v w : dot v w = dot w v.
Proof. unfold dot. ring. Qed.
Lemma orthonormal_of a b n : a <> zero -> b <> zero -> dot a b = 0 -> dot a n = 0 -> dot b n = 0 ->
  orthonormal (Basis (normalized a) (normalized b)) n.
Proof.
  intros A B AB AN BN. unfold orthonormal. cbn [c0 c1].
  split; [now apply normalized_unit|]. split; [now apply normalized_unit|].
  rewrite !normalized_dot, (dot_sym a (normalized b)), normalized_dot, (dot_sym b a), AB, AN, BN. unfold Rdiv. rewrite !Rmult_0_l. auto.
Qed.
Lemma zero_of v : norm_sqr v = 0 -> v = zero.
Proof.
  destruct v as [x y z]. unfold norm_sqr, dot. cbn. intros E. assert (x = 0) by nra. assert (y = 0) by nra. assert (z = 0) by nra. subst. reflexivity.
Qed.
Lemma norm_zero : norm_sqr zero = 0. Proof. unfold norm_sqr, dot, zero. cbn. ring. Qed.
(* Lagrange *)
Lemma cross_norm a b : norm_sqr (cross a b) = norm_sqr a * norm_sqr b - dot a b * dot a b.
Proof. unfold norm_sqr, cross, dot. cbn. ring. Qed.
Lemma cross_l a b : dot (cross a b) a = 0. Proof. unfold cross, dot. cbn. ring. Qed.
Lemma cross_r a b : dot (cross a b) b = 0. Proof. unfold cross, dot. cbn. ring. Qed.
Lemma cross_nz a b : a <> zero -> b <> zero -> dot a b = 0 -> cross a b <> zero.
Proof.
  intros A B E C. pose proof (cross_norm a b) as N. rewrite C, norm_zero, E in N.
  pose proof (norm_sqr_pos a A). pose proof (norm_sqr_pos b B). nra.
Qed.
Lemma cross_left_nz a b : cross a b <> zero -> a <> zero.
Proof. intros C ->. apply C. unfold cross, zero. cbn. f_equal; ring. Qed.
Lemma cross_right_nz a b : cross a b <> zero -> b <> zero.
Proof. intros C ->. apply C. unfold cross, zero. cbn. f_equal; ring. Qed.

(* least squares *)
Lemma solve2_ok a00 a01 a10 a11 b0 b1 : a00 * a11 - a01 * a10 <> 0 ->
  let '(x, y) := solve2 a00 a01 a10 a11 b0 b1 in a00 * x + a01 * y = b0 /\ a10 * x + a11 * y = b1.
Proof. intros D. unfold solve2. split; field; exact D. Qed.
(* |d + s a + t b| is smallest where d + s a + t b is orthogonal to a and b *)
Lemma least d a b s t s' t' : let w := vadd d (vadd (scal s a) (scal t b)) in
  dot w a = 0 -> dot w b = 0 -> norm_sqr w <= norm_sqr (vadd d (vadd (scal s' a) (scal t' b))).
Proof.
  intros w A B. set (k := vadd (scal (s' - s) a) (scal (t' - t) b)).
  assert (E : norm_sqr (vadd d (vadd (scal s' a) (scal t' b))) = norm_sqr w + norm_sqr k + 2 * ((s' - s) * dot w a + (t' - t) * dot w b)).
  { unfold w, k, norm_sqr, dot, vadd, scal. cbn. ring. }
  rewrite E, A, B. pose proof (norm_sqr_nonneg k). lra.
Qed.
