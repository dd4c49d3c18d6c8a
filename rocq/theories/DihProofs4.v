(* Proofs for C89: the blocks of the Hessian. *)
From Coq Require Import Reals List Lra Lia Psatz.
From Verif Require Import FricModel FricSpec FricProofs DihModel DihSpec DihProofs DihProofs2 DihProofs3.
Import ListNotations.
Local Open Scope R_scope.

Lemma norm_scal_sign s v : s * s = 1 -> norm (scal s v) = norm v.
Proof.
  intros S. unfold norm. f_equal. unfold norm_sqr, dot, scal. cbn.
  replace (s * vx v * (s * vx v) + s * vy v * (s * vy v) + s * vz v * (s * vz v)) with (s * s * (vx v * vx v + vy v * vy v + vz v * vz v)) by ring.
  rewrite S. ring.
Qed.
Lemma norm_cross_sym a b : norm (cross a b) = norm (cross b a).
Proof. unfold norm. f_equal. unfold norm_sqr, dot, cross. cbn. ring. Qed.
Lemma scal_scal k l v : scal k (scal l v) = scal (k * l) v.
Proof. unfold scal. cbn. f_equal; ring. Qed.

(* one of the two triangles: v0 v1 w, with its normal or the opposite one *)
Section Triangle.
Variables (v0 v1 w : v3) (sg : R).
Let a := vsub v1 v0. Let b := vsub w v0. Let q := vsub w v1.
Let n0 := cross a b. Let n := scal sg n0.
Let nn := norm n.
Let m1 := compute_mHat v1 v0 w.
Let m3' := compute_mHat v0 v1 w.
Let m01 := compute_mHat w v0 v1.
Let c1 := dot a b / (norm a * norm b).
Let c3 := - dot a q / (norm a * norm q).
Let h1 := nn / norm b. Let h3 := nn / norm q. Let h0 := nn / norm a.
Definition N_01 := dyadic_prod n (vdiv m01 (h0 * h0 * nn)).
Definition N_3 := dyadic_prod n (vdiv m3' (h0 * h3 * nn)).
Definition N_1 := dyadic_prod n (vdiv m1 (h0 * h1 * nn)).
Definition M3_01 := dyadic_prod (scal (c3 / (h3 * h0 * nn)) m01) n.
Definition M1_01 := dyadic_prod (scal (c1 / (h1 * h0 * nn)) m01) n.
Definition M1_1 := dyadic_prod (scal (c1 / (h1 * h1 * nn)) m1) n.
Definition M3_3 := dyadic_prod (scal (c3 / (h3 * h3 * nn)) m3') n.
Definition M3_1 := dyadic_prod (scal (c3 / (h3 * h1 * nn)) m1) n.
Definition M1_3 := dyadic_prod (scal (c1 / (h1 * h3 * nn)) m3') n.
Definition BB := mdiv (dyadic_prod n m01) (norm a * norm a * nn).
Hypothesis SG : sg * sg = 1.
Hypothesis NZ : n0 <> zero.
Let L := norm a. Let A := norm n0.
Lemma PL : 0 < L. Proof. apply norm_pos. exact (cross_left_nz _ _ NZ). Qed.
Lemma PA : 0 < A. Proof. now apply norm_pos. Qed.
Lemma Pb : 0 < norm b. Proof. apply norm_pos. exact (cross_right_nz _ _ NZ). Qed.
Lemma nq : cross a q = n0.
Proof. unfold n0, a, q, b, cross, vsub. cbn. f_equal; ring. Qed.
Lemma Pq : 0 < norm q. Proof. apply norm_pos. apply (cross_right_nz a). now rewrite nq. Qed.
Lemma nnA : nn = A. Proof. now apply norm_scal_sign. Qed.
Lemma m1_eq : m1 = scal (/ (A * norm b)) (cross n0 b).
Proof. unfold m1. rewrite mhat_eq; [reflexivity|exact NZ]. Qed.
Lemma m01_eq : m01 = scal (/ (A * L)) (cross a n0).
Proof.
  unfold m01. rewrite mhat_eq; fold a b.
  - rewrite norm_cross_sym. fold n0 A L. f_equal. unfold n0, cross. cbn. f_equal; ring.
  - intros C. apply NZ. replace n0 with (scal (-1) (cross b a)) by (unfold n0, cross, scal; cbn; f_equal; ring). rewrite C. unfold scal, zero. cbn. f_equal; ring.
Qed.
Lemma m3_eq : m3' = scal (/ (A * norm q)) (cross q n0).
Proof.
  unfold m3'. assert (E : cross (vsub v0 v1) q = scal (-1) n0) by (unfold n0, a, b, q, cross, vsub, scal; cbn; f_equal; ring).
  rewrite mhat_eq; fold q; rewrite E.
  - rewrite norm_scal_sign by ring. fold A. f_equal. unfold cross, scal. cbn. f_equal; ring.
  - intros C. apply NZ. replace n0 with (scal (-1) (scal (-1) n0)) by (rewrite scal_scal; destruct n0; unfold scal; cbn; f_equal; ring). rewrite C. unfold scal, zero. cbn. f_equal; ring.
Qed.
Let kap := L / (A * A * A * A).
Let mu := / (L * (A * A * A * A)).
Ltac pos := pose proof PL; pose proof PA; pose proof Pb; pose proof Pq.
Ltac norms := rewrite ?nnA; unfold vdiv; rewrite ?scal_scal; fold L.
Lemma N_01_eq : N_01 = dyadic_prod n (scal kap (cross a n0)).
Proof. pos. unfold N_01, h0. rewrite m01_eq. norms. do 2 f_equal. unfold kap. field. repeat split; lra. Qed.
Lemma N_3_eq : N_3 = dyadic_prod n (scal kap (cross q n0)).
Proof. pos. unfold N_3, h0, h3. rewrite m3_eq. norms. do 2 f_equal. unfold kap. field. repeat split; lra. Qed.
Lemma N_1_eq : N_1 = dyadic_prod n (scal kap (cross n0 b)).
Proof. pos. unfold N_1, h0, h1. rewrite m1_eq. norms. do 2 f_equal. unfold kap. field. repeat split; lra. Qed.
Lemma M3_01_eq : M3_01 = dyadic_prod (scal (- dot a q * mu) (cross a n0)) n.
Proof. pos. unfold M3_01, c3, h0, h3. rewrite m01_eq. norms. do 2 f_equal. unfold mu. field. repeat split; lra. Qed.
Lemma M1_01_eq : M1_01 = dyadic_prod (scal (dot a b * mu) (cross a n0)) n.
Proof. pos. unfold M1_01, c1, h0, h1. rewrite m01_eq. norms. do 2 f_equal. unfold mu. field. repeat split; lra. Qed.
Lemma M1_1_eq : M1_1 = dyadic_prod (scal (dot a b * mu) (cross n0 b)) n.
Proof. pos. unfold M1_1, c1, h1. rewrite m1_eq. norms. do 2 f_equal. unfold mu. field. repeat split; lra. Qed.
Lemma M3_3_eq : M3_3 = dyadic_prod (scal (- dot a q * mu) (cross q n0)) n.
Proof. pos. unfold M3_3, c3, h3. rewrite m3_eq. norms. do 2 f_equal. unfold mu. field. repeat split; lra. Qed.
Lemma M3_1_eq : M3_1 = dyadic_prod (scal (- dot a q * mu) (cross n0 b)) n.
Proof. pos. unfold M3_1, c3, h3, h1. rewrite m1_eq. norms. do 2 f_equal. unfold mu. field. repeat split; lra. Qed.
Lemma M1_3_eq : M1_3 = dyadic_prod (scal (dot a b * mu) (cross q n0)) n.
Proof. pos. unfold M1_3, c1, h3, h1. rewrite m3_eq. norms. do 2 f_equal. unfold mu. field. repeat split; lra. Qed.
Lemma BB_ap d : apply BB d = scal (sg / (L * L * L * (A * A)) * dot (cross a n0) d) n0.
Proof.
  pos. unfold BB. rewrite ap_div, ap_dyadic, m01_eq. norms. unfold n. rewrite !scal_scal. f_equal.
  replace (dot (scal (/ (A * L)) (cross a n0)) d) with (/ (A * L) * dot (cross a n0) d) by (generalize (cross a n0); intros; unfold dot, scal; cbn; ring).
  field. repeat split; lra.
Qed.
Lemma BB_tr_ap d : apply (transpose BB) d = scal (sg / (L * L * L * (A * A)) * dot n0 d) (cross a n0).
Proof.
  pos. unfold BB. rewrite tr_div, ap_div, ap_dyadic_t, m01_eq. norms. unfold n. f_equal.
  replace (dot (scal sg n0) d) with (sg * dot n0 d) by (generalize n0; intros; unfold dot, scal; cbn; ring).
  field. repeat split; lra.
Qed.
Lemma EL : dot a a = L * L. Proof. unfold L. now rewrite norm_sq. Qed.
Lemma EA : norm_sqr n0 = A * A. Proof. unfold A. now rewrite norm_sq. Qed.
Lemma Eq : dot a q = dot a b - L * L. Proof. rewrite <- EL. unfold a, q, b, dot, vsub. cbn. ring. Qed.
Lemma q_eq : q = vsub b a. Proof. unfold a, q, b, vsub. cbn. f_equal; ring. Qed.
Ltac finish := pos; unfold Fa, Fb, Ka, Kb; fold n0 L;
  rewrite ?EL, ?EA, ?Eq, ?q_eq; unfold kap, mu, n; rewrite ?scal_scal;
  generalize n0; intros m; generalize (dot a b); intros ab; generalize a b; intros a1 b1;
  unfold dot, cross, scal, vadd, vsub; cbn; f_equal; field; repeat split; lra.
Ltac blocks := rewrite ?tr_sub, ?tr_add, ?tr_neg, ?tr_tr, ?N_01_eq, ?N_3_eq, ?N_1_eq, ?M3_01_eq, ?M1_01_eq, ?M1_1_eq, ?M3_3_eq, ?M3_1_eq, ?M1_3_eq; repeat first [rewrite ap_neg|rewrite ap_add|rewrite ap_sub|rewrite BB_ap|rewrite ap_dyadic|rewrite ap_dyadic_t].
Lemma block_ww d : apply (mneg (madd N_01 (transpose N_01))) d = scal sg (Fb a b d).
Proof. blocks. finish. Qed.
Lemma block_w1 d : apply (transpose (msub M1_01 N_1)) d = scal sg (Fa a b d).
Proof. blocks. finish. Qed.
Lemma block_w0 d : apply (transpose (msub M3_01 N_3)) d = scal (- sg) (vadd (Fa a b d) (Fb a b d)).
Proof. blocks. finish. Qed.
Lemma block_1w d : apply (msub M1_01 N_1) d = scal sg (Kb a b d).
Proof. blocks. finish. Qed.
Lemma block_0w d : apply (msub M3_01 N_3) d = scal (- sg) (vadd (Fb a b d) (Kb a b d)).
Proof. blocks. finish. Qed.
Lemma block_11 d : apply (msub (madd M1_1 (transpose M1_1)) BB) d = scal sg (Ka a b d).
Proof. blocks. finish. Qed.
Lemma block_01 d : apply (madd (madd M3_1 (transpose M1_3)) BB) d = scal (- sg) (vadd (Fa a b d) (Ka a b d)).
Proof. blocks. finish. Qed.
Lemma block_00 d : apply (msub (madd M3_3 (transpose M3_3)) BB) d = scal sg (vadd (vadd (Fa a b d) (Fb a b d)) (vadd (Ka a b d) (Kb a b d))).
Proof. blocks. finish. Qed.
Lemma antisym d : vsub (apply (transpose BB) d) (apply BB d) = scal (sg / (L * L * L)) (cross a d).
Proof.
  pos. rewrite BB_ap, BB_tr_ap.
  assert (I : vsub (scal (dot n0 d) (cross a n0)) (scal (dot (cross a n0) d) n0) = scal (norm_sqr n0) (cross a d)).
  { unfold n0. poly. }
  rewrite EA in I.
  transitivity (scal (sg / (L * L * L * (A * A))) (vsub (scal (dot n0 d) (cross a n0)) (scal (dot (cross a n0) d) n0))).
  - generalize (cross a n0) n0 (sg / (L * L * L * (A * A))). intros. unfold scal, vsub. cbn. f_equal; ring.
  - rewrite I, scal_scal. f_equal. field. repeat split; lra.
Qed.
Lemma block_10 d : vadd (apply (madd (transpose M3_1) M1_3) d) (apply BB d) = scal (- sg) (vadd (Ka a b d) (Kb a b d)).
Proof. blocks. finish. Qed.
End Triangle.
