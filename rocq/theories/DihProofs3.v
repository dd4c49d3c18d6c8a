(* Proofs for C89: the Hessian. *)
From Coq Require Import Reals List Lra Lia Psatz.
From Verif Require Import FricModel FricSpec FricProofs DihModel DihSpec DihProofs DihProofs2.
Import ListNotations.
Local Open Scope R_scope.

Lemma v3_eq u v : vx u = vx v -> vy u = vy v -> vz u = vz v -> u = v.
Proof. destruct u, v. cbn. now intros -> -> ->. Qed.
Ltac poly := unfold norm_sqr, dot, cross, vadd, vsub, scal; cbn; apply v3_eq; cbn; ring.

(* ---- blocks applied to a direction ---- *)
Lemma ap_dyadic u v d : apply (dyadic_prod u v) d = scal (dot v d) u.
Proof. unfold apply, dyadic_prod. poly. Qed.
Lemma ap_dyadic_t u v d : apply (transpose (dyadic_prod u v)) d = scal (dot u d) v.
Proof. unfold apply, dyadic_prod, transpose. poly. Qed.
Lemma ap_add m n d : apply (madd m n) d = vadd (apply m d) (apply n d).
Proof. unfold apply, madd. poly. Qed.
Lemma ap_sub m n d : apply (msub m n) d = vsub (apply m d) (apply n d).
Proof. unfold apply, msub. poly. Qed.
Lemma ap_neg m d : apply (mneg m) d = scal (-1) (apply m d).
Proof. unfold apply, mneg. poly. Qed.
Lemma ap_div m k d : apply (mdiv m k) d = scal (/ k) (apply m d).
Proof. unfold apply, mdiv. poly. Qed.
Lemma ap_zero d : apply mzero d = zero.
Proof. unfold apply, mzero, zero. poly. Qed.
Lemma tr_add m n : transpose (madd m n) = madd (transpose m) (transpose n).
Proof. reflexivity. Qed.
Lemma tr_sub m n : transpose (msub m n) = msub (transpose m) (transpose n).
Proof. reflexivity. Qed.
Lemma tr_neg m : transpose (mneg m) = mneg (transpose m).
Proof. reflexivity. Qed.
Lemma tr_div m k : transpose (mdiv m k) = mdiv (transpose m) k.
Proof. reflexivity. Qed.
Lemma tr_tr m : transpose (transpose m) = m.
Proof. destruct m as [[] [] []]. reflexivity. Qed.

(* ---- the unit height vectors ---- *)
Lemma mhat_eq xp x0 x1 : let p := vsub xp x0 in let q := vsub x1 x0 in cross p q <> zero ->
  compute_mHat xp x0 x1 = scal (/ (norm (cross p q) * norm q)) (cross (cross p q) q).
Proof.
  intros p q N. assert (Q : q <> zero) by now apply (cross_right_nz p).
  pose proof (norm_sqr_pos q Q) as PQ. pose proof (norm_pos q Q) as PN. pose proof (norm_pos _ N) as PC.
  set (m := cross (cross p q) q).
  assert (E : vsub (vadd x0 (scal (dot (vsub xp x0) (vsub x1 x0) / norm_sqr (vsub x1 x0)) (vsub x1 x0))) xp = scal (/ norm_sqr q) m).
  { fold p q. replace (scal (/ norm_sqr q) m) with (vsub (scal (dot p q / norm_sqr q) q) (scal (norm_sqr q / norm_sqr q) p)).
    - replace (norm_sqr q / norm_sqr q) with 1 by (field; lra). unfold p. apply v3_eq; unfold vadd, vsub, scal; cbn; ring.
    - unfold m. unfold Rdiv. set (i := / norm_sqr q). unfold norm_sqr, dot, cross, scal, vsub. cbn. f_equal; ring. }
  unfold compute_mHat. rewrite E.
  assert (NM : norm (scal (/ norm_sqr q) m) = norm (cross p q) * norm q / norm_sqr q).
  { assert (K : norm_sqr (scal (/ norm_sqr q) m) = (norm (cross p q) * norm q / norm_sqr q) * (norm (cross p q) * norm q / norm_sqr q)).
    { replace ((norm (cross p q) * norm q / norm_sqr q) * (norm (cross p q) * norm q / norm_sqr q))
        with ((norm (cross p q) * norm (cross p q)) * (norm q * norm q) * (/ norm_sqr q * / norm_sqr q)) by (field; lra).
      rewrite !norm_sq. replace (norm_sqr (scal (/ norm_sqr q) m)) with (norm_sqr m * (/ norm_sqr q * / norm_sqr q))
        by (set (i := / norm_sqr q); unfold norm_sqr, dot, scal; cbn; ring).
      f_equal. unfold m. rewrite cross_norm, cross_r. ring. }
    unfold norm at 1. rewrite K. apply sqrt_square.
    apply Rmult_le_pos; [nra|]. left. now apply Rinv_0_lt_compat. }
  rewrite NM. unfold vdiv, scal. cbn. f_equal; field; repeat split; lra.
Qed.

(* ---- the two vector fields the gradient is made of ---- *)
Definition FF (a b : v3) : v3 := scal (- norm a / norm_sqr (cross a b)) (cross a b).
Definition KK (a b : v3) : v3 := scal (dot a b / (norm a * norm_sqr (cross a b))) (cross a b).
(* their derivatives *)
Definition Fa (a b d : v3) : v3 := let n := cross a b in
  scal (/ (norm a * (norm_sqr n * norm_sqr n))) (vsub (scal (dot a b * dot (cross a n) d) n) (scal (dot a a * dot n d) (cross n b))).
Definition Fb (a b d : v3) : v3 := let n := cross a b in
  scal (/ (norm a * (norm_sqr n * norm_sqr n))) (scal (- dot a a) (vadd (scal (dot (cross a n) d) n) (scal (dot n d) (cross a n)))).
Definition Ka (a b d : v3) : v3 := let n := cross a b in
  scal (/ (norm a * norm a * norm a * (norm_sqr n * norm_sqr n)))
    (vsub (scal (dot a a * dot a b) (vadd (scal (dot n d) (cross n b)) (scal (dot (cross n b) d) n)))
          (scal (norm_sqr n * dot (cross a n) d) n)).
Definition Kb (a b d : v3) : v3 := let n := cross a b in
  scal (/ (norm a * (norm_sqr n * norm_sqr n))) (vsub (scal (dot a b * dot n d) (cross a n)) (scal (dot a a * dot (cross n b) d) n)).
Lemma dv_scal k f k' f' : derivable_pt_lim k 0 k' -> dv f f' -> dv (fun t => scal (k t) (f t)) (vadd (scal k' (f 0)) (scal (k 0) f')).
Proof.
  intros D (A & B & C). unfold dv, scal, vadd. cbn.
  split; [|split]; apply d_mult; assumption.
Qed.
Lemma dv_ext f g f' g' : (forall t, f t = g t) -> f' = g' -> dv g g' -> dv f f'.
Proof.
  intros E -> (A & B & C). split; [|split]; (eapply dext; [|reflexivity|eassumption]); intros; cbn beta; now rewrite E.
Qed.
Lemma dv_add f g f' g' : dv f f' -> dv g g' -> dv (fun t => vadd (f t) (g t)) (vadd f' g').
Proof. intros (A & B & C) (A' & B' & C'). unfold dv, vadd. cbn. split; [|split]; apply d_plus; assumption. Qed.
Lemma d_quot f g f' g' : derivable_pt_lim f 0 f' -> derivable_pt_lim g 0 g' -> g 0 <> 0 ->
  derivable_pt_lim (fun t => f t / g t) 0 ((f' * g 0 - g' * f 0) / Rsqr (g 0)).
Proof. intros A B N. now apply (derivable_pt_lim_div f g). Qed.

Section Fields.
Variables (a b : R -> v3) (a' b' : v3).
Hypothesis Da : dv a a'. Hypothesis Db : dv b b'.
Hypothesis N : cross (a 0) (b 0) <> zero.
Lemma a_nz : a 0 <> zero. Proof. exact (cross_left_nz _ _ N). Qed.
Lemma dFF : dv (fun t => FF (a t) (b t)) (vadd (Fa (a 0) (b 0) a') (Fb (a 0) (b 0) b')).
Proof.
  pose proof (dv_cross _ _ _ _ Da Db) as Dn. pose proof (d_dot _ _ _ _ Dn Dn) as DN.
  pose proof (d_norm _ _ Da a_nz) as DL.
  pose proof (norm_sqr_pos _ N) as PN. pose proof (norm_pos _ a_nz) as PL. pose proof (norm_sq (a 0)) as QL.
  eapply dv_ext; [reflexivity| |unfold FF; apply dv_scal; [|exact Dn]].
  2: { apply d_quot; [|exact DN|cbn beta; fold (norm_sqr (cross (a 0) (b 0))); lra].
       apply (dext _ (fun t => 0 - norm (a t)) _ _ (0 - dot (a 0) a' / norm (a 0))); [intros; ring|reflexivity|].
       apply (d_minus (fun _ => 0)); [apply derivable_pt_lim_const|exact DL]. }
  cbn beta. fold (norm_sqr (cross (a 0) (b 0))).
  generalize (a 0) (b 0) PN PL QL. clear. intros a b PN PL QL.
  unfold Fa, Fb. set (n := cross a b) in *. set (L := norm a) in *. set (M := norm_sqr n) in *.
  set (n' := vadd (cross a' b) (cross a b')).
  assert (P : vadd (vsub (scal (dot a b * dot (cross a n) a') n) (scal (dot a a * dot n a') (cross n b)))
      (scal (- dot a a) (vadd (scal (dot (cross a n) b') n) (scal (dot n b') (cross a n)))) =
      vadd (scal (- dot a a' * M + dot a a * (2 * dot n n')) n) (scal (- dot a a * M) n')).
  { unfold M, n', n. poly. }
  transitivity (scal (/ (L * (M * M))) (vadd (scal (- dot a a' * M + dot a a * (2 * dot n n')) n) (scal (- dot a a * M) n'))).
  { rewrite <- P. clear P. generalize (vsub (scal (dot a b * dot (cross a n) a') n) (scal (dot a a * dot n a') (cross n b))). intros u.
    generalize (scal (- dot a a) (vadd (scal (dot (cross a n) b') n) (scal (dot n b') (cross a n)))). intros w. unfold scal, vadd. cbn. f_equal; ring. }
  rewrite (dot_sym n' n). unfold norm_sqr in QL. rewrite <- QL. fold M. unfold vadd, scal. cbn. unfold Rsqr. f_equal; field; repeat split; lra.
Qed.
Lemma dKK : dv (fun t => KK (a t) (b t)) (vadd (Ka (a 0) (b 0) a') (Kb (a 0) (b 0) b')).
Proof.
  pose proof (dv_cross _ _ _ _ Da Db) as Dn. pose proof (d_dot _ _ _ _ Dn Dn) as DN. pose proof (d_dot _ _ _ _ Da Db) as Dd.
  pose proof (d_norm _ _ Da a_nz) as DL.
  pose proof (norm_sqr_pos _ N) as PN. pose proof (norm_pos _ a_nz) as PL. pose proof (norm_sq (a 0)) as QL.
  eapply dv_ext; [reflexivity| |unfold KK; apply dv_scal; [|exact Dn]].
  2: { apply d_quot; [exact Dd|apply (d_mult (fun t => norm (a t)) (fun t => norm_sqr (cross (a t) (b t)))); [exact DL|exact DN]|cbn beta].
       apply Rgt_not_eq. apply Rmult_lt_0_compat; assumption. }
  cbn beta.
  generalize (a 0) (b 0) PN PL QL. clear. intros a b PN PL QL. fold (norm_sqr (cross a b)).
  unfold Ka, Kb. set (n := cross a b) in *. set (L := norm a) in *. set (M := norm_sqr n) in *.
  set (n' := vadd (cross a' b) (cross a b')).
  set (u1 := vsub (scal (dot a a * dot a b) (vadd (scal (dot n a') (cross n b)) (scal (dot (cross n b) a') n))) (scal (M * dot (cross a n) a') n)).
  set (u2 := vsub (scal (dot a b * dot n b') (cross a n)) (scal (dot a a * dot (cross n b) b') n)).
  assert (P : vadd u1 (scal (dot a a) u2) =
      vadd (scal ((dot a' b + dot a b') * dot a a * M - dot a b * dot a a' * M - 2 * dot a b * dot a a * dot n n') n) (scal (dot a b * dot a a * M) n')).
  { unfold u1, u2, M, n', n. poly. }
  transitivity (scal (/ (L * L * L * (M * M))) (vadd u1 (scal (dot a a) u2))).
  { unfold norm_sqr in QL. rewrite <- QL. unfold vadd, scal. cbn. f_equal; field; repeat split; lra. }
  rewrite P. rewrite (dot_sym n' n). unfold norm_sqr in QL. rewrite <- QL. unfold vadd, scal. cbn. unfold Rsqr. f_equal; field; repeat split; lra.
Qed.
End Fields.
