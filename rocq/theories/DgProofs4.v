(* C90: the mollifier. *)
From Coq Require Import Bool ZArith Reals List Lra Lia.
From Verif Require Import FricModel FricSpec DgModel DgSpec DgProofs DgProofs2 DgProofs3.
Import ListNotations.
Local Open Scope R_scope.

Definition phi (eps x : R) : R := if Rlt_dec x eps then EEM x eps else 1.
Definition phi' (eps x : R) : R := if Rlt_dec x eps then g_EEM x eps else 0.
Definition phi'' (eps x : R) : R := if Rlt_dec x eps then H_EEM x eps else 0.
Lemma near f g x d : (exists r, 0 < r /\ forall y, Rabs (y - x) < r -> f y = g y) -> derivable_pt_lim g x d -> derivable_pt_lim f x d.
Proof.
  intros (r & Hr & E) H eps He. destruct (H eps He) as [[q Hq] Hd]. cbn in Hd.
  assert (Hm : 0 < Rmin q r) by now apply Rmin_glb_lt. exists (mkposreal _ Hm). cbn. intros h H0 H1.
  rewrite !E; [apply Hd; [exact H0|]| |].
  - eapply Rlt_le_trans; [exact H1|apply Rmin_l].
  - replace (x - x) with 0 by ring. now rewrite Rabs_R0.
  - replace (x + h - x) with h by ring. eapply Rlt_le_trans; [exact H1|apply Rmin_r].
Qed.
Lemma d_quad a b c x : derivable_pt_lim (fun y => a * y * y + b * y + c) x (2 * a * x + b).
Proof.
  intros e He. destruct (Req_dec a 0) as [->|Ha].
  - exists (mkposreal 1 Rlt_0_1). intros h H0 _. replace (_ / h - _) with 0 by (field; exact H0). now rewrite Rabs_R0.
  - assert (P : 0 < e / Rabs a) by (apply Rdiv_lt_0_compat; [exact He|now apply Rabs_pos_lt]).
    exists (mkposreal _ P). cbn. intros h H0 H1.
    replace ((a * (x + h) * (x + h) + b * (x + h) + c - (a * x * x + b * x + c)) / h - (2 * a * x + b)) with (a * h) by (field; exact H0).
    rewrite Rabs_mult. apply Rmult_lt_compat_l with (r := Rabs a) in H1; [|now apply Rabs_pos_lt].
    replace (Rabs a * (e / Rabs a)) with e in H1 by (field; now apply Rabs_no_R0). exact H1.
Qed.
Lemma d_EEM eps x : eps <> 0 -> derivable_pt_lim (fun y => EEM y eps) x (g_EEM x eps).
Proof.
  intros He. eapply near with (g := fun y => - (/ eps * / eps) * y * y + 2 * / eps * y + 0).
  - exists 1. split; [lra|]. intros y _. unfold EEM. field. exact He.
  - replace (g_EEM x eps) with (2 * - (/ eps * / eps) * x + 2 * / eps) by (unfold g_EEM; field; exact He). apply d_quad.
Qed.
Lemma d_g_EEM eps x : eps <> 0 -> derivable_pt_lim (fun y => g_EEM y eps) x (H_EEM x eps).
Proof.
  intros He. eapply near with (g := fun y => 0 * y * y + -2 * (/ eps * / eps) * y + 2 * / eps).
  - exists 1. split; [lra|]. intros y _. unfold g_EEM. field. exact He.
  - replace (H_EEM x eps) with (2 * 0 * x + -2 * (/ eps * / eps)) by (unfold H_EEM; field; exact He). apply d_quad.
Qed.
Lemma d_phi eps x : 0 < eps -> derivable_pt_lim (phi eps) x (phi' eps x).
Proof.
  intros He. destruct (Rtotal_order x eps) as [H|[H|H]].
  - unfold phi'. destruct (Rlt_dec x eps); [|lra]. apply near with (g := fun y => EEM y eps); [|apply d_EEM; lra].
    exists (eps - x). split; [lra|]. intros y Hy. unfold phi. destruct (Rlt_dec y eps) as [|?]; [reflexivity|].
    apply Rabs_def2 in Hy. lra.
  - unfold phi'. destruct (Rlt_dec x eps); [lra|]. subst x.
    (* the parabola has its vertex here *)
    pose proof (d_EEM eps eps ltac:(lra)) as D. replace (g_EEM eps eps) with 0 in D by (unfold g_EEM; field; lra).
    assert (V1 : EEM eps eps = 1) by (unfold EEM; field; lra).
    intros e Hp. destruct (D e Hp) as [q Hq]. exists q. intros h H0 H1. specialize (Hq h H0 H1).
    unfold phi. destruct (Rlt_dec eps eps); [lra|]. destruct (Rlt_dec (eps + h) eps).
    + now rewrite <- V1 at 1.
    + replace ((1 - 1) / h - 0) with 0 by (field; exact H0). now rewrite Rabs_R0.
  - unfold phi'. destruct (Rlt_dec x eps); [lra|]. apply near with (g := fun _ => 1); [|apply derivable_pt_lim_const].
    exists (x - eps). split; [lra|]. intros y Hy. unfold phi. destruct (Rlt_dec y eps) as [?|?]; [|reflexivity].
    apply Rabs_def2 in Hy. lra.
Qed.
Lemma d_phi' eps x : 0 < eps -> x <> eps -> derivable_pt_lim (phi' eps) x (phi'' eps x).
Proof.
  intros He Hx. unfold phi''. destruct (Rlt_dec x eps) as [H|H].
  - apply near with (g := fun y => g_EEM y eps); [|apply d_g_EEM; lra].
    exists (eps - x). split; [lra|]. intros y Hy. unfold phi'. destruct (Rlt_dec y eps) as [|?]; [reflexivity|].
    apply Rabs_def2 in Hy. lra.
  - apply near with (g := fun _ => 0); [|apply derivable_pt_lim_const].
    exists (x - eps). split; [lra|]. intros y Hy. unfold phi'. destruct (Rlt_dec y eps) as [?|?]; [|reflexivity].
    apply Rabs_def2 in Hy. lra.
Qed.
Lemma weighted_scal k g d : weighted (map (Rmult k) g) d = k * weighted g d.
Proof. revert d. induction g; intros [|x d]; cbn; rewrite ?IHg; ring. Qed.
Lemma weighted_0 n d : weighted (repeat 0 n) d = 0.
Proof. revert d. induction n; intros [|x d]; cbn; rewrite ?IHn; ring. Qed.
Lemma comp f g x : derivable_pt_lim f (g 0) x -> forall y, derivable_pt_lim g 0 y -> derivable_pt_lim (fun t => f (g t)) 0 (x * y).
Proof. intros H y Hy. exact (derivable_pt_lim_comp g f 0 y x Hy H). Qed.

Lemma row_outer (f : R -> R -> R) g i : forall a, (i < length a)%nat ->
  firstn (length g) (skipn (length g * i) (flat_map (fun x => map (f x) g) a)) = map (f (nth i a 0)) g.
Proof.
  revert i. intros i a. revert i. induction a as [|x a IH]; intros i Hi; cbn in Hi; [lia|]. destruct i as [|i].
  - rewrite Nat.mul_0_r. cbn [skipn flat_map nth]. rewrite firstn_app, map_length, Nat.sub_diag, firstn_O, app_nil_r.
    rewrite <- (map_length (f x) g) at 1. apply firstn_all.
  - cbn [flat_map nth]. rewrite skipn_app, map_length.
    rewrite (skipn_all2 (map (f x) g)) by (rewrite map_length; nia). cbn [app].
    replace (length g * S i - length g)%nat with (length g * i)%nat by nia. apply IH. lia.
Qed.
Lemma skipn_combine {A B} n (a : list A) (b : list B) : skipn n (combine a b) = combine (skipn n a) (skipn n b).
Proof. revert a b. induction n; intros [|x a] [|y b]; cbn; auto. now rewrite combine_nil. Qed.
Lemma firstn_combine {A B} n (a : list A) (b : list B) : firstn n (combine a b) = combine (firstn n a) (firstn n b).
Proof. revert a b. induction n; intros [|x a] [|y b]; cbn; auto. now rewrite IHn. Qed.
Lemma weighted_combine (k q c : R) : forall h g d, length h = length g ->
  weighted (map (fun hg => fst hg * k + q * snd hg) (combine h (map (fun gj => c * gj) g))) d = k * weighted h d + q * c * weighted g d.
Proof.
  induction h as [|x h IH]; intros [|y g] [|z d] L; cbn in *; try discriminate; try ring.
  rewrite IH by lia. ring.
Qed.

Section Mollifier.
Variables (a b c e da db dc de : v3) (eps : R).
Hypothesis Heps : 0 < eps.
Definition cn_at (t : R) : R := cn2_ee (moved a da t) (moved b db t) (moved c dc t) (moved e de t).
Definition grad_at (t : R) : list R := cn2_grad_ee (moved a da t) (moved b db t) (moved c dc t) (moved e de t).
Lemma moved_0 v d : moved v d 0 = v.
Proof. destruct v. unfold moved. cbn. f_equal; ring. Qed.
Lemma cn_at_0 : cn_at 0 = cn2_ee a b c e. Proof. unfold cn_at. now rewrite !moved_0. Qed.
Lemma grad_at_0 : grad_at 0 = cn2_grad_ee a b c e. Proof. unfold grad_at. now rewrite !moved_0. Qed.
Lemma grad_length a' b' c' e' : length (cn2_grad_ee a' b' c' e') = 12%nat. Proof. reflexivity. Qed.
Lemma hess_length a' b' c' e' : length (cn2_hess_ee a' b' c' e') = 144%nat. Proof. reflexivity. Qed.
Lemma mollifier_gradient : is_gradient
  (fun t => mollifier_ee (moved a da t) (moved b db t) (moved c dc t) (moved e de t) eps) (mollifier_grad_ee a b c e eps) (coords [da; db; dc; de]).
Proof.
  destruct (CN_gradient a b c e da db dc de) as [L G]. split.
  - unfold mollifier_grad_ee. destruct (Rlt_dec _ _); [now rewrite map_length|reflexivity].
  - change (derivable_pt_lim (fun t => phi eps (cn_at t)) 0 (weighted (mollifier_grad_ee a b c e eps) (coords [da; db; dc; de]))).
    replace (weighted _ _) with (phi' eps (cn_at 0) * weighted (cn2_grad_ee a b c e) (coords [da; db; dc; de])).
    + apply comp; [now apply d_phi|exact G].
    + rewrite cn_at_0. unfold mollifier_grad_ee, phi'. destruct (Rlt_dec _ _); [now rewrite weighted_scal|]. rewrite weighted_0. ring.
Qed.
Lemma nth_scal k g i : nth i (map (Rmult k) g) 0 = k * nth i g 0.
Proof. rewrite <- (Rmult_0_r k) at 1. apply map_nth. Qed.
Lemma nth_0 i n : nth i (repeat 0 n) 0 = 0.
Proof. revert i. induction n; intros [|i]; cbn; auto. Qed.
Lemma mollifier_hessian : cn2_ee a b c e <> eps -> is_jacobian 12
  (fun t => mollifier_grad_ee (moved a da t) (moved b db t) (moved c dc t) (moved e de t) eps) (mollifier_hess_ee a b c e eps) (coords [da; db; dc; de]).
Proof.
  intros NE. destruct (CN_gradient a b c e da db dc de) as [_ G]. destruct (CN_hessian a b c e da db dc de) as [(_ & _ & _ & H) _].
  split; [reflexivity|]. split; [|split].
  - unfold mollifier_hess_ee. destruct (Rlt_dec _ _); [|reflexivity].
    rewrite map_length, combine_length, hess_length. reflexivity.
  - unfold mollifier_grad_ee. destruct (Rlt_dec _ _); [now rewrite map_length|reflexivity].
  - intros i Hi.
    apply d_ext with (g := fun t => phi' eps (cn_at t) * nth i (grad_at t) 0)
      (b := phi'' eps (cn_at 0) * weighted (cn2_grad_ee a b c e) (coords [da; db; dc; de]) * nth i (grad_at 0) 0 +
            phi' eps (cn_at 0) * weighted (row 12 i (cn2_hess_ee a b c e)) (coords [da; db; dc; de])).
    + intros t. unfold mollifier_grad_ee, phi'. fold (cn_at t). fold (grad_at t). destruct (Rlt_dec _ _); [apply nth_scal|]. rewrite nth_0. ring.
    + rewrite cn_at_0, grad_at_0. unfold mollifier_hess_ee, phi', phi''. destruct (Rlt_dec _ _).
      * unfold row. rewrite skipn_map, firstn_map, skipn_combine, firstn_combine.
        pose proof (row_outer (fun gi gj => gi * gj) (cn2_grad_ee a b c e) i (cn2_grad_ee a b c e)) as Ro. rewrite grad_length in Ro.
        rewrite (Ro Hi), weighted_combine; [ring|]. rewrite firstn_length, skipn_length, hess_length, grad_length. lia.
      * assert (Z : forall m, weighted (row 12 i (repeat 0 m)) (coords [da; db; dc; de]) = 0).
        { intros m0. unfold row. assert (K : forall k n, skipn k (repeat 0 n) = repeat 0 (n - k)) by (induction k; intros [|m]; cbn; auto).
          assert (K' : forall k n, firstn k (repeat 0 n) = repeat 0 (Nat.min k n)) by (induction k; intros [|m]; cbn; f_equal; auto).
          rewrite K, K'. apply weighted_0. }
        rewrite Z. ring.
    + apply (derivable_pt_lim_mult (fun t => phi' eps (cn_at t)) (fun t => nth i (grad_at t) 0)); [|exact (H i Hi)].
      apply comp; [|exact G]. apply d_phi'; [exact Heps|]. now rewrite cn_at_0.
Qed.
End Mollifier.
