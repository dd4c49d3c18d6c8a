From Coq Require Import Reals Arith Lia Lra List.
From Coquelicot Require Import Coquelicot.
From Verif Require Import CmModel CmSpec CmProofs.
Local Open Scope R_scope.

Lemma rate_eq f t a b : rate f t a -> a = b -> rate f t b.
Proof. intros H <-. exact H. Qed.
Lemma rate_minus f g t a b : rate f t a -> rate g t b -> rate (fun u => f u - g u) t (a - b).
Proof. apply derivable_pt_lim_minus. Qed.
Lemma rate_scal c f t a : rate f t a -> rate (fun u => c * f u) t (c * a).
Proof. apply derivable_pt_lim_scal. Qed.
Lemma rate_div f g t a b : g t <> 0 -> rate f t a -> rate g t b ->
  rate (fun u => f u / g u) t ((a * g t - b * f t) / (g t * g t)).
Proof. intros H A B. apply derivable_pt_lim_div; assumption. Qed.
Lemma rate_ln f t a : 0 < f t -> rate f t a -> rate (fun u => ln (f u)) t (a / f t).
Proof.
  intros H A. apply (rate_eq _ _ (/ f t * a)); [|unfold Rdiv; ring].
  apply (derivable_pt_lim_comp f ln); [exact A|]. apply derivable_pt_lim_ln. exact H.
Qed.
Lemma rate_ln_abs f t a : f t <> 0 -> rate f t a -> rate (fun u => ln (Rabs (f u))) t (a / f t).
Proof.
  intros H A.
  apply (rate_eq _ _ ((sign (f t) * a) / Rabs (f t))).
  - apply (rate_ln (fun u => Rabs (f u))).
    + apply Rabs_pos_lt; exact H.
    + apply is_derive_Reals. apply is_derive_Reals in A.
      exact (is_derive_Rabs f t a A H).
  - destruct (Rlt_or_le 0 (f t)) as [P|P].
    + rewrite sign_eq_1, Rabs_right by lra. field. lra.
    + rewrite sign_eq_m1, Rabs_left by lra. field. lra.
Qed.

(* products *)
Fixpoint dvprod (d : nat) (s s' : vec) : R :=
  match d with O => 0 | S k => dvprod k s s' * s k + vprod k s * s' k end.
Lemma rate_vprod d s s' t : vec_rate d s t s' -> rate (fun u => vprod d (s u)) t (dvprod d (s t) s').
Proof.
  induction d as [|d IH]; intros H; simpl; [apply rate_const|].
  apply (rate_mult (fun u => vprod d (s u)) (fun u => s u d)).
  - apply IH. intros i Hi. apply H. lia.
  - apply H. lia.
Qed.
Lemma vprod_neq d s : vprod d s <> 0 -> forall i, (i < d)%nat -> s i <> 0.
Proof.
  induction d as [|d IH]; simpl; intros H i Hi; [lia|].
  destruct (Nat.eq_dec i d) as [->|N]; intros E.
  - apply H. rewrite E. ring.
  - apply (IH (fun K => H ltac:(rewrite K; ring)) i); [lia|exact E].
Qed.
Lemma domain_pos k d s : domain k d s -> k = StvkHencky \/ k = NeoHookean -> forall i, (i < d)%nat -> s i <> 0.
Proof.
  intros H [-> | ->] i Hi; simpl in H; [apply H; exact Hi|].
  apply (vprod_neq d s); [lra|exact Hi].
Qed.

(* dvprod / prod *)
Lemma dvprod_over d s s' : (forall i, (i < d)%nat -> s i <> 0) ->
  dvprod d s s' = vprod d s * vsum d (fun i => s' i / s i).
Proof.
  induction d as [|d IH]; intros H; simpl; [ring|].
  rewrite IH by (intros; apply H; lia). field. apply H. lia.
Qed.

Definition grad (d : nat) (g s' : vec) : R := vsum d (fun i => g i * s' i).
Definition row (d : nat) (h : mat) (s' : vec) : vec := fun i => vsum d (fun j => h i j * s' j).

(* ---- fixed corotated ---- *)
Lemma fc_grad m d s s' t : small_dim d -> vec_rate d s t s' ->
  rate (fun u => fc_psi m d (s u)) t (grad d (fc_dpsi m d (s t)) s').
Proof.
  intros Hd H. unfold fc_psi.
  eapply rate_eq.
  - apply rate_plus.
    + apply rate_scal. apply (rate_vsum d (fun i u => (s u i - 1) * (s u i - 1)) t (fun i => 2 * (s t i - 1) * s' i)).
      intros i Hi. eapply rate_eq.
      * apply (rate_mult (fun u => s u i - 1) (fun u => s u i - 1));
          (apply (rate_minus (fun u => s u i) (fun _ => 1)); [apply H; exact Hi|apply rate_const]).
      * ring.
    + assert (P : rate (fun u => vprod d (s u) - 1) t (dvprod d (s t) s' - 0)).
      { apply (rate_minus (fun u => vprod d (s u)) (fun _ => 1)); [apply rate_vprod; exact H|apply rate_const]. }
      apply (rate_mult (fun u => 1/2 * lam m * (vprod d (s u) - 1)) (fun u => vprod d (s u) - 1)); [|exact P].
      apply rate_scal. exact P.
  - unfold grad, fc_dpsi.
    destruct Hd as [-> | [-> | ->]]; simpl; field.
Qed.
Lemma fc_prod_rate d s s' t i : small_dim d -> (i < d)%nat -> vec_rate d s t s' ->
  rate (fun u => fc_S_prod_i d (s u) i) t
    (match d, i with
     | 2%nat, 0%nat => s' 1%nat | 2%nat, 1%nat => s' 0%nat
     | 3%nat, 0%nat => s' 1%nat * s t 2%nat + s t 1%nat * s' 2%nat
     | 3%nat, 1%nat => s' 0%nat * s t 2%nat + s t 0%nat * s' 2%nat
     | 3%nat, 2%nat => s' 0%nat * s t 1%nat + s t 0%nat * s' 1%nat
     | _, _ => 0 end).
Proof.
  intros Hd Hi H. destruct Hd as [-> | [-> | ->]]; (destruct i as [|[|[|i]]]; try lia); simpl;
    try apply rate_const; try (apply H; lia);
    match goal with |- rate (fun u => s u ?a * s u ?b) _ _ =>
      apply (rate_mult (fun u => s u a) (fun u => s u b)); apply H; lia end.
Qed.
Lemma fc_hess m d s s' t i : d = 2%nat \/ d = 3%nat -> (i < d)%nat -> vec_rate d s t s' ->
  rate (fun u => fc_dpsi m d (s u) i) t (row d (fc_d2psi m d (s t)) s' i).
Proof.
  intros Hd Hi H. unfold fc_dpsi.
  assert (Hs : small_dim d) by (unfold small_dim; tauto).
  eapply rate_eq.
  - apply rate_plus.
    + apply rate_scal. apply (rate_minus (fun u => s u i) (fun _ => 1)); [apply H; exact Hi|apply rate_const].
    + apply (rate_mult (fun u => lam m * (vprod d (s u) - 1)) (fun u => fc_S_prod_i d (s u) i)).
      * apply rate_scal. apply (rate_minus (fun u => vprod d (s u)) (fun _ => 1)); [apply rate_vprod; exact H|apply rate_const].
      * apply (fc_prod_rate d s s' t i Hs Hi H).
  - unfold row, fc_d2psi. destruct Hd as [-> | ->]; (destruct i as [|[|[|i]]]; try lia); simpl; ring.
Qed.
Lemma fc_coeff m d k S : pairs d k -> let (i, j) := pair_of k in
  2 * (S i - S j) * fc_bneg m d S k = fc_dpsi m d S i - fc_dpsi m d S j.
Proof.
  intros [[-> ->] | [-> H]]; [|destruct k as [|[|[|k]]]; try lia];
    unfold fc_bneg, fc_dpsi; simpl; field.
Qed.

(* ---- Hencky ---- *)
Lemma slog_rate d s s' t i : (i < d)%nat -> vec_rate d s t s' -> s t i <> 0 ->
  rate (fun u => s_log (s u) i) t (s' i / s t i).
Proof. intros Hi H N. unfold s_log. apply (rate_ln_abs (fun u => s u i)); [exact N|apply H; exact Hi]. Qed.
Lemma hk_grad m d s s' t : vec_rate d s t s' -> (forall i, (i < d)%nat -> s t i <> 0) ->
  rate (fun u => hk_psi m d (s u)) t (grad d (hk_dpsi m d (s t)) s').
Proof.
  intros H N. unfold hk_psi.
  assert (T : rate (fun u => vsum d (s_log (s u))) t (vsum d (fun i => s' i / s t i))).
  { apply (rate_vsum d (fun i u => s_log (s u) i)). intros i Hi. apply (slog_rate d s s'); auto. }
  eapply rate_eq.
  - apply rate_plus.
    + apply rate_scal. apply (rate_vsum d (fun i u => s_log (s u) i * s_log (s u) i) t (fun i => 2 * s_log (s t) i * (s' i / s t i))).
      intros i Hi. eapply rate_eq.
      * apply (rate_mult (fun u => s_log (s u) i) (fun u => s_log (s u) i)); apply (slog_rate d s s'); auto.
      * cbv beta. ring.
    + apply (rate_mult (fun u => 1/2 * lam m * vsum d (s_log (s u))) (fun u => vsum d (s_log (s u)))); [|exact T].
      apply rate_scal. exact T.
  - unfold grad, hk_dpsi. set (L := vsum d (s_log (s t))).
    rewrite (vsum_ext d (fun i => ((mu m + mu m) * s_log (s t) i + lam m * L) / s t i * s' i)
       (fun i => mu m * (2 * s_log (s t) i * (s' i / s t i)) + (lam m * L) * (s' i / s t i))).
    + rewrite vsum_plus, !vsum_scal. field.
    + intros i Hi. field. apply N; exact Hi.
Qed.
Lemma row_diag d (h : mat) (a b s' : vec) i : (i < d)%nat ->
  (forall j, (j < d)%nat -> h i j = a j + delta i j * b j) ->
  vsum d (fun j => h i j * s' j) = vsum d (fun j => a j * s' j) + b i * s' i.
Proof.
  intros Hi H.
  rewrite (vsum_ext d _ (fun j => a j * s' j + delta i j * (b j * s' j))).
  - rewrite vsum_plus. f_equal. apply (vsum_delta d i (fun j => b j * s' j)). exact Hi.
  - intros j Hj. rewrite H by exact Hj. ring.
Qed.
Lemma hk_hess m d s s' t i : (i < d)%nat -> vec_rate d s t s' -> (forall j, (j < d)%nat -> s t j <> 0) ->
  rate (fun u => hk_dpsi m d (s u) i) t (row d (hk_d2psi m d (s t)) s' i).
Proof.
  intros Hi H N. unfold hk_dpsi.
  assert (T : rate (fun u => vsum d (s_log (s u))) t (vsum d (fun i => s' i / s t i))).
  { apply (rate_vsum d (fun i u => s_log (s u) i)). intros j Hj. apply (slog_rate d s s'); auto. }
  eapply rate_eq.
  - apply (rate_div (fun u => (mu m + mu m) * s_log (s u) i + lam m * vsum d (s_log (s u))) (fun u => s u i)).
    + apply N; exact Hi.
    + apply rate_plus; apply rate_scal; [apply (slog_rate d s s'); auto|exact T].
    + apply H; exact Hi.
  - unfold row.
    rewrite (row_diag d (hk_d2psi m d (s t)) (fun j => lam m / (s t i * s t j))
      (fun j => ((mu m + mu m) * (1 - s_log (s t) j) - lam m * vsum d (s_log (s t))) / (s t j * s t j)) s' i Hi).
    + rewrite (vsum_ext d (fun j => lam m / (s t i * s t j) * s' j) (fun j => (lam m / s t i) * (s' j / s t j))).
      * rewrite vsum_scal. cbv beta. field. apply N; exact Hi.
      * intros j Hj. field. split; apply N; assumption.
    + intros j Hj. unfold hk_d2psi, delta. destruct (Nat.eqb_spec i j) as [<-|E]; [|ring].
      field. apply N; exact Hi.
Qed.

(* ---- neo-Hookean ---- *)
Lemma lnprod_rate d s s' t : vec_rate d s t s' -> 0 < vprod d (s t) ->
  rate (fun u => ln (vprod d (s u))) t (vsum d (fun i => s' i / s t i)).
Proof.
  intros H P. eapply rate_eq.
  - apply (rate_ln (fun u => vprod d (s u))); [exact P|apply rate_vprod; exact H].
  - rewrite dvprod_over by (apply vprod_neq; lra). field. lra.
Qed.
Lemma nh_grad m d s s' t : vec_rate d s t s' -> 0 < vprod d (s t) ->
  rate (fun u => nh_psi m d (s u)) t (grad d (nh_dpsi m d (s t)) s').
Proof.
  intros H P. assert (N := vprod_neq d (s t) (Rgt_not_eq _ _ P)).
  assert (T := lnprod_rate d s s' t H P). unfold nh_psi.
  eapply rate_eq.
  - apply rate_minus.
    + apply rate_scal. apply (rate_minus (fun u => vsum d (fun i => s u i * s u i)) (fun _ => INR d)).
      * apply (rate_vsum d (fun i u => s u i * s u i) t (fun i => 2 * (s t i * s' i))).
        intros i Hi. eapply rate_eq.
        -- apply (rate_mult (fun u => s u i) (fun u => s u i)); apply H; exact Hi.
        -- ring.
      * apply rate_const.
    + apply (rate_mult (fun u => mu m - 1/2 * lam m * ln (vprod d (s u))) (fun u => ln (vprod d (s u)))); [|exact T].
      apply (rate_minus (fun _ => mu m) (fun u => 1/2 * lam m * ln (vprod d (s u)))); [apply rate_const|].
      apply rate_scal. exact T.
  - unfold grad, nh_dpsi. set (L := ln (vprod d (s t))).
    rewrite (vsum_ext d (fun i => (mu m * (s t i - 1 / s t i) + lam m * (1 / s t i) * L) * s' i)
       (fun i => mu m * (s t i * s' i) + (lam m * L - mu m) * (s' i / s t i))).
    + rewrite vsum_plus, !vsum_scal. field.
    + intros i Hi. field. apply N; exact Hi.
Qed.
Lemma nh_hess m d s s' t i : (i < d)%nat -> vec_rate d s t s' -> 0 < vprod d (s t) ->
  rate (fun u => nh_dpsi m d (s u) i) t (row d (nh_d2psi m d (s t)) s' i).
Proof.
  intros Hi H P. assert (N := vprod_neq d (s t) (Rgt_not_eq _ _ P)).
  assert (T := lnprod_rate d s s' t H P). unfold nh_dpsi.
  assert (I : rate (fun u => 1 / s u i) t ((0 * s t i - s' i * 1) / (s t i * s t i))).
  { apply (rate_div (fun _ => 1) (fun u => s u i)); [apply N; exact Hi|apply rate_const|apply H; exact Hi]. }
  eapply rate_eq.
  - apply rate_plus.
    + apply rate_scal. apply (rate_minus (fun u => s u i) (fun u => 1 / s u i)); [apply H; exact Hi|exact I].
    + apply (rate_mult (fun u => lam m * (1 / s u i)) (fun u => ln (vprod d (s u)))); [|exact T].
      apply rate_scal. exact I.
  - unfold row.
    rewrite (row_diag d (nh_d2psi m d (s t)) (fun j => lam m / (s t i * s t j))
      (fun j => mu m * (1 + 1 / (s t j * s t j)) - lam m * ln (vprod d (s t)) / (s t j * s t j)) s' i Hi).
    + rewrite (vsum_ext d (fun j => lam m / (s t i * s t j) * s' j) (fun j => (lam m / s t i) * (s' j / s t j))).
      * rewrite vsum_scal. cbv beta. field. apply N; exact Hi.
      * intros j Hj. field. split; apply N; assumption.
    + intros j Hj. unfold nh_d2psi, delta. destruct (Nat.eqb_spec i j) as [<-|E]; [|ring].
      field. apply N; exact Hi.
Qed.
Lemma nh_coeff m d k S : pairs d k -> 0 < vprod d S -> let (i, j) := pair_of k in
  2 * (S i - S j) * nh_bneg m d S k = nh_dpsi m d S i - nh_dpsi m d S j.
Proof.
  intros Hp P. assert (N := vprod_neq d S (Rgt_not_eq _ _ P)).
  destruct Hp as [[-> ->] | [-> H]].
  - unfold nh_bneg, nh_dpsi; simpl. assert (N0 := N 0%nat ltac:(lia)). assert (N1 := N 1%nat ltac:(lia)). field; auto.
  - assert (N0 := N 0%nat ltac:(lia)). assert (N1 := N 1%nat ltac:(lia)). assert (N2 := N 2%nat ltac:(lia)).
    destruct k as [|[|[|k]]]; try lia; unfold nh_bneg, nh_dpsi; simpl; field; auto.
Qed.

(* ---- all three ---- *)
Theorem gradient k m d s s' t : small_dim d -> vec_rate d s t s' -> domain k d (s t) ->
  rate (fun u => psi_sigma (model k m) d (s u)) t (grad d (dpsi_dsigma (model k m) d (s t)) s').
Proof.
  intros Hd H D. destruct k; simpl in D |- *; [apply fc_grad|apply hk_grad|apply nh_grad]; assumption.
Qed.
Theorem hessian k m d s s' t i : d = 2%nat \/ d = 3%nat \/ (d = 1%nat /\ k <> FixedCorotated) -> vec_rate d s t s' -> domain k d (s t) -> (i < d)%nat ->
  rate (fun u => dpsi_dsigma (model k m) d (s u) i) t (row d (d2psi_dsigma2 (model k m) d (s t)) s' i).
Proof.
  intros Hd H D Hi. destruct k; simpl in D |- *; [apply fc_hess|apply hk_hess|apply nh_hess]; try assumption.
  destruct Hd as [E|[E|[_ E]]]; [tauto|tauto|contradiction].
Qed.
Theorem stress k m d (F U V : R -> mat) (S : R -> vec) t (G U' V' : mat) (S' : vec) : small_dim d ->
  (forall u, decomposes d (F u) (U u) (S u) (V u)) ->
  mat_rate d F t G -> mat_rate d U t U' -> vec_rate d S t S' -> mat_rate d V t V' ->
  domain k d (S t) ->
  rate (fun u => psi (model k m) d (S u)) t (contract d (first_piola (model k m) d (U t) (S t) (V t)) G).
Proof.
  intros Hd HF HG HU HS HV D. unfold psi.
  eapply rate_eq; [apply gradient; eassumption|].
  unfold first_piola. rewrite contract_compose. unfold grad. apply vsum_ext. intros l Hl. f_equal.
  assert (OU := proj1 (HF t)). assert (OV := proj1 (proj2 (HF t))).
  rewrite (hat_ext d (U t) (V t) G (dcompose d (U t) U' (S t) S' (V t) V')).
  - rewrite hat_dcompose by assumption. rewrite delta_eq.
    assert (E1 := gram_skew d U U' t (fun u => proj1 (HF u)) HU l l Hl Hl).
    assert (E2 := gram_skew d V V' t (fun u => proj1 (proj2 (HF u))) HV l l Hl Hl).
    assert (gram d (U t) U' l l = 0) as -> by lra. assert (gram d (V t) V' l l = 0) as -> by lra. ring.
  - intros i j Hi Hj. eapply rate_unique; [apply HG; assumption|].
    eapply rate_ext; [|apply rate_compose; eassumption]. intros u. symmetry. apply HF; assumption.
Qed.
