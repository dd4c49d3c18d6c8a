From Coq Require Import Reals Arith Lia Lra List.
From Coquelicot Require Import Coquelicot.
From Verif Require Import CmModel CmSpec.
Local Open Scope R_scope.

(* ---- sums ---- *)
Lemma vsum_ext d f g : (forall i, (i < d)%nat -> f i = g i) -> vsum d f = vsum d g.
Proof. induction d as [|d IH]; simpl; intros H; [reflexivity|]. rewrite IH, H by (intros; auto; apply H; lia). reflexivity. Qed.
Lemma vsum_plus d f g : vsum d (fun i => f i + g i) = vsum d f + vsum d g.
Proof. induction d as [|d IH]; simpl; [ring|]. rewrite IH. ring. Qed.
Lemma vsum_scal d c f : vsum d (fun i => c * f i) = c * vsum d f.
Proof. induction d as [|d IH]; simpl; [ring|]. rewrite IH. ring. Qed.
Lemma vsum_scal_r d c f : vsum d (fun i => f i * c) = vsum d f * c.
Proof. induction d as [|d IH]; simpl; [ring|]. rewrite IH. ring. Qed.
Lemma vsum_0 d : vsum d (fun _ => 0) = 0.
Proof. induction d as [|d IH]; simpl; [ring|]. rewrite IH. ring. Qed.
Lemma vsum_swap d e f : vsum d (fun i => vsum e (fun j => f i j)) = vsum e (fun j => vsum d (fun i => f i j)).
Proof.
  induction d as [|d IH]; simpl; [symmetry; apply vsum_0|].
  rewrite IH, <- vsum_plus. reflexivity.
Qed.
Lemma delta_eq i : delta i i = 1.
Proof. unfold delta. rewrite Nat.eqb_refl. reflexivity. Qed.
Lemma delta_neq i j : i <> j -> delta i j = 0.
Proof. unfold delta. intros H. destruct (Nat.eqb_spec i j); [contradiction|reflexivity]. Qed.
Lemma vsum_delta d k f : (k < d)%nat -> vsum d (fun i => delta k i * f i) = f k.
Proof.
  induction d as [|d IH]; intros H; [lia|]. simpl.
  destruct (Nat.eq_dec k d) as [->|N].
  - rewrite delta_eq. rewrite (vsum_ext d _ (fun _ => 0)), vsum_0; [ring|].
    intros i Hi. rewrite delta_neq by lia. ring.
  - rewrite IH by lia. rewrite delta_neq by lia. ring.
Qed.

(* ---- derivatives ---- *)
Lemma rate_ext f g t v : (forall u, f u = g u) -> rate f t v -> rate g t v.
Proof. intros E H. apply is_derive_Reals. apply is_derive_Reals in H. eapply is_derive_ext; [|exact H]. exact E. Qed.
Lemma rate_unique f t a b : rate f t a -> rate f t b -> a = b.
Proof. apply uniqueness_limite. Qed.
Lemma rate_const c t : rate (fun _ => c) t 0.
Proof. apply derivable_pt_lim_const. Qed.
Lemma rate_plus f g t a b : rate f t a -> rate g t b -> rate (fun u => f u + g u) t (a + b).
Proof. apply derivable_pt_lim_plus. Qed.
Lemma rate_mult f g t a b : rate f t a -> rate g t b -> rate (fun u => f u * g u) t (a * g t + f t * b).
Proof. apply derivable_pt_lim_mult. Qed.
Lemma rate_vsum d (f : nat -> R -> R) t v : (forall i, (i < d)%nat -> rate (f i) t (v i)) ->
  rate (fun u => vsum d (fun i => f i u)) t (vsum d v).
Proof.
  induction d as [|d IH]; intros H; simpl; [apply rate_const|].
  apply rate_plus; [apply IH; intros; apply H; lia|apply H; lia].
Qed.

(* compose and its derivative *)
Definition dcompose (d : nat) (U U' : mat) (s s' : vec) (V V' : mat) : mat := fun i j =>
  vsum d (fun k => U' i k * s k * V j k + U i k * s' k * V j k + U i k * s k * V' j k).
Lemma rate_compose d U U' s s' V V' t : mat_rate d U t U' -> vec_rate d s t s' -> mat_rate d V t V' ->
  mat_rate d (fun u => compose d (U u) (s u) (V u)) t (dcompose d (U t) U' (s t) s' (V t) V').
Proof.
  intros HU Hs HV i j Hi Hj. unfold compose, dcompose.
  apply (rate_vsum d (fun k u => U u i k * s u k * V u j k)). intros k Hk.
  replace (U' i k * s t k * V t j k + U t i k * s' k * V t j k + U t i k * s t k * V' j k)
    with ((U' i k * s t k + U t i k * s' k) * V t j k + (U t i k * s t k) * V' j k) by ring.
  apply (rate_mult (fun u => U u i k * s u k) (fun u => V u j k)).
  - apply (rate_mult (fun u => U u i k) (fun u => s u k)); [apply HU|apply Hs]; assumption.
  - apply HV; assumption.
Qed.

(* the angular velocities are skew *)
Definition gram (d : nat) (U U' : mat) : mat := fun k l => vsum d (fun i => U i k * U' i l).
Lemma gram_skew d U U' t : (forall u, orthogonal d (U u)) -> mat_rate d U t U' ->
  forall k l, (k < d)%nat -> (l < d)%nat -> gram d (U t) U' k l = - gram d (U t) U' l k.
Proof.
  intros HO HU k l Hk Hl.
  assert (R1 : rate (fun u => vsum d (fun i => U u i k * U u i l)) t
             (vsum d (fun i => U' i k * U t i l + U t i k * U' i l))).
  { apply (rate_vsum d (fun i u => U u i k * U u i l)). intros i Hi.
    apply (rate_mult (fun u => U u i k) (fun u => U u i l)); apply HU; assumption. }
  assert (R2 : rate (fun u => vsum d (fun i => U u i k * U u i l)) t 0).
  { eapply rate_ext; [|apply (rate_const (delta k l))]. intros u. symmetry. apply (proj1 (HO u)); assumption. }
  assert (E := rate_unique _ _ _ _ R1 R2). rewrite vsum_plus in E. unfold gram.
  assert (E2 : vsum d (fun i => U' i k * U t i l) = vsum d (fun i => U t i l * U' i k)).
  { apply vsum_ext. intros; ring. }
  rewrite E2 in E. lra.
Qed.

(* hats *)
Definition hat (d : nat) (U V X : mat) : mat := fun k l =>
  vsum d (fun i => vsum d (fun j => U i k * X i j * V j l)).
Lemma hat_ext d U V X Y k l : (forall i j, (i < d)%nat -> (j < d)%nat -> X i j = Y i j) -> hat d U V X k l = hat d U V Y k l.
Proof. intros H. apply vsum_ext. intros i Hi. apply vsum_ext. intros j Hj. rewrite H by assumption. reflexivity. Qed.
Lemma hat_dcompose d U U' s s' V V' k l : orthogonal d U -> orthogonal d V -> (k < d)%nat -> (l < d)%nat ->
  hat d U V (dcompose d U U' s s' V V') k l
  = gram d U U' k l * s l + delta k l * s' l + s k * gram d V V' l k.
Proof.
  intros [OU _] [OV _] Hk Hl. unfold hat, dcompose.
  rewrite (vsum_ext d _ (fun i => vsum d (fun m => (U i k * U' i m) * s m * delta m l
        + (U i k * U i m) * s' m * delta m l
        + (U i k * U i m) * s m * gram d V V' l m))).
  2:{ intros i Hi.
      rewrite (vsum_ext d _ (fun j => vsum d (fun m => (U i k * U' i m) * s m * (V j m * V j l)
        + (U i k * U i m) * s' m * (V j m * V j l)
        + (U i k * U i m) * s m * (V j l * V' j m)))).
      2:{ intros j Hj. rewrite <- vsum_scal, <- vsum_scal_r. apply vsum_ext. intros m Hm. ring. }
      rewrite vsum_swap. apply vsum_ext. intros m Hm.
      rewrite !vsum_plus, !vsum_scal. rewrite (OV m l Hm Hl). unfold gram. ring. }
  rewrite vsum_swap.
  rewrite (vsum_ext d _ (fun m => delta l m * (gram d U U' k m * s m)
        + delta l m * (delta k m * s' m)
        + delta k m * (s m * gram d V V' l m))).
  2:{ intros m Hm. rewrite !vsum_plus.
      assert (Dm : delta m l = delta l m) by (unfold delta; rewrite Nat.eqb_sym; reflexivity).
      rewrite Dm.
      rewrite (vsum_ext d (fun i => U i k * U' i m * s m * delta l m) (fun i => (U i k * U' i m) * (s m * delta l m))) by (intros; ring).
      rewrite (vsum_ext d (fun i => U i k * U i m * s' m * delta l m) (fun i => (U i k * U i m) * (s' m * delta l m))) by (intros; ring).
      rewrite (vsum_ext d (fun i => U i k * U i m * s m * gram d V V' l m) (fun i => (U i k * U i m) * (s m * gram d V V' l m))) by (intros; ring).
      rewrite !vsum_scal_r, (OU k m Hk Hm). unfold gram. ring. }
  rewrite !vsum_plus.
  rewrite (vsum_delta d l (fun m => gram d U U' k m * s m)) by assumption.
  rewrite (vsum_delta d l (fun m => delta k m * s' m)) by assumption.
  rewrite (vsum_delta d k (fun m => s m * gram d V V' l m)) by assumption. reflexivity.
Qed.

(* P : G through hats *)
Lemma contract_compose d U g V X : contract d (compose d U g V) X = vsum d (fun k => g k * hat d U V X k k).
Proof.
  unfold contract, compose, hat.
  rewrite (vsum_ext d _ (fun i => vsum d (fun k => vsum d (fun j => g k * (U i k * X i j * V j k))))).
  2:{ intros i Hi. rewrite <- vsum_swap. apply vsum_ext. intros j Hj. rewrite <- vsum_scal_r. apply vsum_ext. intros; ring. }
  rewrite vsum_swap. apply vsum_ext. intros k Hk.
  rewrite <- vsum_scal. apply vsum_ext. intros i Hi. rewrite vsum_scal. reflexivity.
Qed.
Lemma unhat d U V X i j : orthogonal d U -> orthogonal d V -> (i < d)%nat -> (j < d)%nat ->
  vsum d (fun k => vsum d (fun l => U i k * hat d U V X k l * V j l)) = X i j.
Proof.
  intros [_ OU] [_ OV] Hi Hj. unfold hat.
  rewrite (vsum_ext d _ (fun k => vsum d (fun a => (U i k * U a k) * X a j))).
  2:{ intros k Hk.
      rewrite (vsum_ext d _ (fun l => vsum d (fun a => vsum d (fun b => (U i k * U a k * X a b) * (V j l * V b l))))).
      2:{ intros l Hl. rewrite Rmult_assoc, <- vsum_scal_r, <- vsum_scal. apply vsum_ext. intros a Ha.
          rewrite <- vsum_scal_r, <- vsum_scal. apply vsum_ext. intros b Hb. ring. }
      rewrite vsum_swap. apply vsum_ext. intros a Ha. rewrite vsum_swap.
      rewrite (vsum_ext d _ (fun b => delta j b * (U i k * U a k * X a b))).
      2:{ intros b Hb. rewrite vsum_scal, (OV j b Hj Hb). ring. }
      rewrite (vsum_delta d j (fun b => U i k * U a k * X a b)) by assumption. reflexivity. }
  rewrite vsum_swap.
  rewrite (vsum_ext d _ (fun a => delta i a * X a j)).
  2:{ intros a Ha. rewrite vsum_scal_r, (OU i a Hi Ha). reflexivity. }
  apply (vsum_delta d i (fun a => X a j)). assumption.
Qed.
