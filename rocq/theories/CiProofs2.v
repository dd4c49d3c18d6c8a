(* The rotation part, the two materials, fibres, shape functions. *)
From Coq Require Import Reals Arith Lia Lra.
From Verif Require Import CmModel CmSpec CmProofs CmProofs2 CiModel CiSpec CiProofs.
Local Open Scope R_scope.

(* ---- I1 ---- *)
Lemma I1_gradient_compose d U V n : I1_gradient d U V n = vectorize d (compose d U (fun _ => 1) V) n.
Proof. unfold I1_gradient, vectorize, compose. apply vsum_ext. intros; ring. Qed.
Lemma I1_grad d (F U V : R -> mat) (S : R -> vec) t (G U' V' : mat) (S' : vec) :
  (forall u, decomposes d (F u) (U u) (S u) (V u)) ->
  mat_rate d F t G -> mat_rate d U t U' -> vec_rate d S t S' -> mat_rate d V t V' ->
  rate (fun u => I1_value d (S u)) t (along d (I1_gradient d (U t) (V t)) G).
Proof.
  intros HD HF HU HS HV.
  eapply rate_eq; [apply (rate_vsum d (fun i u => S u i)); exact HS|].
  rewrite (along_ext d _ (vectorize d (compose d (U t) (fun _ => 1) (V t)))) by (intros; apply I1_gradient_compose).
  rewrite along_vectorize, contract_compose. apply vsum_ext. intros k Hk.
  destruct (HD t) as (OU & OV & _).
  assert (EG : forall i j, (i < d)%nat -> (j < d)%nat -> G i j = dcompose d (U t) U' (S t) S' (V t) V' i j).
  { intros i j Hi Hj. eapply rate_unique; [apply HF; assumption|].
    eapply rate_ext; [|apply (rate_compose d U U' S S' V V' t HU HS HV i j Hi Hj)].
    intros u. symmetry. apply HD; assumption. }
  rewrite (hat_ext d (U t) (V t) G _ k k EG), hat_dcompose, delta_eq by assumption.
  assert (A := gram_skew d U U' t (fun u => proj1 (HD u)) HU k k Hk Hk).
  assert (B := gram_skew d V V' t (fun u => proj1 (proj2 (HD u))) HV k k Hk Hk).
  replace (gram d (U t) U' k k) with 0 by lra. replace (gram d (V t) V' k k) with 0 by lra. ring.
Qed.
Lemma twist_along d n U V G : along d (twist_vec d n U V) G
  = 1 / sqrt 2 * vsum d (fun k => vsum d (fun l => twist d n k l * hat d U V G k l)).
Proof.
  unfold twist_vec. rewrite along_vectorize. unfold contract, hat.
  rewrite (vsum_ext d _ (fun i => vsum d (fun k => vsum d (fun l => vsum d (fun j =>
     1 / sqrt 2 * U i k * twist d n k l * V j l * G i j))))).
  2:{ intros i Hi. rewrite (vsum_ext d _ (fun j => vsum d (fun k => vsum d (fun l => 1 / sqrt 2 * U i k * twist d n k l * V j l * G i j)))).
      - rewrite vsum_swap. apply vsum_ext; intros k Hk. rewrite vsum_swap. reflexivity.
      - intros j Hj. rewrite <- vsum_scal_r. apply vsum_ext; intros k Hk. rewrite <- vsum_scal_r. reflexivity. }
  rewrite vsum_swap. rewrite <- vsum_scal. apply vsum_ext; intros k Hk.
  rewrite vsum_swap. rewrite <- vsum_scal. apply vsum_ext; intros l Hl.
  rewrite <- !vsum_scal. apply vsum_ext; intros i Hi.
  rewrite <- !vsum_scal. apply vsum_ext; intros j Hj. ring.
Qed.
Lemma half : 1 / sqrt 2 * (1 / sqrt 2) = 1 / 2.
Proof.
  assert (A : sqrt 2 * sqrt 2 = 2) by (apply sqrt_sqrt; lra).
  assert (sqrt 2 <> 0) by (intros E; rewrite E in A; lra).
  replace (1 / sqrt 2 * (1 / sqrt 2)) with (1 / (sqrt 2 * sqrt 2)) by (field; assumption). rewrite A. reflexivity.
Qed.
Lemma twist_cm d n U V i j : (i < d)%nat -> twist_vec d n U V (j * d + i)%nat
  = 1 / sqrt 2 * vsum d (fun k => vsum d (fun l => U i k * twist d n k l * V j l)).
Proof.
  intros H. unfold twist_vec. rewrite vectorize_cm by exact H. rewrite <- vsum_scal. apply vsum_ext; intros k Hk.
  rewrite <- vsum_scal. apply vsum_ext; intros; ring.
Qed.
Lemma I1_term d n U V G i j c : (i < d)%nat ->
  along d (fun q => 2 / c * dyadic (twist_vec d n U V) (twist_vec d n U V) (j * d + i)%nat q) G
  = 1 / c * vsum d (fun k => vsum d (fun l => U i k * twist d n k l * V j l))
     * vsum d (fun k => vsum d (fun l => twist d n k l * hat d U V G k l)).
Proof.
  intros H. rewrite along_scal. unfold dyadic. rewrite along_scal, twist_along, twist_cm by exact H.
  set (A := vsum d _). set (B := vsum d _). generalize half. set (h := 1 / sqrt 2). intros E.
  unfold Rdiv. replace (2 * / c * (h * A * (h * B))) with (2 * (h * h) * (/ c * A * B)) by ring. rewrite E.
  generalize (/ c). intros q. field.
Qed.
Lemma I1_hess d (F U V : R -> mat) (S : R -> vec) t (G U' V' : mat) (S' : vec) n :
  small_dim d -> (forall u, decomposes d (F u) (U u) (S u) (V u)) ->
  mat_rate d F t G -> mat_rate d U t U' -> vec_rate d S t S' -> mat_rate d V t V' ->
  (forall i j, (i < d)%nat -> (j < d)%nat -> i <> j -> 1 / 1000000 <= S t i + S t j) ->
  (n < d * d)%nat ->
  rate (fun u => I1_gradient d (U u) (V u) n) t (along d (I1_hessian d (U t) (S t) (V t) n) G).
Proof.
  intros Hd HD HF HU HS HV HR Hn. destruct (cm_split d n Hn) as (i & j & Hi & Hj & ->).
  destruct (HD t) as (OU & OV & _).
  assert (EG : forall i j, (i < d)%nat -> (j < d)%nat -> G i j = dcompose d (U t) U' (S t) S' (V t) V' i j).
  { intros i0 j0 Hi0 Hj0. eapply rate_unique; [apply HF; assumption|].
    eapply rate_ext; [|apply (rate_compose d U U' S S' V V' t HU HS HV i0 j0 Hi0 Hj0)].
    intros u. symmetry. apply HD; assumption. }
  assert (R1 : rate (fun u => I1_gradient d (U u) (V u) (j * d + i)%nat) t (dcompose d (U t) U' (fun _ => 1) (fun _ => 0) (V t) V' i j)).
  { eapply rate_ext; [|apply (rate_compose d U U' (fun _ _ => 1) (fun _ => 0) V V' t HU (fun _ _ => rate_const 1 t) HV i j Hi Hj)].
    intros u. cbv beta. rewrite I1_gradient_compose, vectorize_cm by exact Hi. reflexivity. }
  eapply rate_eq; [exact R1|].
  rewrite <- (unhat d (U t) (V t) _ i j OU OV Hi Hj).
  assert (EH : forall k l, (k < d)%nat -> (l < d)%nat -> hat d (U t) (V t) (dcompose d (U t) U' (fun _ => 1) (fun _ => 0) (V t) V') k l
     = gram d (U t) U' k l + gram d (V t) V' l k).
  { intros k l Hk Hl. rewrite hat_dcompose by assumption. ring. }
  assert (HG : forall k l, (k < d)%nat -> (l < d)%nat -> hat d (U t) (V t) G k l
     = gram d (U t) U' k l * S t l + delta k l * S' l + S t k * gram d (V t) V' l k).
  { intros k l Hk Hl. rewrite (hat_ext d (U t) (V t) G _ k l EG). apply hat_dcompose; assumption. }
  assert (A := gram_skew d U U' t (fun u => proj1 (HD u)) HU).
  assert (B := gram_skew d V V' t (fun u => proj1 (proj2 (HD u))) HV).
  rewrite (vsum_ext d _ (fun k => vsum d (fun l => U t i k * (gram d (U t) U' k l + gram d (V t) V' l k) * V t j l)))
    by (intros k Hk; apply vsum_ext; intros l Hl; rewrite EH by assumption; reflexivity).
  clear EH R1 EG OU OV HD HF HU HS HV.
  set (a := gram d (U t) U') in *. set (b := gram d (V t) V') in *.
  three d Hd; unfold I1_hessian.
  - rewrite along_0. simpl. assert (A0 := A 0%nat 0%nat ltac:(lia) ltac:(lia)). assert (B0 := B 0%nat 0%nat ltac:(lia) ltac:(lia)).
    assert (i = 0)%nat by lia. assert (j = 0)%nat by lia. subst.
    replace (a 0 0)%nat with 0 by lra. replace (b 0 0)%nat with 0 by lra. ring.
  - assert (A0 := A 0%nat 0%nat ltac:(lia) ltac:(lia)). assert (B0 := B 0%nat 0%nat ltac:(lia) ltac:(lia)).
    assert (A1 := A 1%nat 1%nat ltac:(lia) ltac:(lia)). assert (B1 := B 1%nat 1%nat ltac:(lia) ltac:(lia)).
    assert (A01 := A 0%nat 1%nat ltac:(lia) ltac:(lia)). assert (B01 := B 0%nat 1%nat ltac:(lia) ltac:(lia)).
    assert (P := HR 0%nat 1%nat ltac:(lia) ltac:(lia) ltac:(lia)).
    rewrite I1_term by exact Hi. rewrite Rmax_left by exact P. simpl.
    rewrite !HG by lia. rewrite delta_eq, !delta_neq, ?delta_eq by lia.
    replace (a 0 0)%nat with 0 by lra. replace (b 0 0)%nat with 0 by lra.
    replace (a 1 1)%nat with 0 by lra. replace (b 1 1)%nat with 0 by lra.
    rewrite A01, B01. field. lra.
  - assert (A0 := A 0%nat 0%nat ltac:(lia) ltac:(lia)). assert (B0 := B 0%nat 0%nat ltac:(lia) ltac:(lia)).
    assert (A1 := A 1%nat 1%nat ltac:(lia) ltac:(lia)). assert (B1 := B 1%nat 1%nat ltac:(lia) ltac:(lia)).
    assert (A2 := A 2%nat 2%nat ltac:(lia) ltac:(lia)). assert (B2 := B 2%nat 2%nat ltac:(lia) ltac:(lia)).
    assert (A01 := A 0%nat 1%nat ltac:(lia) ltac:(lia)). assert (B01 := B 0%nat 1%nat ltac:(lia) ltac:(lia)).
    assert (A02 := A 0%nat 2%nat ltac:(lia) ltac:(lia)). assert (B02 := B 0%nat 2%nat ltac:(lia) ltac:(lia)).
    assert (A12 := A 1%nat 2%nat ltac:(lia) ltac:(lia)). assert (B12 := B 1%nat 2%nat ltac:(lia) ltac:(lia)).
    assert (P := HR 0%nat 1%nat ltac:(lia) ltac:(lia) ltac:(lia)).
    assert (P' := HR 1%nat 2%nat ltac:(lia) ltac:(lia) ltac:(lia)).
    assert (P'' := HR 2%nat 0%nat ltac:(lia) ltac:(lia) ltac:(lia)).
    cbv zeta. rewrite !along_plus, !I1_term by exact Hi. rewrite !Rmax_left by assumption. simpl.
    rewrite !HG by lia. rewrite !delta_eq, !delta_neq by lia.
    replace (a 0 0)%nat with 0 by lra. replace (b 0 0)%nat with 0 by lra.
    replace (a 1 1)%nat with 0 by lra. replace (b 1 1)%nat with 0 by lra.
    replace (a 2 2)%nat with 0 by lra. replace (b 2 2)%nat with 0 by lra.
    rewrite A01, B01, A02, B02, A12, B12. field. lra.
Qed.
