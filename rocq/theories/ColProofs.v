From Coq Require Import Reals Arith Lra Lia.
From Verif Require Import CmModel CmSpec CmProofs ColModel ColSpec.
Local Open Scope R_scope.

Lemma inner_sub_scal d n v p : inner d n (fun i => v i - p * n i) = inner d n v - p * inner d n n.
Proof.
  transitivity (vsum d (fun i => n i * v i + (- p) * (n i * n i))).
  - apply vsum_ext. intros i _. ring.
  - rewrite vsum_plus, vsum_scal. fold (inner d n v) (inner d n n). ring.
Qed.
Lemma inner_comm d x y : inner d x y = inner d y x.
Proof. apply vsum_ext. intros i _. ring. Qed.
Lemma inner_ext d x x' y y' : same d x x' -> same d y y' -> inner d x y = inner d x' y'.
Proof. intros H H'. apply vsum_ext. intros i Hi. rewrite H, H' by auto. reflexivity. Qed.
Lemma norm_sub d n v p : inner d n n = 1 ->
  inner d (fun i => v i - p * n i) (fun i => v i - p * n i) = inner d v v - 2 * p * inner d n v + p * p.
Proof.
  intros H. assert (E : inner d (fun i => v i - p * n i) (fun i => v i - p * n i)
     = vsum d (fun i => v i * v i + ((-2 * p) * (n i * v i) + (p * p) * (n i * n i)))).
  { apply vsum_ext. intros i _. ring. }
  rewrite E, !vsum_plus, !vsum_scal. fold (inner d v v) (inner d n v) (inner d n n). rewrite H. ring.
Qed.

(* the relative velocity afterwards *)
Definition slides (d : nat) (t : collider_e) (n v1 : vec) : bool :=
  match t with Sticky => false | Slip => true | Separate => if Rlt_dec (dot d n v1) 0 then true else false end.
Lemma respond_rel d t vo n v i : t <> Sticky ->
  minus (respond d t vo n v) vo i =
  if slides d t n (minus v vo) then minus v vo i - inner d n (minus v vo) * n i else minus v vo i.
Proof.
  intros Ht. destruct t; [congruence|..]; unfold respond, slides, minus; simpl.
  - unfold dot, inner. ring.
  - unfold dot, inner. destruct (Rlt_dec _ 0); ring.
Qed.

Lemma spin_across d w y i : plane_or_space d -> (i < d)%nat -> vsum d (fun k => spin d w i k * y k) = across d w y i.
Proof.
  intros [->| ->] Hi.
  - destruct i as [|[|i]]; [| |lia]; simpl; ring.
  - destruct i as [|[|[|i]]]; [| | |lia]; simpl; ring.
Qed.

Lemma material_place d c X x : orthogonal d (Rot c) -> s c <> 0 -> same d x (place d (Rot c) (s c) (b c) X) -> same d (material d c x) X.
Proof.
  intros [O _] Hs Hx i Hi. unfold material, mulv, tr.
  transitivity (vsum d (fun j => vsum d (fun k => Rot c j i * Rot c j k * (s c * X k))) * (1 / s c)).
  - f_equal. apply vsum_ext. intros j Hj. rewrite (Hx j Hj). unfold place.
    replace (vsum d (fun j0 => Rot c j j0 * (s c * X j0)) + b c j - b c j) with (vsum d (fun j0 => Rot c j j0 * (s c * X j0))) by ring.
    rewrite <- vsum_scal. apply vsum_ext. intros k _. ring.
  - rewrite vsum_swap.
    transitivity (vsum d (fun k => delta i k * (s c * X k)) * (1 / s c)).
    + f_equal. apply vsum_ext. intros k Hk. rewrite vsum_scal_r. rewrite (O i k Hi Hk). reflexivity.
    + rewrite vsum_delta by auto. field. auto.
Qed.
Lemma place_material d c x : orthogonal d (Rot c) -> s c <> 0 -> same d (place d (Rot c) (s c) (b c) (material d c x)) x.
Proof.
  intros [_ O] Hs i Hi. unfold place, material, mulv, tr.
  transitivity (vsum d (fun j => vsum d (fun k => Rot c i j * Rot c k j * (x k - b c k))) + b c i).
  - f_equal. apply vsum_ext. intros j Hj.
    replace (Rot c i j * (s c * (vsum d (fun j0 => Rot c j0 j * (x j0 - b c j0)) * (1 / s c))))
      with (Rot c i j * vsum d (fun j0 => Rot c j0 j * (x j0 - b c j0))) by (field; auto).
    rewrite <- vsum_scal. apply vsum_ext. intros k _. ring.
  - rewrite vsum_swap.
    transitivity (vsum d (fun k => delta i k * (x k - b c k)) + b c i).
    + f_equal. apply vsum_ext. intros k Hk. rewrite vsum_scal_r. rewrite (O i k Hi Hk). reflexivity.
    + rewrite vsum_delta by auto. ring.
Qed.

(* rotations keep inner products *)
Lemma rot_inner d M x y : orthogonal d M -> inner d (mulv d M x) (mulv d M y) = inner d x y.
Proof.
  intros [O _]. unfold inner, mulv.
  transitivity (vsum d (fun i => vsum d (fun j => vsum d (fun k => M i j * M i k * (x j * y k))))).
  - apply vsum_ext. intros i _. rewrite <- vsum_scal_r. apply vsum_ext. intros j _. rewrite <- vsum_scal. apply vsum_ext. intros k _. ring.
  - rewrite vsum_swap. apply vsum_ext. intros j Hj. rewrite vsum_swap.
    transitivity (vsum d (fun k => delta j k * (x j * y k))).
    + apply vsum_ext. intros k Hk. rewrite vsum_scal_r. rewrite (O j k Hj Hk). reflexivity.
    + rewrite vsum_delta by auto. reflexivity.
Qed.

Lemma velocity_rate d c (M : R -> mat) (sc : R -> R) (tb X : R -> vec) (t : R) :
  plane_or_space d -> proper d c -> s c <> 0 -> orthogonal d (Rot c) ->
  (forall i j, (i < d)%nat -> (j < d)%nat -> M t i j = Rot c i j) -> sc t = s c -> same d (tb t) (b c) ->
  mat_rate d M t (times d (spin d (omega c)) (Rot c)) -> rate sc t (dsdt c) -> vec_rate d tb t (dbdt c) ->
  vec_rate d X t (lvel c (X t)) ->
  vec_rate d (fun u => place d (M u) (sc u) (tb u) (X u)) t (get_velocity d c (place d (M t) (sc t) (tb t) (X t))).
Proof.
  intros Hd Hp Hs Ho EM Es Eb DM Ds Db DX i Hi. unfold place at 1.
  assert (Hx : same d (place d (M t) (sc t) (tb t) (X t)) (place d (Rot c) (s c) (b c) (X t))).
  { intros k Hk. unfold place. rewrite Es, (Eb k Hk). f_equal. apply vsum_ext. intros j Hj. rewrite (EM k j Hk Hj). reflexivity. }
  pose proof (material_place d c (X t) _ Ho Hs Hx) as Hm. destruct (Hp _ _ Hm) as (_ & _ & Hv).
  unfold get_velocity.
  assert (Ha : across d (omega c) (fun j => place d (M t) (sc t) (tb t) (X t) j - b c j) i
     = vsum d (fun j => times d (spin d (omega c)) (Rot c) i j * (s c * X t j))).
  { rewrite <- spin_across by auto.
    transitivity (vsum d (fun k => vsum d (fun j => spin d (omega c) i k * Rot c k j * (s c * X t j)))).
    - apply vsum_ext. intros k Hk. rewrite (Hx k Hk). unfold place.
      replace (vsum d (fun j => Rot c k j * (s c * X t j)) + b c k - b c k) with (vsum d (fun j => Rot c k j * (s c * X t j))) by ring.
      rewrite <- vsum_scal. apply vsum_ext. intros j _. ring.
    - rewrite vsum_swap. apply vsum_ext. intros j _. rewrite vsum_scal_r. reflexivity. }
  rewrite Ha. rewrite (Hx i Hi). unfold place.
  replace (dsdt c * (1 / s c) * (vsum d (fun j => Rot c i j * (s c * X t j)) + b c i - b c i))
    with (vsum d (fun j => Rot c i j * (dsdt c * X t j))).
  2: { replace (dsdt c * (1 / s c) * (vsum d (fun j => Rot c i j * (s c * X t j)) + b c i - b c i))
        with ((dsdt c * (1 / s c)) * vsum d (fun j => Rot c i j * (s c * X t j))) by ring.
       rewrite <- vsum_scal. apply vsum_ext. intros j _. field. auto. }
  unfold mulv.
  pose (L := lvel c (material d c (place d (M t) (sc t) (tb t) (X t)))). fold L in Hv. 
  change (lvel c (material d c (fun k => vsum d (fun j => M t k j * (sc t * X t j)) + tb t k))) with L.
  rewrite (vsum_ext d (fun j => Rot c i j * s c * L j) (fun j => Rot c i j * (s c * lvel c (X t) j)))
    by (intros j Hj; rewrite (Hv j Hj); ring).
  rewrite <- !vsum_plus. apply rate_plus; [|exact (Db i Hi)].
  apply (rate_vsum d (fun j u => M u i j * (sc u * X u j)) t). intros j Hj.
  replace (times d (spin d (omega c)) (Rot c) i j * (s c * X t j) + Rot c i j * (dsdt c * X t j) + Rot c i j * (s c * lvel c (X t) j))
    with (times d (spin d (omega c)) (Rot c) i j * (sc t * X t j) + M t i j * (dsdt c * X t j + sc t * lvel c (X t) j))
    by (rewrite Es, (EM i j Hi Hj); ring).
  apply (rate_mult (fun u => M u i j) (fun u => sc u * X u j)); [exact (DM i j Hi Hj)|].
  apply (rate_mult sc (fun u => X u j)); [exact Ds|exact (DX j Hj)].
Qed.
