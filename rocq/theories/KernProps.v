(* C54: interpolation weights and grid sampling, in exact arithmetic.

   Claim: a position gets the weights of the centred B-spline (linear,
   quadratic, cubic) or delta kernel of every grid node around it: the weights are non-negative,
   add up to 1 and have the position as their mean; the derivative weights are the
   derivatives; sampling therefore reproduces every constant and affine field,
   never leaves the range of the sampled values, and the gradient weights
   reproduce the slope - in any number of dimensions, on collocated and on
   staggered grids. *)
From Coq Require Import QArith Qround Qabs List Lia Lqa.
From Verif Require Import KernModel KernSpec KernProofs KernProofs2 KernProofs3 KernProofs4 KernProofs5.
Import ListNotations.
Open Scope Q_scope.

(* A root: half the integer root of 4a rounded down. *)
Definition coarse_root (a : Q) : Q := inject_Z (Z.sqrt (Qfloor (4 * a))) * (1#2).
Example root_like_exists : root_like coarse_root.
Proof.
  constructor.
  - intros a b E. unfold coarse_root. rewrite (Qfloor_comp (4 * a) (4 * b)) by (rewrite E; reflexivity). reflexivity.
  - intros a. unfold coarse_root. pose proof (Z.sqrt_nonneg (Qfloor (4 * a))) as H.
    rewrite Zle_Qle in H. change (inject_Z 0) with 0 in H. lra.
  - intros a b B H. unfold coarse_root. destruct (Z_lt_le_dec (Qfloor (4 * a)) 0) as [N|N].
    + rewrite Z.sqrt_neg by exact N. change (inject_Z 0) with 0. lra.
    + pose proof (Z.sqrt_spec _ N) as [S _]. pose proof (Z.sqrt_nonneg (Qfloor (4 * a))) as P.
      set (r := Z.sqrt (Qfloor (4 * a))) in *. rewrite Zle_Qle in S, P. rewrite inject_Z_mult in S.
      change (inject_Z 0) with 0 in P. pose proof (Qfloor_le (4 * a)) as F. clearbody r.
      destruct (Qlt_le_dec b (inject_Z r * (1#2))) as [L|L]; [|exact L].
      exfalso. set (q := inject_Z r) in *. clearbody q.
      assert (Z4 : q * q <= 4 * (b * b)) by lra. nra.
  - reflexivity.
  - reflexivity.
Qed.

(* Every node's weight, whatever the position: the B-spline of the distance for
   the nodes of the stencil, and nothing is lost on the others. *)
Theorem C54_weights_are_bsplines : forall sq b x z, root_like sq ->
  let base := base_node (lerp_degree (kt_of b)) x in
  let inside := (base <= z < base + Z.of_nat (width (kt_of b)))%Z in
  (inside -> nth (Z.to_nat (z - base)) (w0s (row_of sq (kt_of b) x)) 0 == phi_of b (x - inject_Z z)) /\
  (~ inside -> phi_of b (x - inject_Z z) == 0).
Proof.
  intros sq b x z R base inside. split; unfold inside, base; intros H.
  - rewrite (row_phi sq R) by lia. rewrite Z2Nat.id by lia. apply phi_eq.
    replace (base_node (lerp_degree (kt_of b)) x + (z - base_node (lerp_degree (kt_of b)) x))%Z with z by lia.
    reflexivity.
  - apply far_phi. lia.
Qed.
Print Assumptions C54_weights_are_bsplines.
Example weights_case : map Qred (w0s (row_of coarse_root Cubic (9#4))) = [9#128; 235#384; 121#384; 1#384].
Proof. vm_compute. reflexivity. Qed.

(* In any dimension the weight of a stencil node is the product of the B-splines. *)
Theorem C54_arena_weights_are_bsplines : forall sq b X o, root_like sq ->
  In o (ndrange (length X) (width (kt_of b))) ->
  let a := arena_collocated sq (kt_of b) X in
  weight a o == tensor (phi_of b) X (coord a o).
Proof.
  intros sq b X o R H a. apply arena_phi; [exact R|].
  pose proof (collocated_placed sq (kt_of b) X) as P.
  eapply (ndrange_inside _ (width (kt_of b))); [eapply placed_widths; eauto|].
  rewrite map_length. cbn [arena_collocated pads]. rewrite !map_length, combine_length, map_length, Nat.min_id. exact H.
Qed.
Print Assumptions C54_arena_weights_are_bsplines.

(* All six kernels: non-negative, sum 1, mean at the position. *)
Theorem C54_weights_partition_unity : forall sq kt x, root_like sq ->
  let w := w0s (row_of sq kt x) in
  let base := inject_Z (base_node (lerp_degree kt) x) in
  length w = width kt /\ Forall (fun v => 0 <= v) w /\ qsum w == 1 /\
  qsum (map (fun i => nth i w 0 * (base + inject_Z (Z.of_nat i))) (seq 0 (length w))) == x.
Proof.
  intros sq kt x R w base. repeat split.
  - apply row_length.
  - apply row_nonneg; exact R.
  - apply row_sum; exact R.
  - change (moment w base == x). unfold w. rewrite (row_moment sq R). unfold base, off0. ring.
Qed.
Print Assumptions C54_weights_partition_unity.
Example partition_case : map Qred (w0s (row_of coarse_root Delta3 (5#2))) = [1#2; 1#2; 0]
  /\ map Qred (w0s (row_of coarse_root Delta4 (13#4))) = [3#16; 7#16; 5#16; 1#16].
Proof. vm_compute. split; reflexivity. Qed.

(* The derivative pads are the first and second derivatives of the weights: inside a
   cell the weights are polynomials with exactly these Taylor coefficients. *)
Theorem C54_derivative_weights : forall sq b n, (n < width (kt_of b))%nat ->
  exists c, forall x h,
  base_node (lerp_degree (kt_of b)) (x + h) = base_node (lerp_degree (kt_of b)) x ->
  nth n (w0s (row_of sq (kt_of b) (x + h))) 0 ==
    nth n (w0s (row_of sq (kt_of b) x)) 0 + h * nth n (w1s (row_of sq (kt_of b) x)) 0
    + (1#2) * h * h * nth n (w2s (row_of sq (kt_of b) x)) 0 + c * h * h * h /\
  nth n (w1s (row_of sq (kt_of b) (x + h))) 0 ==
    nth n (w1s (row_of sq (kt_of b) x)) 0 + h * nth n (w2s (row_of sq (kt_of b) x)) 0
    + 3 * c * h * h.
Proof.
  intros sq b n N. exists (cubic_c b n). intros x h E. apply row_taylor; assumption.
Qed.
Print Assumptions C54_derivative_weights.
Example derivative_case : base_node 2 ((9#4) + (1#4)) = base_node 2 (9#4).
Proof. reflexivity. Qed.

(* Sampling an affine field gives the field at the position; only nodes within
   the kernel's radius matter. *)
Theorem C54_sample_reproduces_affine : forall sq kt X c slope value, root_like sq ->
  length slope = length X ->
  (forall z, within (radius kt) (node_position z) X -> value z == affine c slope (node_position z)) ->
  isample kt (arena_collocated sq kt X) value == affine c slope X.
Proof.
  intros sq kt X c slope value R Ls H. pose proof (collocated_placed sq kt X) as P.
  eapply affine_sample; eauto. intros o Ho.
  pose proof (colloc_nodes (map (base_node (lerp_degree kt)) X) o) as E.
  rewrite (affine_F2 c slope _ _ E). apply H.
  eapply within_F2; [exact E|]. eapply nodes_within; eauto.
Qed.
Print Assumptions C54_sample_reproduces_affine.

Theorem C54_face_sample_reproduces_affine : forall sq kt X f c slope value, root_like sq ->
  length slope = length X -> (f < length X)%nat ->
  (forall z, within (radius kt) (face_position f z) X -> value z == affine c slope (face_position f z)) ->
  isample kt (arena_staggered sq kt X f) value == affine c slope X.
Proof.
  intros sq kt X f c slope value R Ls Hf H. pose proof (staggered_placed sq kt X f) as P.
  eapply affine_sample; eauto. intros o Ho.
  assert (Lo : length o = length X).
  { pose proof (F2_length' _ _ _ _ _ Ho) as L. rewrite map_length in L.
    pose proof (placed_length _ _ _ _ _ P) as [_ L2]. congruence. }
  pose proof (stag_nodes kt X f o Hf Lo sq) as E.
  rewrite (affine_F2 c slope _ _ E). apply H.
  eapply within_F2; [exact E|]. eapply nodes_within; eauto.
Qed.
Print Assumptions C54_face_sample_reproduces_affine.

Example sample_case :
  Qred (isample Cubic (arena_collocated coarse_root Cubic [9#4; -7#3])
          (fun z => affine 5 [2; -(3)] (node_position z))) = 33#2
  /\ Qred (isample Linear (arena_staggered coarse_root Linear [9#4; -7#3] 1)
          (fun z => affine 5 [2; -(3)] (face_position 1 z))) = 33#2.
Proof. vm_compute. split; reflexivity. Qed.

(* The gradient weights of an affine field add up to its slope. *)
Theorem C54_gradient_reproduces_slope : forall sq kt X c slope value i, root_like sq ->
  kt = Linear \/ kt = Quadratic \/ kt = Cubic ->
  length slope = length X -> (i < length X)%nat ->
  (forall z, within (radius kt) (node_position z) X -> value z == affine c slope (node_position z)) ->
  let a := arena_collocated sq kt X in
  qsum (map (fun o => weightGradient a i o * value (coord a o)) (ndrange (length X) (width kt))) == nth i slope 0.
Proof.
  intros sq kt X c slope value i R D Ls Hi H a. pose proof (collocated_placed sq kt X) as P.
  eapply affine_gradient; eauto. intros o Ho.
  pose proof (colloc_nodes (map (base_node (lerp_degree kt)) X) o) as E.
  rewrite (affine_F2 c slope _ _ E). apply H.
  eapply within_F2; [exact E|]. eapply nodes_within; eauto.
Qed.
Print Assumptions C54_gradient_reproduces_slope.

Theorem C54_face_gradient_reproduces_slope : forall sq kt X f c slope value i, root_like sq ->
  kt = Linear \/ kt = Quadratic \/ kt = Cubic ->
  length slope = length X -> (i < length X)%nat -> (f < length X)%nat ->
  (forall z, within (radius kt) (face_position f z) X -> value z == affine c slope (face_position f z)) ->
  let a := arena_staggered sq kt X f in
  qsum (map (fun o => weightGradient a i o * value (coord a o)) (ndrange (length X) (width kt))) == nth i slope 0.
Proof.
  intros sq kt X f c slope value i R D Ls Hi Hf H a. subst a. pose proof (staggered_placed sq kt X f) as P.
  eapply affine_gradient; eauto. intros o Ho.
  assert (Lo : length o = length X).
  { pose proof (F2_length' _ _ _ _ _ Ho) as L. rewrite map_length in L.
    pose proof (placed_length _ _ _ _ _ P) as [_ L2]. congruence. }
  pose proof (stag_nodes kt X f o Hf Lo sq) as E.
  rewrite (affine_F2 c slope _ _ E). apply H.
  eapply within_F2; [exact E|]. eapply nodes_within; eauto.
Qed.
Print Assumptions C54_face_gradient_reproduces_slope.
Example gradient_case :
  Qred (let a := arena_collocated coarse_root Quadratic [9#4; -7#3] in
        qsum (map (fun o => weightGradient a 1 o * affine 5 [2; -(3)] (node_position (coord a o)))
                  (ndrange 2 (width Quadratic)))) = -3#1.
Proof. vm_compute. reflexivity. Qed.

(* A sample lies between the least and the greatest value of the stencil, which are what
   minimum() and maximum() return. *)
Theorem C54_sample_in_range : forall sq kt X value, root_like sq ->
  let a := arena_collocated sq kt X in
  exists m M, minimum kt a value = Some m /\ maximum kt a value = Some M /\
    least (fun o => value (coord a o)) (ndrange (length X) (width kt)) m /\
    greatest (fun o => value (coord a o)) (ndrange (length X) (width kt)) M /\
    m <= isample kt a value /\ isample kt a value <= M.
Proof.
  intros sq kt X value R a. pose proof (collocated_placed sq kt X) as P.
  destruct (minimum_ok kt a value) as (m & E1 & L). destruct (maximum_ok kt a value) as (M & E2 & G).
  pose proof (placed_length _ _ _ _ _ P) as [_ LP]. fold a in LP. rewrite LP in L, G.
  exists m, M. split; [exact E1|]. split; [exact E2|]. split; [exact L|]. split; [exact G|]. eapply sample_bounds; eauto.
Qed.
Print Assumptions C54_sample_in_range.

Theorem C54_face_sample_in_range : forall sq kt X f value, root_like sq ->
  let a := arena_staggered sq kt X f in
  exists m M, minimum kt a value = Some m /\ maximum kt a value = Some M /\
    least (fun o => value (coord a o)) (ndrange (length X) (width kt)) m /\
    greatest (fun o => value (coord a o)) (ndrange (length X) (width kt)) M /\
    m <= isample kt a value /\ isample kt a value <= M.
Proof.
  intros sq kt X f value R a. pose proof (staggered_placed sq kt X f) as P.
  destruct (minimum_ok kt a value) as (m & E1 & L). destruct (maximum_ok kt a value) as (M & E2 & G).
  pose proof (placed_length _ _ _ _ _ P) as [_ LP]. fold a in LP. rewrite LP in L, G.
  exists m, M. split; [exact E1|]. split; [exact E2|]. split; [exact L|]. split; [exact G|]. eapply sample_bounds; eauto.
Qed.
Print Assumptions C54_face_sample_in_range.

(* The older free function computes the same quadratic weights. *)
Theorem C54_bspline_weight_is_quadratic : forall sq p dx_inv,
  Forall2 Qeq (bspline_weight p dx_inv) (w0s (row_of sq Quadratic (p * dx_inv))).
Proof.
  intros sq p dx_inv. unfold bspline_weight. cbn [row_of quadratic_row w0s].
  assert (E : (lower_trunc (p * dx_inv + (1#2)) = base_node 1 (p * dx_inv) + 1)%Z).
  { unfold base_node, lower_trunc. set (y := p * dx_inv).
    rewrite (Qfloor_comp (y + (1#2)) ((y - (1#2) * inject_Z (Z.of_nat 1)) + 1)).
    - clear. set (u := y - _). clearbody u.
      assert (A : (Qfloor u + 1 <= Qfloor (u + 1))%Z).
      { rewrite <- (Qfloor_Z (Qfloor u + 1)). apply Qfloor_resp_le. rewrite inject_Z_plus.
        pose proof (Qfloor_le u). change (inject_Z 1) with 1. lra. }
      assert (B : (Qfloor (u + 1) < Qfloor u + 2)%Z).
      { rewrite Zlt_Qlt. eapply Qle_lt_trans; [apply Qfloor_le|]. pose proof (Qlt_floor u) as H.
        replace (Qfloor u + 2)%Z with ((Qfloor u + 1) + 1)%Z by lia. rewrite (inject_Z_plus _ 1).
        change (inject_Z 1) with 1. lra. }
      lia.
    - change (inject_Z (Z.of_nat 1)) with 1. ring. }
  rewrite E, inject_Z_plus. change (inject_Z 1) with 1.
  repeat constructor; ring.
Qed.
Print Assumptions C54_bspline_weight_is_quadratic.
