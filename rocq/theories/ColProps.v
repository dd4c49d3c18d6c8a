(* C85: colliders. *)
From Coq Require Import Reals Arith Lra Lia.
From Verif Require Import CmModel CmSpec CmProofs ColModel ColSpec ColProofs.
Local Open Scope R_scope.

(* A point not deeper than the erosion keeps its velocity, and only such a point is reported as free. *)
Theorem C85_outside d c x v erosion : resolve d c x v erosion = (v, false) <-> - erosion <= lsd c (material d c x).
Proof.
  unfold resolve. destruct (Rlt_dec _ _) as [H|H]; split; intros H'; try reflexivity; try discriminate; lra.
Qed.
Print Assumptions C85_outside.

(* The point is inside exactly if it is the image of a material point inside the level set. *)
Theorem C85_inside d c x : proper d c -> orthogonal d (Rot c) -> s c <> 0 ->
  (query_inside d c x = true <-> exists X, same d x (place d (Rot c) (s c) (b c) X) /\ lsd c X < 0).
Proof.
  intros Hp Ho Hs. unfold query_inside. split.
  - destruct (Rlt_dec _ 0) as [H|H]; [|discriminate]. intros _. exists (material d c x). split; [|exact H].
    intros i Hi. symmetry. apply place_material; auto.
  - intros (X & Hx & HX). pose proof (material_place d c X x Ho Hs Hx) as Hm. destruct (Hp _ _ Hm) as [E _]. rewrite E.
    destruct (Rlt_dec _ 0); [reflexivity|contradiction].
Qed.
Print Assumptions C85_inside.

(* getVelocity is the velocity of the material point under the motion x = R s X + b,
   where R' = [omega] R, s' = dsdt, b' = dbdt and X' is the material velocity. *)
Theorem C85_velocity d c (M : R -> mat) (sc : R -> R) (tb X : R -> vec) (t : R) :
  plane_or_space d -> proper d c -> s c <> 0 -> orthogonal d (Rot c) ->
  (forall i j, (i < d)%nat -> (j < d)%nat -> M t i j = Rot c i j) -> sc t = s c -> same d (tb t) (b c) ->
  mat_rate d M t (times d (spin d (omega c)) (Rot c)) -> rate sc t (dsdt c) -> vec_rate d tb t (dbdt c) ->
  vec_rate d X t (lvel c (X t)) ->
  vec_rate d (fun u => place d (M u) (sc u) (tb u) (X u)) t (get_velocity d c (place d (M t) (sc t) (tb t) (X t))).
Proof. exact (velocity_rate d c M sc tb X t). Qed.
Print Assumptions C85_velocity.

(* Inside a sticky collider a point moves with the collider. *)
Theorem C85_sticky d c x v erosion : type c = Sticky -> lsd c (material d c x) < - erosion ->
  resolve d c x v erosion = (get_velocity d c x, true).
Proof. intros Ht H. unfold resolve. destruct (Rlt_dec _ _); [|contradiction]. rewrite Ht. reflexivity. Qed.
Print Assumptions C85_sticky.

(* Inside a slip collider with unit normals the velocity relative to the collider loses
   its normal part and nothing else. *)
Theorem C85_slip_partial d c x v erosion v' : type c = Slip -> orthogonal d (Rot c) ->
  unit d (lnormal c (material d c x)) -> lsd c (material d c x) < - erosion ->
  resolve d c x v erosion = (v', true) ->
  inner d (get_normal d c x) (minus v' (get_velocity d c x)) = 0 /\
  exists a, same d (minus v v') (fun i => a * get_normal d c x i).
Proof.
  intros Ht Ho Hu H. unfold resolve. destruct (Rlt_dec _ _); [|contradiction]. intros [= <-]. rewrite Ht.
  set (n := get_normal d c x). set (vo := get_velocity d c x).
  assert (Hn : inner d n n = 1) by (unfold n, get_normal; rewrite rot_inner; auto).
  assert (E : same d (minus (respond d Slip vo n v) vo) (fun i => minus v vo i - inner d n (minus v vo) * n i))
    by (intros i _; apply (respond_rel d Slip); discriminate).
  split.
  - rewrite (inner_ext d n n _ _ (fun _ _ => eq_refl) E), inner_sub_scal, Hn. ring.
  - exists (inner d n (minus v vo)). intros i Hi. pose proof (E i Hi) as Ei. unfold minus in Ei |- *. lra.
Qed.
Print Assumptions C85_slip_partial.

(* Inside a separating collider with unit normals an approaching point loses its normal
   relative velocity, a departing one is left alone. *)
Theorem C85_separate_partial d c x v erosion v' : type c = Separate -> orthogonal d (Rot c) ->
  unit d (lnormal c (material d c x)) -> lsd c (material d c x) < - erosion ->
  resolve d c x v erosion = (v', true) ->
  inner d (get_normal d c x) (minus v' (get_velocity d c x))
    = Rmax 0 (inner d (get_normal d c x) (minus v (get_velocity d c x))) /\
  exists a, 0 <= - a /\ same d (minus v v') (fun i => a * get_normal d c x i).
Proof.
  intros Ht Ho Hu H. unfold resolve. destruct (Rlt_dec _ _) as [_|]; [|contradiction]. intros [= <-]. rewrite Ht.
  set (n := get_normal d c x). set (vo := get_velocity d c x).
  assert (Hn : inner d n n = 1) by (unfold n, get_normal; rewrite rot_inner; auto).
  assert (E := fun i => respond_rel d Separate vo n v i ltac:(discriminate)).
  unfold slides in E. change (dot d n (minus v vo)) with (inner d n (minus v vo)) in E.
  destruct (Rlt_dec (inner d n (minus v vo)) 0) as [Hlt|Hge].
  - split.
    + rewrite (inner_ext d n n _ _ (fun _ _ => eq_refl) (fun i _ => E i)), inner_sub_scal, Hn.
      rewrite Rmax_left by lra. ring.
    + exists (inner d n (minus v vo)). split; [lra|]. intros i Hi. specialize (E i). unfold minus in E |- *. lra.
  - split.
    + rewrite (inner_ext d n n _ _ (fun _ _ => eq_refl) (fun i _ => E i)). rewrite Rmax_right by lra. reflexivity.
    + exists 0. split; [lra|]. intros i Hi. specialize (E i). unfold minus in E |- *. lra.
Qed.
Print Assumptions C85_separate_partial.

(* With unit normals no collider speeds a point up relative to itself, and a second
   resolution changes nothing. *)
Theorem C85_no_gain_partial d c x v erosion : orthogonal d (Rot c) -> unit d (lnormal c (material d c x)) ->
  lsd c (material d c x) < - erosion ->
  let v' := fst (resolve d c x v erosion) in
  let vo := get_velocity d c x in
  inner d (minus v' vo) (minus v' vo) <= inner d (minus v vo) (minus v vo) /\
  same d (fst (resolve d c x v' erosion)) v'.
Proof.
  intros Ho Hu H. unfold resolve. destruct (Rlt_dec _ _) as [_|]; [|contradiction]. simpl.
  set (n := get_normal d c x). set (vo := get_velocity d c x).
  assert (Hn : inner d n n = 1) by (unfold n, get_normal; rewrite rot_inner; auto).
  assert (P : forall y, 0 <= inner d y y).
  { intros y. unfold inner. clear. induction d as [|k IH]; simpl; [lra|]. pose proof (Rle_0_sqr (y k)). unfold Rsqr in *. lra. }
  destruct (type c) eqn:Ht.
  - split; [|intros i _; reflexivity]. simpl.
    rewrite (inner_ext d (minus vo vo) (fun _ => 0) (minus vo vo) (fun _ => 0)); try (intros i _; unfold minus; ring).
    unfold inner at 1. rewrite (vsum_ext d _ (fun _ => 0)) by (intros; ring). rewrite vsum_0. apply P.
  - set (w := respond d Slip vo n v).
    assert (E : same d (minus w vo) (fun i => minus v vo i - inner d n (minus v vo) * n i))
      by (intros i _; apply (respond_rel d Slip); discriminate).
    assert (Z : inner d n (minus w vo) = 0) by (rewrite (inner_ext d n n _ _ (fun _ _ => eq_refl) E), inner_sub_scal, Hn; ring).
    split.
    + rewrite (inner_ext d _ _ _ _ E E), norm_sub by auto. pose proof (Rle_0_sqr (inner d n (minus v vo))). unfold Rsqr in *. lra.
    + intros i Hi. pose proof (respond_rel d Slip vo n w i ltac:(discriminate)) as Ei. unfold slides in Ei. rewrite Z in Ei.
      change (respond d Slip vo n w i = w i). unfold minus in Ei. lra.
  - set (w := respond d Separate vo n v).
    assert (E := fun i => respond_rel d Separate vo n v i ltac:(discriminate)). fold w in E.
    unfold slides in E. change (dot d n (minus v vo)) with (inner d n (minus v vo)) in E.
    assert (Z : 0 <= inner d n (minus w vo)).
    { rewrite (inner_ext d n n _ _ (fun _ _ => eq_refl) (fun i _ => E i)).
      destruct (Rlt_dec (inner d n (minus v vo)) 0) as [Hlt|Hge]; [rewrite inner_sub_scal, Hn; lra|].
      change (0 <= inner d n (minus v vo)). lra. }
    split.
    + rewrite (inner_ext d _ _ _ _ (fun i _ => E i) (fun i _ => E i)).
      destruct (Rlt_dec (inner d n (minus v vo)) 0) as [Hlt|Hge].
      * rewrite norm_sub by auto. pose proof (Rle_0_sqr (inner d n (minus v vo))). unfold Rsqr in *. lra.
      * apply Rle_refl.
    + intros i Hi. pose proof (respond_rel d Separate vo n w i ltac:(discriminate)) as Ei. unfold slides in Ei.
      change (dot d n (minus w vo)) with (inner d n (minus w vo)) in Ei.
      destruct (Rlt_dec (inner d n (minus w vo)) 0); [lra|]. change (respond d Separate vo n w i = w i). unfold minus in Ei. lra.
Qed.
Print Assumptions C85_no_gain_partial.

(* Both entry points agree; the normal is reported exactly when the point is inside. *)
Theorem C85_with_normal d c x v erosion :
  resolve_with_normal d c x v erosion =
  (fst (resolve d c x v erosion), (if snd (resolve d c x v erosion) then Some (get_normal d c x) else None),
   snd (resolve d c x v erosion)).
Proof. unfold resolve_with_normal, resolve. destruct (Rlt_dec _ _); reflexivity. Qed.
Print Assumptions C85_with_normal.

(* Without scaling, a sphere collider acts on the points deeper than the erosion below
   the surface of the moved sphere. *)
Theorem C85_erosion_partial d c x v erosion center radius : orthogonal d (Rot c) -> s c = 1 ->
  lsd c = sphere_sd d center radius ->
  (snd (resolve d c x v erosion) = true <-> distance d x (place d (Rot c) 1 (b c) center) < radius - erosion).
Proof.
  intros Ho Hs Hl. unfold resolve. rewrite Hl. unfold sphere_sd.
  assert (E : norm2 d (fun i => material d c x i - center i)
     = inner d (minus x (place d (Rot c) 1 (b c) center)) (minus x (place d (Rot c) 1 (b c) center))).
  { change (norm2 d (fun i => material d c x i - center i)) with (inner d (fun i => material d c x i - center i) (fun i => material d c x i - center i)).
    rewrite <- (rot_inner d (Rot c)) by auto. apply inner_ext; intros i Hi;
    (pose proof (place_material d c x Ho ltac:(lra) i Hi) as Ei; unfold minus; rewrite <- Ei; unfold place, mulv; rewrite Hs;
     match goal with |- ?a = ?b + _ - (?c + _) => transitivity (b + -1 * c); [|ring] end;
     rewrite <- vsum_scal, <- vsum_plus; apply vsum_ext; intros j _; ring). }
  rewrite E. fold (distance d x (place d (Rot c) 1 (b c) center)).
  destruct (Rlt_dec _ _); simpl; split; intros H; try reflexivity; try discriminate; lra.
Qed.
Print Assumptions C85_erosion_partial.

(* The erosion is compared with the depth in material space: under a scaling of 2, a
   point 3/4 below the surface of a sphere is not resolved with erosion 1/2. *)
Definition id_mat : mat := fun i j => delta i j.
Definition plain (sd : vec -> R) (nr : vec -> vec) (t : collider_e) (sc : R) : collider :=
  Collider sd nr still t sc 0 id_mat (fun _ => 0) (fun _ => 0) (fun _ => 0).
Theorem C85_erosion_refuted : exists c x v erosion center radius,
  lsd c = sphere_sd 2 center radius /\ s c = 2 /\ orthogonal 2 (Rot c) /\
  distance 2 x (place 2 (Rot c) (s c) (b c) center) < s c * radius - erosion /\
  resolve 2 c x v erosion = (v, false).
Proof.
  exists (plain (sphere_sd 2 (fun _ => 0) 1) (sphere_normal 2 (fun _ => 0)) Sticky 2),
    (fun i => if Nat.eqb i 0 then 5/4 else 0), (fun _ => 0), (1/2), (fun _ => 0), 1.
  split; [reflexivity|]. split; [reflexivity|]. split; [|split].
  - split; intros [|[|i]] [|[|j]] Hi Hj; try lia; simpl; unfold id_mat, delta; simpl; ring.
  - unfold distance, inner, minus, place. simpl. unfold id_mat, delta. simpl.
    match goal with |- sqrt ?e < _ => replace e with ((5/4) * (5/4)) by field end. rewrite sqrt_square; lra.
  - apply C85_outside. simpl. unfold sphere_sd, norm2, dot, material, mulv, tr. simpl. unfold id_mat, delta. simpl.
    match goal with |- _ <= sqrt ?e - _ => replace e with ((5/8) * (5/8)) by field end. rewrite sqrt_square; lra.
Qed.
Print Assumptions C85_erosion_refuted.

(* A plane keeps the normal it is given: with a normal of length 2 a slip collider
   reverses and triples the normal velocity. *)
Theorem C85_slip_refuted : exists origin normal x v v',
  let c := plain (plane_sd 2 origin normal) (plane_normal normal) Slip 1 in
  resolve 2 c x v 0 = (v', true) /\
  inner 2 normal v = -2 /\ inner 2 normal (minus v' (get_velocity 2 c x)) = 6.
Proof.
  exists (fun _ => 0), (fun i => if Nat.eqb i 1 then 2 else 0), (fun i => if Nat.eqb i 1 then -1 else 0),
    (fun i => if Nat.eqb i 1 then -1 else 0). eexists. cbv zeta. split.
  - unfold resolve. destruct (Rlt_dec _ _) as [_|n]; [reflexivity|]. exfalso. apply n. clear n. simpl.
    unfold plane_sd, dot, material, mulv, tr. simpl. unfold id_mat, delta. simpl. lra.
  - split.
    + unfold inner. simpl. ring.
    + unfold inner, minus, respond, get_velocity, get_normal, dot, mulv. simpl.
      unfold plane_normal, material, mulv, tr, still. simpl. unfold id_mat, delta. simpl. field.
Qed.
Print Assumptions C85_slip_refuted.

(* Away from its center the normal of a sphere is the unit vector pointing away from the center. *)
Theorem C85_sphere_normal d center x : 1 / 10000000 <= inner d (minus x center) (minus x center) ->
  unit d (sphere_normal d center x) /\
  forall i, x i - center i = distance d x center * sphere_normal d center x i.
Proof.
  intros H. unfold sphere_normal. change (norm2 d (fun i => x i - center i)) with (inner d (minus x center) (minus x center)).
  destruct (Rlt_dec _ _); [lra|]. unfold distance. set (q := inner d (minus x center) (minus x center)) in *.
  assert (Hq : 0 < sqrt q) by (apply sqrt_lt_R0; lra). split; [|intros; field; lra].
  unfold unit, inner. rewrite (vsum_ext d _ (fun i => / q * (minus x center i * minus x center i))).
  - rewrite vsum_scal. change (/ q * q = 1). field. lra.
  - intros i _. replace (/ q) with (/ (sqrt q * sqrt q)) by (rewrite sqrt_sqrt; [reflexivity|lra]). unfold minus. field. lra.
Qed.
Print Assumptions C85_sphere_normal.

(* The normal of a sphere is zero wherever the squared distance to its center is below
   1e-7: small spheres do not act at all unless they are sticky. *)
Theorem C85_small_sphere_refuted d c x v erosion center radius : proper d c ->
  lsd c = sphere_sd d center radius -> lnormal c = sphere_normal d center -> type c <> Sticky ->
  0 <= radius -> radius * radius <= 1 / 10000000 -> 0 <= erosion ->
  same d (fst (resolve d c x v erosion)) v.
Proof.
  intros Hp Hl Hn Ht Hr Hr2 He i Hi. unfold resolve. destruct (Rlt_dec _ _) as [H|]; [|reflexivity]. simpl.
  rewrite Hl in H. unfold sphere_sd in H.
  assert (Hs : norm2 d (fun i => material d c x i - center i) < 1 / 10000000).
  { set (q := norm2 d (fun i => material d c x i - center i)) in *.
    destruct (Rle_or_lt q 0) as [Hq|Hq]; [lra|]. pose proof (sqrt_sqrt q (Rlt_le _ _ Hq)). pose proof (sqrt_pos q).
    assert (sqrt q < radius) by lra. nra. }
  assert (Z : forall j, get_normal d c x j = 0).
  { intros j. unfold get_normal. rewrite Hn. unfold sphere_normal. destruct (Rlt_dec _ _); [|contradiction].
    unfold mulv. rewrite (vsum_ext d _ (fun _ => 0)) by (intros; ring). apply vsum_0. }
  pose proof (respond_rel d (type c) (get_velocity d c x) (get_normal d c x) v i Ht) as E. unfold minus in E.
  rewrite Z in E. destruct (slides _ _ _ _); lra.
Qed.
Print Assumptions C85_small_sphere_refuted.

(* A plane through the origin, moving upwards with velocity 1, separating. *)
Definition ex_collider : collider :=
  Collider (plane_sd 3 (fun _ => 0) (fun i => if Nat.eqb i 2 then 1 else 0)) (plane_normal (fun i => if Nat.eqb i 2 then 1 else 0))
    still Separate 2 0 id_mat (fun _ => 0) (fun _ => 0) (fun i => if Nat.eqb i 2 then 1 else 0).
Example C85_ex : proper 3 ex_collider /\ orthogonal 3 (Rot ex_collider) /\ s ex_collider <> 0 /\
  exists x v v', unit 3 (lnormal ex_collider (material 3 ex_collider x)) /\ lsd ex_collider (material 3 ex_collider x) < - 0 /\
    resolve 3 ex_collider x v 0 = (v', true) /\ v 2%nat = 0 /\ v' 2%nat = 1.
Proof.
  split; [|split; [|split]].
  - intros X Y H. split; [|split; intros i _; reflexivity]. simpl. unfold plane_sd, dot. simpl.
    rewrite !H by lia. reflexivity.
  - split; intros [|[|[|i]]] [|[|[|j]]] Hi Hj; try lia; simpl; unfold id_mat, delta; simpl; ring.
  - simpl. lra.
  - assert (I : lsd ex_collider (material 3 ex_collider (fun i => if Nat.eqb i 2 then -1 else 0)) < - 0).
    { simpl. unfold plane_sd, dot, material, mulv, tr. simpl. unfold id_mat, delta. simpl. lra. }
    exists (fun i => if Nat.eqb i 2 then -1 else 0), (fun _ => 0). eexists. split; [|split; [exact I|split]].
    + unfold unit, inner. simpl. unfold plane_normal. simpl. ring.
    + unfold resolve. destruct (Rlt_dec _ _); [reflexivity|contradiction].
    + split; [reflexivity|]. unfold respond. simpl type. cbv iota.
      match goal with |- context [Rlt_dec ?p 0] => assert (Hp : p = -1) end.
      { unfold dot, get_normal, get_velocity, mulv. simpl. unfold plane_normal, still. simpl. unfold id_mat, delta. simpl. field. }
      destruct (Rlt_dec _ 0) as [_|n]; [|exfalso; apply n; rewrite Hp; lra]. rewrite Hp.
      unfold get_normal, get_velocity, mulv. simpl. unfold plane_normal, still. simpl. unfold id_mat, delta. simpl. field.
Qed.
(* The collider turning about the axis: R(u) is the rotation by the angle u at u = 0, scale 1 + u, translation u. *)
Example C85_ex_velocity : exists c (M : R -> mat) (sc : R -> R) (tb X : R -> vec),
  proper 2 c /\ orthogonal 2 (Rot c) /\ s c <> 0 /\ omega c 0%nat = 1 /\
  (forall i j, (i < 2)%nat -> (j < 2)%nat -> M 0 i j = Rot c i j) /\ sc 0 = s c /\ same 2 (tb 0) (b c) /\
  mat_rate 2 M 0 (times 2 (spin 2 (omega c)) (Rot c)) /\ rate sc 0 (dsdt c) /\ vec_rate 2 tb 0 (dbdt c) /\
  vec_rate 2 X 0 (lvel c (X 0)).
Proof.
  exists (Collider (fun _ => 1) still still Slip 1 1 id_mat (fun _ => 1) (fun _ => 0) (fun _ => 1)),
    (fun u i j => match i, j with 0%nat, 0%nat | 1%nat, 1%nat => cos u | 0%nat, 1%nat => - sin u | _, _ => sin u end),
    (fun u => 1 + u), (fun u _ => u), (fun _ _ => 5).
  split; [intros X Y H; repeat split; intros i _; reflexivity|].
  split; [split; intros [|[|i]] [|[|j]] Hi Hj; try lia; simpl; unfold id_mat, delta; simpl; ring|].
  split; [simpl; lra|]. split; [reflexivity|].
  assert (D : forall v w, v = w -> forall f, rate f 0 v -> rate f 0 w) by (intros v w ->; auto).
  split; [intros [|[|i]] [|[|j]] Hi Hj; try lia; simpl; unfold id_mat, delta; simpl; rewrite ?cos_0, ?sin_0; ring|].
  split; [simpl; ring|]. split; [intros i _; reflexivity|]. split; [|split; [|split]].
  - intros [|[|i]] [|[|j]] Hi Hj; try lia; unfold times; simpl; unfold id_mat, delta; simpl.
    + apply (D (- sin 0)); [rewrite sin_0; ring|]. apply derivable_pt_lim_cos.
    + apply (D (- cos 0)); [rewrite cos_0; ring|]. apply (derivable_pt_lim_opp sin). apply derivable_pt_lim_sin.
    + apply (D (cos 0)); [rewrite cos_0; ring|]. apply derivable_pt_lim_sin.
    + apply (D (- sin 0)); [rewrite sin_0; ring|]. apply derivable_pt_lim_cos.
  - simpl. apply (D (0 + 1)); [ring|]. apply (derivable_pt_lim_plus (fun _ => 1) (fun u => u)); [apply derivable_pt_lim_const|apply derivable_pt_lim_id].
  - intros i _. apply derivable_pt_lim_id.
  - intros i _. apply derivable_pt_lim_const.
Qed.
