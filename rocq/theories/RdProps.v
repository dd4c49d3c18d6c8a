(** C100: random weights, boxes, balls and rotations. *)
From Coq Require Import Reals Lra Psatz.
From Verif Require Import Prelude RdModel RdSpec RdProofs.
Local Open Scope R_scope.

(** whatever the generator delivers, the weights are convex *)
Theorem C100_weights : forall s n m fuel w n', uniform s -> barycentric s n m fuel = Val (w, n') -> convex m w.
Proof.
  intros s n m fuel w n' U H. destruct (bary_first s m fuel n w n' H) as (k & _ & _ & -> & A & _). unfold convex. split; [rewrite app_length, slice_length; cbn; lia|]. split.
  - intros x I. apply in_app_iff in I. destruct I as [I|[<-|[]]]; [apply (slice_in s _ m x U) in I; lra|lra].
  - rewrite total_app. cbn [total fold_right]. fold (total (slice s (n + k * m) m)). ring.
Qed.
Print Assumptions C100_weights.
(** they are those of the first group of m numbers of the stream with sum at most one; the loop ends exactly if there is one *)
Theorem C100_weights_first : forall s n m,
  (forall fuel w n', barycentric s n m fuel = Val (w, n') -> exists k, n' = (n + S k * m)%nat /\ w = slice s (n + k * m) m ++ [1 - total (slice s (n + k * m) m)] /\
     total (slice s (n + k * m) m) <= 1 /\ forall j, (j < k)%nat -> 1 < total (slice s (n + j * m) m)) /\
  ((exists k, total (slice s (n + k * m) m) <= 1) <-> exists fuel v, barycentric s n m fuel = Val v).
Proof.
  intros s n m. split; [intros fuel w n' H; destruct (bary_first s m fuel n w n' H) as (k & _ & R); exists k; exact R|]. split.
  - intros (k & H). exists (S k). apply bary_ends, H.
  - intros (fuel & (w & n') & H). destruct (bary_first s m fuel n w n' H) as (k & _ & _ & _ & A & _). exists k. exact A.
Qed.
Print Assumptions C100_weights_first.
(** no part of the simplex is missed: all weights whose first m are below one are drawn from some stream *)
Theorem C100_weights_all : forall m w, convex m w -> (forall i, (i < m)%nat -> nth i w 0 < 1) -> exists s, uniform s /\ barycentric s 0 m 1 = Val (w, m).
Proof.
  intros m w (L & P & T) H. exists (fun i => if lt_dec i m then nth i w 0 else 0).
  assert (W : w = slice (fun i => if lt_dec i m then nth i w 0 else 0) 0 m ++ [nth m w 0]).
  { apply nth_error_ext. intros i. destruct (lt_eq_lt_dec i m) as [[I|I]|I].
    - rewrite nth_error_app1 by (rewrite slice_length; exact I). unfold slice. rewrite nth_error_map. rewrite (nth_error_nth' (seq 0 m) 0%nat) by (rewrite seq_length; exact I).
      rewrite seq_nth by exact I. cbn [option_map Nat.add]. destruct (lt_dec i m); [|lia]. apply nth_error_nth'. lia.
    - subst i. rewrite nth_error_app2 by (rewrite slice_length; lia). rewrite slice_length, Nat.sub_diag. cbn [nth_error]. apply nth_error_nth'. lia.
    - transitivity (@None R); [apply nth_error_None; lia|symmetry; apply nth_error_None; rewrite app_length, slice_length; cbn; lia]. }
  split.
  - intros k. destruct (lt_dec k m) as [K|K]; [|lra]. split; [|apply H, K]. apply P, nth_In. lia.
  - set (s := fun i => if lt_dec i m then nth i w 0 else 0) in *. assert (S : total (slice s 0 m) = 1 - nth m w 0) by (rewrite W in T; rewrite total_app in T; cbn [total fold_right] in T; fold (total (slice s 0 m)) in T; lra).
    cbn [barycentric]. rewrite attempt_slice, fold_total, Rplus_0_l. assert (Q : 0 <= nth m w 0) by (apply P, nth_In; lia). destruct (Rlt_dec 1 (total (slice s 0 m))); [lra|].
    f_equal. f_equal. rewrite S. replace (1 - (1 - nth m w 0)) with (nth m w 0) by ring. symmetry. exact W.
Qed.
Print Assumptions C100_weights_all.
(** a generator that only delivers large numbers keeps the loop running *)
Theorem C100_weights_refuted : exists s, uniform s /\ forall fuel, barycentric s 0 2 fuel = Fuel.
Proof. exists (fun _ => 3 / 4). split; [intros k; lra|]. intros fuel. apply bary_never. intros k. cbn. lra. Qed.
Print Assumptions C100_weights_refuted.

(** boxes (and fill): every coordinate lies between its bounds, one number of the stream each; wrong corners are undefined *)
Theorem C100_box : forall s n box, uniform s ->
  ((forall a b, In (a, b) box -> a <= b) -> exists r, rand_in_box s n box = Some (r, (n + length box)%nat) /\ length r = length box /\
     forall i a b, nth_error box i = Some (a, b) -> exists x, nth_error r i = Some x /\ a <= x <= b /\ (a < b -> x < b) /\ x = a + (b - a) * s (n + i)%nat) /\
  ((exists a b, In (a, b) box /\ b < a) -> rand_in_box s n box = None).
Proof.
  intros s n box U. split; [|apply box_undef]. intros H. destruct (box_ok s box n H) as (r & E & L & N). exists r. split; [exact E|]. split; [exact L|].
  intros i a b I. exists (a + (b - a) * s (n + i)%nat). split; [apply N, I|]. specialize (U (n + i)%nat). assert (A : a <= b) by (apply H, (nth_error_In _ _ I)). repeat split; nra.
Qed.
Print Assumptions C100_box.

(** balls: the answer is the first point of the stream inside; the loop ends exactly if there is one; a negative radius is undefined *)
Theorem C100_ball : forall s n c radius,
  (0 <= radius -> forall fuel r n', rand_in_ball s n c radius fuel = Val (r, n') -> in_ball c radius r) /\
  (0 <= radius -> (exists k, in_ball c radius (point s (n + k * length c) c radius)) <-> exists fuel v, rand_in_ball s n c radius fuel = Val v) /\
  (0 <= radius -> forall fuel, rand_in_ball s n c radius fuel <> Undef) /\
  (radius < 0 -> c <> [] -> forall fuel, (0 < fuel)%nat -> rand_in_ball s n c radius fuel = Undef).
Proof.
  intros s n c radius. split; [intros P fuel r n' H; destruct (ball_first s c radius P fuel n r n' H) as (k & _ & _ & _ & A & _); exact A|]. split; [intros P; split|split].
  - intros (k & H). exists (S k). apply ball_ends; assumption.
  - intros (fuel & (r & n') & H). destruct (ball_first s c radius P fuel n r n' H) as (k & _ & _ & -> & A & _). exists k. exact A.
  - intros P fuel. revert n. induction fuel as [|f IH]; intros n; cbn [rand_in_ball]; [discriminate|]. rewrite (ball_try s n c radius P). destruct (Rlt_dec _ _); [apply IH|discriminate].
  - intros P C [|f] F; [lia|]. cbn [rand_in_ball]. rewrite box_undef; [reflexivity|]. destruct c as [|x c]; [contradiction|]. exists (x - radius), (x + radius). split; [now left|lra].
Qed.
Print Assumptions C100_ball.

(** rotations: orthogonal with determinant one *)
Theorem C100_rotation : forall s n, exists a b c d, rand_rotation s n = Some (((a, b), (c, d)), S n) /\ a * a + c * c = 1 /\ b * b + d * d = 1 /\ a * b + c * d = 0 /\ a * d - b * c = 1.
Proof.
  intros s n. unfold rand_rotation, rand_real. pose proof PI_RGT_0. destruct (Rle_dec 0 (2 * PI)) as [_|L]; [|lra]. unfold rotation2. set (t := 0 + (2 * PI - 0) * s n).
  pose proof (sin2_cos2 t) as Q. unfold Rsqr in Q. do 4 eexists. split; [reflexivity|]. repeat split; lra.
Qed.
Print Assumptions C100_rotation.
(** every plane rotation is drawn from some stream *)
Theorem C100_rotation_all : forall t, 0 <= t < 2 * PI -> exists s, uniform s /\ rand_rotation s 0 = Some (((cos t, - sin t), (sin t, cos t)), 1%nat).
Proof.
  intros t T. pose proof PI_RGT_0. exists (fun _ => t / (2 * PI)). split.
  - intros k. split; [apply Rmult_le_pos; [lra|left; apply Rinv_0_lt_compat; lra]|]. apply (Rmult_lt_reg_r (2 * PI)); [lra|]. unfold Rdiv. rewrite Rmult_assoc, Rinv_l; lra.
  - unfold rand_rotation, rand_real. destruct (Rle_dec 0 (2 * PI)); [|lra]. replace (0 + (2 * PI - 0) * (t / (2 * PI))) with t by (field; lra). reflexivity.
Qed.
Print Assumptions C100_rotation_all.

(** the second pair of the stream is accepted; a point of the unit disk; a box *)
Example C100_ex : let s := fun k => if lt_dec k 2 then 3 / 4 else 1 / 4 in uniform s /\ barycentric s 0 2 5 = Val ([1 / 4; 1 / 4; 1 / 2], 4%nat) /\
  in_ball [0; 0] 1 (point s 2 [0; 0] 1) /\ convex 2 [1 / 4; 1 / 4; 1 / 2] /\ (forall a b, In (a, b) [(1, 2); (3, 3)] -> a <= b).
Proof.
  cbv zeta. split; [intros k; destruct (lt_dec k 2); lra|]. split.
  - cbn [barycentric]. rewrite !attempt_slice, !fold_total. unfold slice. cbn. destruct (Rlt_dec _ _); [|exfalso; lra]. destruct (Rlt_dec _ _); [exfalso; lra|]. match goal with |- Val ([_; _; ?c], _) = _ => replace c with (1 / 2) by lra end. reflexivity.
  - split; [|split].
    + split; [reflexivity|]. unfold point. cbn. unfold Rsqr. lra.
    + split; [reflexivity|]. split; [intros x [<-|[<-|[<-|[]]]]; lra|cbn; lra].
    + intros a b [E|[E|[]]]; injection E as <- <-; lra.
Qed.
