(** C100: lemmas. *)
From Coq Require Import Reals Lra Psatz.
From Verif Require Import Prelude RdModel RdSpec.
Local Open Scope R_scope.

Lemma fold_total l : forall a, fold_left Rplus l a = a + total l.
Proof. induction l as [|x l IH]; intros a; cbn [fold_left total fold_right]; [ring|]. rewrite IH. fold (total l). ring. Qed.
Lemma total_app a b : total (a ++ b) = total a + total b.
Proof. induction a as [|x a IH]; cbn [app total fold_right]; [fold (total b); ring|]. fold (total (a ++ b)). fold (total a). rewrite IH. ring. Qed.
Lemma attempt_slice s n m : attempt s n m = slice s n m.
Proof. unfold attempt, slice, rand_unit. apply map_ext. intros i. ring. Qed.
Lemma slice_length s n m : length (slice s n m) = m.
Proof. unfold slice. now rewrite map_length, seq_length. Qed.
Lemma slice_in s n m x : uniform s -> In x (slice s n m) -> 0 <= x < 1.
Proof. intros U I. apply in_map_iff in I. destruct I as (i & <- & _). apply U. Qed.
Lemma dist_ok r : forall c, dist_sqr r c = sqr_dist r c.
Proof.
  intros c. unfold dist_sqr. rewrite fold_total, Rplus_0_l. revert c. induction r as [|x r IH]; intros [|y c]; cbn [combine map total fold_right sqr_dist fst snd]; try reflexivity.
  fold (total (map (fun p => (fst p - snd p) * (fst p - snd p)) (combine r c))). rewrite IH. reflexivity.
Qed.
(** boxes *)
Lemma box_ok s : forall box n, (forall a b, In (a, b) box -> a <= b) -> exists r, rand_in_box s n box = Some (r, (n + length box)%nat) /\ length r = length box /\
  forall i a b, nth_error box i = Some (a, b) -> nth_error r i = Some (a + (b - a) * s (n + i)%nat).
Proof.
  induction box as [|(a, b) box IH]; intros n H; [exists []; cbn; rewrite Nat.add_0_r; repeat split; intros [|i]; discriminate|].
  cbn [rand_in_box]. unfold rand_real. destruct (Rle_dec a b) as [L|L]; [|exfalso; apply L, H; now left].
  destruct (IH (S n)) as (r & E & Len & N); [intros; apply H; now right|]. rewrite E. exists ((a + (b - a) * s n) :: r). split; [cbn; do 2 f_equal; lia|]. split; [cbn; congruence|].
  intros [|i] a' b'; cbn [nth_error]; [intros Q; injection Q as <- <-; now rewrite Nat.add_0_r|]. intros Q. rewrite (N i a' b' Q). do 3 f_equal. f_equal. lia.
Qed.
Lemma box_undef s : forall box n, (exists a b, In (a, b) box /\ b < a) -> rand_in_box s n box = None.
Proof.
  induction box as [|(a, b) box IH]; intros n (x & y & I & L); [destruct I|]. cbn [rand_in_box]. unfold rand_real. destruct (Rle_dec a b) as [Q|Q]; [|reflexivity].
  destruct I as [I|I]; [injection I as -> ->; lra|]. rewrite IH; [reflexivity|exists x, y; tauto].
Qed.
(** rejection for the weights *)
Lemma bary_first s m : forall fuel n r n', barycentric s n m fuel = Val (r, n') ->
  exists k, (k < fuel)%nat /\ n' = (n + S k * m)%nat /\ r = slice s (n + k * m) m ++ [1 - total (slice s (n + k * m) m)] /\ total (slice s (n + k * m) m) <= 1 /\ forall j, (j < k)%nat -> 1 < total (slice s (n + j * m) m).
Proof.
  induction fuel as [|f IH]; intros n r n' H; cbn [barycentric] in H; [discriminate|]. rewrite attempt_slice, fold_total, Rplus_0_l in H. destruct (Rlt_dec 1 (total (slice s n m))) as [L|L].
  - destruct (IH _ _ _ H) as (k & K & E & R & A & J). exists (S k). replace (n + S k * m)%nat with (n + m + k * m)%nat by lia. split; [lia|]. split; [lia|]. split; [exact R|]. split; [exact A|].
    intros [|j] Q; [now rewrite Nat.mul_0_l, Nat.add_0_r|]. replace (n + S j * m)%nat with (n + m + j * m)%nat by lia. apply J. lia.
  - injection H as <- <-. exists 0%nat. rewrite Nat.mul_0_l, Nat.add_0_r. split; [lia|]. split; [lia|]. split; [reflexivity|]. split; [lra|intros j Q; lia].
Qed.
Lemma bary_ends s m : forall k n, total (slice s (n + k * m) m) <= 1 -> exists v, barycentric s n m (S k) = Val v.
Proof.
  induction k as [|k IH]; intros n H; cbn [barycentric]; rewrite attempt_slice, fold_total, Rplus_0_l.
  - rewrite Nat.mul_0_l, Nat.add_0_r in H. destruct (Rlt_dec 1 (total (slice s n m))); [lra|eauto].
  - destruct (Rlt_dec 1 (total (slice s n m))); [|eauto]. apply IH. replace (n + m + k * m)%nat with (n + S k * m)%nat by lia. exact H.
Qed.
Lemma bary_never s m : forall fuel n, (forall k, 1 < total (slice s (n + k * m) m)) -> barycentric s n m fuel = Fuel.
Proof.
  induction fuel as [|f IH]; intros n H; [reflexivity|]. cbn [barycentric]. rewrite attempt_slice, fold_total, Rplus_0_l.
  destruct (Rlt_dec 1 (total (slice s n m))) as [_|L]; [|exfalso; apply L; specialize (H 0%nat); now rewrite Nat.mul_0_l, Nat.add_0_r in H].
  apply IH. intros k. replace (n + m + k * m)%nat with (n + S k * m)%nat by lia. apply H.
Qed.
(** one attempt of the ball *)
Lemma ball_box_in c radius a b : In (a, b) (ball_box c radius) -> exists x, In x c /\ a = x - radius /\ b = x + radius.
Proof. intros I. apply in_map_iff in I. destruct I as (x & E & I). injection E as <- <-. eauto. Qed.
Lemma nth_point s n c radius i x : nth_error c i = Some x -> nth_error (point s n c radius) i = Some (x + radius * (2 * s (n + i)%nat - 1)).
Proof.
  intros H. unfold point. rewrite nth_error_map. assert (L : (i < length c)%nat) by (apply nth_error_some_lt with (x := x), H).
  assert (C : nth_error (combine c (seq 0 (length c))) i = Some (x, i)).
  { assert (G : forall (c : list R) i k x, nth_error c i = Some x -> nth_error (combine c (seq k (length c))) i = Some (x, (k + i)%nat)).
    { clear. induction c as [|y c IH]; intros [|i] k x H; try discriminate; cbn in *; [injection H as ->; now rewrite Nat.add_0_r|]. rewrite (IH i (S k) x H). do 2 f_equal. lia. }
    exact (G c i 0%nat x H). }
  rewrite C. reflexivity.
Qed.
Lemma point_length s n c radius : length (point s n c radius) = length c.
Proof. unfold point. rewrite map_length, combine_length, seq_length. lia. Qed.
Lemma ball_try s n c radius : 0 <= radius -> rand_in_box s n (ball_box c radius) = Some (point s n c radius, (n + length c)%nat).
Proof.
  intros P. destruct (box_ok s (ball_box c radius) n) as (r & E & L & N); [intros a b I; apply ball_box_in in I; destruct I as (x & _ & -> & ->); lra|].
  unfold ball_box in L at 1. rewrite map_length in L. rewrite E. unfold ball_box. rewrite map_length. do 2 f_equal. apply nth_error_ext.
  intros i. destruct (nth_error c i) as [x|] eqn:C.
  - rewrite (nth_point _ _ _ _ _ _ C). rewrite (N i (x - radius) (x + radius)) by (unfold ball_box; rewrite nth_error_map, C; reflexivity). f_equal. ring.
  - apply nth_error_None in C. transitivity (@None R); [apply nth_error_None; lia|symmetry; apply nth_error_None; rewrite point_length; exact C].
Qed.
Lemma ball_first s c radius : 0 <= radius -> forall fuel n r n', rand_in_ball s n c radius fuel = Val (r, n') ->
  exists k, (k < fuel)%nat /\ n' = (n + S k * length c)%nat /\ r = point s (n + k * length c) c radius /\ in_ball c radius r /\
  forall j, (j < k)%nat -> ~ in_ball c radius (point s (n + j * length c) c radius).
Proof.
  intros P. induction fuel as [|f IH]; intros n r n' H; cbn [rand_in_ball] in H; [discriminate|]. rewrite (ball_try s n c radius P), dist_ok in H.
  destruct (Rlt_dec _ _) as [L|L].
  - destruct (IH _ _ _ H) as (k & K & E & R & A & J). exists (S k). replace (n + S k * length c)%nat with (n + length c + k * length c)%nat by lia. split; [lia|]. split; [lia|]. split; [exact R|]. split; [exact A|].
    intros [|j] Q; [rewrite Nat.mul_0_l, Nat.add_0_r; intros (_ & B); unfold Rsqr at 1 in B; lra|]. replace (n + S j * length c)%nat with (n + length c + j * length c)%nat by lia. apply J. lia.
  - injection H as <- <-. exists 0%nat. rewrite Nat.mul_0_l, Nat.add_0_r. split; [lia|]. split; [lia|]. split; [reflexivity|]. split; [split; [apply point_length|unfold Rsqr at 1; lra]|intros j Q; lia].
Qed.
Lemma ball_ends s c radius : 0 <= radius -> forall k n, in_ball c radius (point s (n + k * length c) c radius) -> exists v, rand_in_ball s n c radius (S k) = Val v.
Proof.
  intros P. induction k as [|k IH]; intros n H; cbn [rand_in_ball]; rewrite (ball_try s n c radius P), dist_ok; destruct (Rlt_dec _ _) as [L|L]; eauto.
  - rewrite Nat.mul_0_l, Nat.add_0_r in H. destruct H as (_ & B). unfold Rsqr at 1 in B. lra.
  - apply IH. replace (n + length c + k * length c)%nat with (n + S k * length c)%nat by lia. exact H.
Qed.
