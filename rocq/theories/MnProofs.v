(** C99: lemmas. *)
From Coq Require Import Reals Lra Psatz.
From Verif Require Import Prelude MnModel MnSpec.
Local Open Scope R_scope.

Fixpoint at_key (k : nat) (ops : list (nat * R)) : R := match ops with [] => 0 | (j, x) :: r => (if Nat.eqb j k then x else 0) + at_key k r end.
Lemma at_key_app k a b : at_key k (a ++ b) = at_key k a + at_key k b.
Proof. induction a as [|(j, x) a IH]; cbn [app at_key]; [ring|rewrite IH; ring]. Qed.
Lemma at_key_perm k a b : Permutation a b -> at_key k a = at_key k b.
Proof. induction 1 as [|(j, x) a b _ IH|(j, x) (j', x') a|a b c _ I1 _ I2]; cbn [at_key]; [reflexivity|rewrite IH; ring|ring|congruence]. Qed.
Lemma apply_sum ops : forall mem, (forall k x, In (k, x) ops -> (k < length mem)%nat) ->
  exists mem', apply_ops Rplus mem ops = Some mem' /\ length mem' = length mem /\ forall k, (k < length mem)%nat -> nth k mem' 0 = nth k mem 0 + at_key k ops.
Proof.
  induction ops as [|(j, x) ops IH]; intros mem H; cbn [apply_ops at_key]; [exists mem; repeat split; intros; ring|].
  assert (J : (j < length mem)%nat) by (apply (H j x); now left). destruct (nth_error_lt_some mem j J) as (o & O). rewrite O.
  destruct (upd_some mem j (o + x) J) as (m1 & U). rewrite U. pose proof (upd_length _ _ _ _ U) as L.
  destruct (IH m1) as (m2 & A & L2 & N); [intros k y I; rewrite L; apply (H k y); now right|]. exists m2. split; [exact A|]. split; [congruence|].
  intros k K. rewrite N by lia. destruct (Nat.eqb_spec j k) as [->|D].
  - rewrite (nth_error_nth _ _ 0 (upd_nth_eq _ _ _ _ U)), (nth_error_nth _ _ 0 O). ring.
  - pose proof (upd_nth_neq _ _ _ k _ U) as E. assert (E' : nth_error m1 k = nth_error mem k) by (apply E; congruence).
    replace (nth k m1 0) with (nth k mem 0); [ring|]. destruct (nth_error mem k) as [y|] eqn:Y; [|apply nth_error_None in Y; lia].
    now rewrite (nth_error_nth _ _ 0 Y), (nth_error_nth _ _ 0 E').
Qed.
Definition comp (d : nat) (n : v3) : R := match d with O => vx n | S O => vy n | _ => vz n end.
Lemma at_vertex_key i n v d : (d < 3)%nat -> at_key (3 * v + d) (at_vertex i n) = (if Nat.eqb i v then 1 else 0) * comp d n.
Proof.
  intros D. unfold at_vertex. cbn [at_key]. destruct (Nat.eqb_spec i v) as [->|N].
  - destruct d as [|[|[|d]]]; [| | |lia]; repeat match goal with |- context [Nat.eqb ?a ?b] => destruct (Nat.eqb_spec a b); try lia end; cbn [comp]; ring.
  - repeat match goal with |- context [Nat.eqb ?a ?b] => destruct (Nat.eqb_spec a b); try lia end. ring.
Qed.
Lemma face_some pos t : at_most (length pos) t -> let '(i, j, k) := t in
  face_ops pos t = Some (at_vertex i (area_normal pos t) ++ at_vertex j (area_normal pos t) ++ at_vertex k (area_normal pos t)).
Proof.
  destruct t as ((i, j), k). intros (I & J & K). unfold face_ops. 
  destruct (nth_error_lt_some pos i I) as (a & A), (nth_error_lt_some pos j J) as (b & B), (nth_error_lt_some pos k K) as (c & C). rewrite A, B, C.
  unfold area_normal. rewrite (nth_error_nth _ _ origin A), (nth_error_nth _ _ origin B), (nth_error_nth _ _ origin C). reflexivity.
Qed.
Lemma in_vertex k x i n : In (k, x) (at_vertex i n) -> exists d, (d < 3)%nat /\ k = (3 * i + d)%nat /\ x = comp d n.
Proof. intros [E|[E|[E|[]]]]; injection E as <- <-; [exists 0%nat|exists 1%nat|exists 2%nat]; repeat split; lia. Qed.
Lemma all_faces pos tris : (forall t, In t tris -> at_most (length pos) t) -> exists ops, all_ops (face_ops pos) tris = Some ops /\
  (forall n, (forall t, In t tris -> at_most n t) -> forall k x, In (k, x) ops -> (k < 3 * n)%nat) /\
  forall v d, (d < 3)%nat -> at_key (3 * v + d) ops = comp d (sum_at pos tris v).
Proof.
  induction tris as [|t r IH]; intros W.
  - exists []. cbn. repeat split; [intros n _ k x []|]. intros v d D. destruct d as [|[|d]]; reflexivity.
  - destruct IH as (ops & A & B & K); [intros u U; apply W; now right|]. pose proof (face_some pos t (W t (or_introl eq_refl))) as F. destruct t as ((i, j), k).
    cbn [all_ops]. rewrite F, A. eexists. split; [reflexivity|]. split.
    + intros n H q x I. destruct (H _ (or_introl eq_refl)) as (H1 & H2 & H3). rewrite !in_app_iff in I. destruct I as [[I|[I|I]]|I]; [| | |apply (B n) with (x := x); [intros u U; apply H; now right|exact I]];
        apply in_vertex in I; destruct I as (d & D & -> & _); lia.
    + intros v d D. rewrite !at_key_app, !at_vertex_key, K by exact D. cbn [sum_at fold_right corners]. fold (sum_at pos r v).
      destruct d as [|[|[|d]]]; [| | |lia]; cbn [comp plus times vx vy vz]; ring.
Qed.
Lemma len_zero n : len n = 0 <-> n = origin.
Proof.
  unfold len, dot. split; [|intros ->; cbn; replace (0 * 0 + 0 * 0 + 0 * 0) with 0 by ring; apply sqrt_0].
  intros H. apply sqrt_eq_0 in H; [|nra]. destruct n as [a b c]. cbn in H. unfold origin. f_equal; nra.
Qed.
Lemma normalize_spec scale n : (n = origin /\ normalize scale n = None) \/ directed n scale (normalize scale n).
Proof.
  unfold normalize. fold (dot n n). fold (len n). destruct (Req_EM_T (len n) 0) as [E|E]; [left; split; [apply len_zero, E|reflexivity]|right].
  split; [intros H; apply E, len_zero, H|]. eexists. split; [reflexivity|]. unfold times. f_equal; field; exact E.
Qed.
Lemma nth_repeat0 k n : nth k (repeat 0 n) 0 = 0.
Proof. revert k. induction n as [|n IH]; intros [|k]; cbn; auto. Qed.
(** the loop leaves the sums *)
Lemma loop_sums pos tris mem num r : (forall t, In t tris -> at_most (length pos) t /\ at_most num t) -> length mem = (3 * num)%nat ->
  (forall k, (k < 3 * num)%nat -> nth k mem 0 = 0) -> loop Rplus (face_ops pos) tris mem r ->
  exists mem', r = Some mem' /\ forall v, (v < num)%nat -> vertex mem' v = sum_at pos tris v.
Proof.
  intros W L Z. unfold loop. destruct (all_faces pos tris (fun t I => proj1 (W t I))) as (ops & A & B & K). rewrite A. intros (order & P & ->).
  destruct (apply_sum order mem) as (mem' & E & L' & N).
  - intros k x I. rewrite L. apply (B num (fun t I => proj2 (W t I)) k x). eapply Permutation_in; [exact P|exact I].
  - exists mem'. split; [exact E|]. intros v V. unfold vertex.
    assert (C : forall d, (d < 3)%nat -> nth (3 * v + d) mem' 0 = comp d (sum_at pos tris v)).
    { intros d D. rewrite N by lia. rewrite Z by lia. rewrite (at_key_perm _ _ _ P), K by exact D. ring. }
    rewrite (C 0%nat), (C 1%nat), (C 2%nat) by lia. destruct (sum_at pos tris v); reflexivity.
Qed.

(** stores of equal values *)
Lemma apply_store ops (val : nat -> R) : forall mem, (forall k x, In (k, x) ops -> (k < length mem)%nat /\ x = val k) ->
  exists mem', apply_ops store mem ops = Some mem' /\ length mem' = length mem /\
  forall k, (k < length mem)%nat -> ((exists x, In (k, x) ops) -> nth k mem' 0 = val k) /\ ((forall x, ~ In (k, x) ops) -> nth k mem' 0 = nth k mem 0).
Proof.
  induction ops as [|(j, x) ops IH]; intros mem H; cbn [apply_ops]; [exists mem; repeat split; [intros (x & [])]|].
  destruct (H j x (or_introl eq_refl)) as (J & X). destruct (nth_error_lt_some mem j J) as (o & O). rewrite O. unfold store at 1.
  destruct (upd_some mem j x J) as (m1 & U). rewrite U. pose proof (upd_length _ _ _ _ U) as L.
  destruct (IH m1) as (m2 & A & L2 & N); [intros k y I; rewrite L; apply (H k y); now right|]. exists m2. split; [exact A|]. split; [congruence|].
  intros k K. destruct (N k) as (N1 & N2); [lia|].
  assert (Q : nth k m1 0 = if Nat.eqb j k then x else nth k mem 0).
  { destruct (Nat.eqb_spec j k) as [->|D]; [exact (nth_error_nth _ _ 0 (upd_nth_eq _ _ _ _ U))|].
    assert (E' : nth_error m1 k = nth_error mem k) by (apply (upd_nth_neq _ _ _ k _ U); congruence).
    destruct (nth_error mem k) as [y|] eqn:Y; [|apply nth_error_None in Y; lia]. now rewrite (nth_error_nth _ _ 0 Y), (nth_error_nth _ _ 0 E'). }
  assert (De : (exists y, In (k, y) ops) \/ forall y, ~ In (k, y) ops).
  { clear. induction ops as [|(a, b) ops [(y & I)|I]]; [right; intros y []|left; exists y; now right|].
    destruct (Nat.eq_dec a k) as [->|D]; [left; exists b; now left|right; intros y [E|Y]; [congruence|exact (I y Y)]]. }
  split.
  - intros (y & Y). destruct De as [D|D]; [exact (N1 D)|]. rewrite (N2 D), Q. destruct Y as [Y|Y]; [|exfalso; exact (D y Y)]. injection Y as -> ->. rewrite Nat.eqb_refl. exact X.
  - intros D. rewrite N2 by (intros y Y; apply (D y); now right). rewrite Q. destruct (Nat.eqb_spec j k) as [->|]; [|reflexivity]. exfalso. apply (D x). now left.
Qed.
Lemma copies norms tris : (forall t, In t tris -> at_most (length norms) t) -> exists ops, all_ops (copy_ops norms) tris = Some ops /\
  forall k x, In (k, x) ops <-> exists t v d, In t tris /\ touches t v /\ (d < 3)%nat /\ k = (3 * v + d)%nat /\ x = comp d (nth v norms origin).
Proof.
  induction tris as [|t r IH]; intros W; [exists []; split; [reflexivity|]; intros k x; split; [intros []|intros (t & v & d & [] & _)]|].
  destruct IH as (ops & A & K); [intros u U; apply W; now right|]. pose proof (W t (or_introl eq_refl)) as Wt. destruct t as ((i, j), l). destruct Wt as (I & J & L).
  cbn [all_ops copy_ops]. destruct (nth_error_lt_some norms i I) as (a & Ea), (nth_error_lt_some norms j J) as (b & Eb), (nth_error_lt_some norms l L) as (c & Ec).
  rewrite Ea, Eb, Ec, A. eexists. split; [reflexivity|]. intros k x. rewrite !in_app_iff.
  assert (V : forall v n, nth_error norms v = Some n -> In (k, x) (at_vertex v n) <-> exists d, (d < 3)%nat /\ k = (3 * v + d)%nat /\ x = comp d (nth v norms origin)).
  { intros v n E. rewrite (nth_error_nth _ _ origin E). split; [apply in_vertex|]. intros (d & D & -> & ->). unfold at_vertex. destruct d as [|[|[|d]]]; [now left|right; now left|right; right; now left|lia]. }
  rewrite (V i a Ea), (V j b Eb), (V l c Ec), K. split.
  - intros [[(d & H)|[(d & H)|(d & H)]]|(t & v & d & T & H)]; [exists (i, j, l), i, d|exists (i, j, l), j, d|exists (i, j, l), l, d|exists t, v, d; split; [now right|exact H]];
      (split; [now left|split; [cbn; tauto|exact H]]).
  - intros (t & v & d & [<-|T] & H & R); [|right; exists t, v, d; tauto]. left. cbn in H. destruct H as [<-|[<-|<-]]; [left|right; left|right; right]; exists d; exact R.
Qed.
