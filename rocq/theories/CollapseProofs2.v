(** Collapse with empty inner extents: they behave like extent 1. *)
From Verif Require Import Prelude CollapseModel CollapseSpec CollapseProofs.
From Coq Require Import Sorted.
Local Open Scope Z_scope.

Lemma sinc_clamp ms : forall xs, Forall (fun x => 0 <= x) xs -> sinc ms xs = sinc (map (Z.max 1) ms) xs.
Proof.
  induction ms as [|m ms IH]; intros [|x xs] H; cbn; auto. inversion H; subst. rewrite <- IH by auto.
  destruct (sinc ms xs) as [[|] r]; auto. assert (E : (x + 1 >=? m) = (x + 1 >=? Z.max 1 m)) by lia. rewrite E. reflexivity.
Qed.
Lemma sinc_nonneg ms : forall xs, Forall (fun x => 0 <= x) xs -> length ms = length xs ->
  Forall (fun x => 0 <= x) (snd (sinc ms xs)) /\ length (snd (sinc ms xs)) = length xs.
Proof.
  induction ms as [|m ms IH]; intros [|x xs] H L; try discriminate; cbn; auto. inversion H; subst.
  destruct (IH xs H3 ltac:(cbn in L; lia)) as (A & B). destruct (sinc ms xs) as [[|] r]; cbn in *; [destruct (x + 1 >=? m); cbn|]; split; try (constructor; auto; lia); lia.
Qed.
Lemma visits_clamp n0 ms fuel : forall it, length it = S (length ms) -> Forall (fun x => 0 <= x) it ->
  visits fuel (n0 :: ms) it = visits fuel (n0 :: map (Z.max 1) ms) it.
Proof.
  induction fuel as [|f IH]; intros [|x xs] L H; try discriminate; auto.
  cbn [visits]. assert (E : col_end (n0 :: map (Z.max 1) ms) = col_end (n0 :: ms)) by (cbn; rewrite map_map; reflexivity). rewrite E.
  destruct (col_eqb (x :: xs) (col_end (n0 :: ms))); auto. inversion H; subst. cbn in L.
  rewrite !increment_stop by (rewrite ?map_length; lia). cbn [stop]. rewrite <- sinc_clamp by auto.
  destruct (sinc_nonneg ms xs H3 ltac:(lia)) as (A & B). destruct (sinc ms xs) as [[|] r]; cbn in A, B; (rewrite IH; [reflexivity|cbn; lia|constructor; auto; lia]).
Qed.
(** the tuples visited for non-negative extents: an empty inner extent counts as one *)
Definition clamp (ns : list Z) : list Z := match ns with [] => [] | n0 :: ms => n0 :: map (Z.max 1) ms end.
Lemma collapse_nonneg ns : ns <> [] -> Forall (fun n => 0 <= n) ns ->
  exists l N, (forall fuel, (N <= fuel)%nat -> visits fuel ns (col_begin ns) = Some l) /\
    (forall t, In t l <-> in_box (clamp ns) t) /\ StronglySorted lexlt l.
Proof.
  intros Hn H. destruct ns as [|n0 ms]; [contradiction|]. inversion H; subst.
  destruct (collapse_ok (n0 :: map (Z.max 1) ms) n0 (map (Z.max 1) ms) eq_refl H2) as (l & N & A & B & C).
  { apply Forall_map. eapply Forall_impl; [|exact H3]. cbn. intros; lia. }
  exists l, N. split; [|split; auto]. intros fuel F. rewrite visits_clamp. rewrite <- (A fuel F). cbn. rewrite map_map. reflexivity.
  cbn. rewrite map_length. reflexivity. cbn. constructor. lia. apply Forall_map. apply Forall_forall. intros; lia.
Qed.
