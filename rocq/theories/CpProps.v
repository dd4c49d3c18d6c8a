(** * C114: copyable_ptr owns its object alone and copies by value *)
From Coq Require Import Arith List Lia Bool.
From Verif Require Import CpModel CpSpec CpProofs.
Import ListNotations.

(** After any sequence of uses, each object not yet deleted has exactly one owner, and no variable points to a deleted object. *)
Theorem C114_ownership {V} (l : list (@op V)) s :
  run init l = Good s ->
  (forall i a, owns s i a -> live s a) /\ (forall a, live s a -> exists i, owns s i a /\ forall j, owns s j a -> j = i).
Proof.
  intros R. destruct (run_inv l _ _ inv_init R) as (A & B & C). split; auto.
  intros a L. destruct (C a L) as (i & O). exists i. split; auto. intros j P. eapply A; eauto.
Qed.

(** Each further use does to what the user sees just what it does in the semantics where variables hold values and share nothing,
    and goes wrong only where that semantics calls the use illegal: so no double delete and no use of a deleted object. *)
Theorem C114_values {V} (l : list (@op V)) s o :
  run init l = Good s ->
  match step s o, ideal (look s) o with
  | Good s', Some w => forall k, look s' k = w k
  | Bad, None => True
  | _, _ => False
  end.
Proof.
  intros R. pose proof (step_agree s o (run_inv l _ _ inv_init R)) as A. unfold agree in A.
  destruct (step s o), (ideal (look s) o); tauto.
Qed.

(** A copy equals the original, and then changes to either are not seen through the other. *)
Theorem C114_copy {V} (l : list (@op V)) s i j v :
  run init l = Good s -> look s j = Holds v -> look s i = Absent ->
  exists s', step s (CopyCtor i j) = Good s' /\ look s' i = Holds v /\ look s' j = Holds v /\
    forall u, (exists s1, step s' (Write i u) = Good s1 /\ look s1 i = Holds u /\ look s1 j = Holds v) /\
              (exists s2, step s' (Write j u) = Good s2 /\ look s2 j = Holds u /\ look s2 i = Holds v).
Proof.
  intros R Hj Hi. assert (N : i <> j) by congruence.
  pose proof (step_agree s (CopyCtor i j) (run_inv l _ _ inv_init R)) as A. cbn [ideal] in A. rewrite Hj, Hi in A. cbn [absent] in A.
  destruct (step s (CopyCtor i j)) as [s'|] eqn:E; cbn in A; [|contradiction]. destruct A as (J & L). exists s'.
  assert (Li : look s' i = Holds v) by (rewrite L; unfold upd; destruct (Nat.eq_dec i i); congruence).
  assert (Lj : look s' j = Holds v) by (rewrite L; unfold upd; destruct (Nat.eq_dec j i); congruence).
  repeat split; auto.
  - pose proof (step_agree s' (Write i u) J) as A. cbn [ideal] in A. rewrite Li in A.
    destruct (step s' (Write i u)) as [s1|]; cbn in A; [|contradiction]. destruct A as (_ & M). exists s1.
    rewrite !M. unfold upd. destruct (Nat.eq_dec i i), (Nat.eq_dec j i); try congruence; auto.
  - pose proof (step_agree s' (Write j u) J) as A. cbn [ideal] in A. rewrite Lj in A.
    destruct (step s' (Write j u)) as [s1|]; cbn in A; [|contradiction]. destruct A as (_ & M). exists s1.
    rewrite !M. unfold upd. destruct (Nat.eq_dec j j), (Nat.eq_dec i j); try congruence; auto.
Qed.

(** Once every variable is gone or empty, every object has been deleted. *)
Theorem C114_no_leak {V} (l : list (@op V)) s :
  run init l = Good s -> (forall i, look s i = Absent \/ look s i = Nothing) -> forall a, ~ live s a.
Proof.
  intros R H a L. destruct (run_inv l _ _ inv_init R) as (A & B & C). destruct (C a L) as (i & O).
  destruct L as (v & E). specialize (H i). unfold look in H. unfold owns in O. rewrite O, E in H. destruct H; discriminate.
Qed.

(** Not so for an empty pointer: copying one, like assigning from one, dereferences null, though moving one is fine. *)
Theorem C114_empty_refuted {V} (l : list (@op V)) s i j k :
  run init l = Good s -> look s j = Nothing -> look s i = Absent -> look s k = Nothing ->
  step s (CopyCtor i j) = Bad /\ step s (CopyAssign k j) = Bad /\ exists s', step s (MoveCtor i j) = Good s' /\ look s' i = Nothing.
Proof.
  intros R Hj Hi Hk. assert (N : i <> j) by congruence. pose proof (run_inv l _ _ inv_init R) as J. repeat split.
  - pose proof (step_agree s (CopyCtor i j) J) as A. cbn [ideal] in A. rewrite Hj in A. destruct (step s _); [contradiction|auto].
  - pose proof (step_agree s (CopyAssign k j) J) as A. cbn [ideal] in A. rewrite Hj in A. destruct (step s _); [contradiction|auto].
  - pose proof (step_agree s (MoveCtor i j) J) as A. cbn [ideal] in A. rewrite Hj, Hi in A. cbn [absent present andb] in A.
    destruct (step s _) as [s'|]; [|contradiction]. destruct A as (_ & M). exists s'. split; auto. rewrite M. unfold upd.
    destruct (Nat.eq_dec i i); congruence.
Qed.

(** Two pointers, a copy, a write, assignments from itself, a move, and the end of all of them. *)
Example C114_ex :
  let l := [New 0 7; CopyCtor 1 0; Write 1 8; CopyAssign 0 0; MoveAssign 1 1; Empty 2; MoveAssign 2 0] in
  match run init l with
  | Good s => look s 0 = Nothing /\ look s 1 = Holds 8 /\ look s 2 = Holds 7 /\ look s 3 = Absent /\
      heap s = [None; Some 8; Some 7] /\
      step s (CopyCtor 3 0) = Bad /\
      match run s [Destroy 2; Destroy 1; Destroy 0] with Good s' => heap s' = [None; None; None] | Bad => False end
  | Bad => False
  end.
Proof. cbn. repeat split. Qed.

Print Assumptions C114_ownership.
Print Assumptions C114_values.
Print Assumptions C114_copy.
Print Assumptions C114_no_leak.
Print Assumptions C114_empty_refuted.
