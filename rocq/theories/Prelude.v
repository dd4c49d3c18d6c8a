(** Shared arithmetic set-up and list-update helpers.  No code of zpc is modelled here. *)
From Coq Require Export List ZArith NArith Lia Bool Arith Permutation.
From Coq Require Export ZifyBool ZifyNat ZifyN.
Export ListNotations.
(* plain [lia] does not expand div/mod; [dmlia] does *)
Ltac Zify.zify_convert_to_euclidean_division_equations_flag ::= constr:(false).
Ltac dmlia := zify; Z.to_euclidean_division_equations; lia.

(** [upd l i x]: array store; out-of-range stores are reported as [None] (undefined behaviour in C++). *)
Fixpoint upd {A} (l : list A) (i : nat) (x : A) : option (list A) :=
  match l, i with
  | [], _ => None
  | _ :: t, O => Some (x :: t)
  | h :: t, S i' => option_map (cons h) (upd t i' x)
  end.

Lemma upd_some {A} (l : list A) i x : i < length l -> exists l', upd l i x = Some l'.
Proof.
  revert i; induction l as [|h t IH]; intros i H; simpl in *; [lia|].
  destruct i; [eauto|]. destruct (IH i) as [l' E]; [lia|]. rewrite E. simpl. eauto.
Qed.

Lemma upd_none {A} (l : list A) i x : length l <= i -> upd l i x = None.
Proof.
  revert i; induction l as [|h t IH]; intros i H; simpl in *; [reflexivity|].
  destruct i; [lia|]. rewrite IH by lia. reflexivity.
Qed.

Lemma upd_length {A} (l l' : list A) i x : upd l i x = Some l' -> length l' = length l.
Proof.
  revert i l'; induction l as [|h t IH]; intros i l' H; simpl in *; [discriminate|].
  destruct i; [injection H as <-; reflexivity|].
  destruct (upd t i x) eqn:E; simpl in H; [|discriminate]. injection H as <-. simpl. f_equal. eauto.
Qed.

Lemma upd_range {A} (l l' : list A) i x : upd l i x = Some l' -> i < length l.
Proof.
  intros H. destruct (Nat.lt_ge_cases i (length l)) as [|G]; [assumption|].
  rewrite upd_none in H by assumption. discriminate.
Qed.

Lemma upd_nth_eq {A} (l l' : list A) i x : upd l i x = Some l' -> nth_error l' i = Some x.
Proof.
  revert i l'; induction l as [|h t IH]; intros i l' H; simpl in *; [discriminate|].
  destruct i; [injection H as <-; reflexivity|].
  destruct (upd t i x) eqn:E; simpl in H; [|discriminate]. injection H as <-. simpl. eauto.
Qed.

Lemma upd_nth_neq {A} (l l' : list A) i j x :
  upd l i x = Some l' -> i <> j -> nth_error l' j = nth_error l j.
Proof.
  revert i j l'; induction l as [|h t IH]; intros i j l' H N; simpl in *; [discriminate|].
  destruct i; [injection H as <-; destruct j; [lia|reflexivity]|].
  destruct (upd t i x) eqn:E; simpl in H; [|discriminate]. injection H as <-.
  destruct j; [reflexivity|]. simpl. eapply IH; eauto.
Qed.

Lemma nth_error_ext {A} (l l' : list A) :
  (forall i, nth_error l i = nth_error l' i) -> l = l'.
Proof.
  revert l'; induction l as [|h t IH]; intros [|h' t'] H.
  - reflexivity.
  - specialize (H 0). discriminate.
  - specialize (H 0). discriminate.
  - pose proof (H 0) as H0. simpl in H0. injection H0 as ->. f_equal. apply IH.
    intro i. exact (H (S i)).
Qed.

Lemma nth_error_some_lt {A} (l : list A) i x : nth_error l i = Some x -> i < length l.
Proof. intro H. apply nth_error_Some. rewrite H. discriminate. Qed.

Lemma nth_error_lt_some {A} (l : list A) i : i < length l -> exists x, nth_error l i = Some x.
Proof.
  intro H. destruct (nth_error l i) eqn:E; [eauto|]. apply nth_error_None in E. lia.
Qed.

Lemma length_tl {A} (l : list A) : length (tl l) = length l - 1.
Proof. destruct l; simpl; lia. Qed.

Lemma skipn_skipn' {A} (a b : nat) (l : list A) : skipn a (skipn b l) = skipn (a + b) l.
Proof.
  revert l; induction b as [|b IH]; intro l.
  - rewrite Nat.add_0_r. reflexivity.
  - rewrite Nat.add_succ_r. destruct l; [rewrite !skipn_nil; reflexivity|]. exact (IH l).
Qed.
