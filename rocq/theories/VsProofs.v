(** C102: lemmas. *)
From Verif Require Import Prelude ItModel SrModel SrSpec SrProofs VsModel VsSpec.
Local Open Scope nat_scope.

Section P.
Context {T : Type} (m : monoid T) (D : T -> Prop) (op : T -> T -> T) (e : T).
Hypothesis L : lawful m D op e.
Notation total l := (fold_right op e l).
Lemma total_in l : Forall D l -> D (total l).
Proof. induction 1; cbn; [apply (lw_e _ _ _ _ L)|apply (lw_in _ _ _ _ L); assumption]. Qed.
Lemma mapi_in f : forall l i, (forall j x, D x -> D (f j x)) -> Forall D l -> Forall D (mapi f i l).
Proof. induction l as [|x l IH]; intros i F H; cbn; [constructor|]. inversion H; subst. constructor; [apply F; assumption|apply IH; assumption]. Qed.
(** nothing chosen *)
Lemma none f : forall l k, Forall D l -> (forall j, k <= j < k + length l -> f j = false) -> total (mapi (fun j x => if f j then x else e) k l) = e.
Proof.
  induction l as [|x l IH]; intros k H F; cbn [mapi fold_right length] in *; [reflexivity|]. inversion H; subst. rewrite F by lia. rewrite IH; [|assumption|intros; apply F; lia]. apply (lw_left _ _ _ _ L), (lw_e _ _ _ _ L).
Qed.
Lemma every f : forall l k, (forall j, k <= j < k + length l -> f j = true) -> mapi (fun j x => if f j then x else e) k l = l.
Proof. induction l as [|x l IH]; intros k F; cbn [mapi length] in *; [reflexivity|]. rewrite F by lia. rewrite IH; [reflexivity|intros; apply F; lia]. Qed.
(** the first n chosen *)
Lemma prefix f n : forall l k, Forall D l -> (forall j, k <= j < k + length l -> f j = Nat.ltb j (k + n)) -> total (mapi (fun j x => if f j then x else e) k l) = total (firstn n l).
Proof.
  revert n. intros n l. revert n. induction l as [|x l IH]; intros n k H F; [now rewrite firstn_nil|]. destruct n as [|n].
  - apply none; [exact H|]. intros j J. rewrite F by exact J. apply Nat.ltb_ge. lia.
  - cbn [mapi fold_right firstn length] in *. inversion H; subst. rewrite F by lia. destruct (Nat.ltb_spec k (k + S n)); [|lia]. f_equal. apply IH; [assumption|].
    intros j J. rewrite F by lia. f_equal. lia.
Qed.
(** all but the first n chosen *)
Lemma suffix f n : forall l k, Forall D l -> (forall j, k <= j < k + length l -> f j = Nat.leb (k + n) j) -> total (mapi (fun j x => if f j then x else e) k l) = total (skipn n l).
Proof.
  intros l. revert n. induction l as [|x l IH]; intros n k H F; [now rewrite skipn_nil|]. destruct n as [|n].
  - rewrite every; [reflexivity|]. intros j J. rewrite F by exact J. apply Nat.leb_le. lia.
  - cbn [mapi fold_right skipn length] in *. inversion H; subst. rewrite F by lia. destruct (Nat.leb_spec (k + S n) k); [lia|].
    rewrite (IH n (S k)); [|assumption|intros j J; rewrite F by lia; f_equal; lia]. apply (lw_left _ _ _ _ L), total_in. rewrite <- (firstn_skipn n l) in H3. apply Forall_app in H3. tauto.
Qed.
Lemma get_sum_ok ns cate i : ns <> [] -> Forall D ns -> get_sum m ns cate i = Some (total (part cate i ns)).
Proof.
  intros N H. unfold get_sum. rewrite (lw_ident _ _ _ _ L). rewrite (lw_call _ _ _ _ L).
  - f_equal. destruct cate as [|[|[|c]]]; cbn [part chosen].
    + apply (prefix (fun j => Nat.ltb j i) i); [exact H|reflexivity].
    + apply (prefix (fun j => Nat.leb j i) (S i)); [exact H|]. intros j _. destruct (Nat.leb_spec j i), (Nat.ltb_spec j (0 + S i)); try reflexivity; lia.
    + apply (suffix (fun j => Nat.ltb i j) (S i)); [exact H|]. reflexivity.
    + apply (suffix (fun j => Nat.leb i j) i); [exact H|]. reflexivity.
  - destruct ns; [contradiction|discriminate].
  - apply mapi_in; [|exact H]. intros j x X. destruct (chosen cate i j); [exact X|apply (lw_e _ _ _ _ L)].
Qed.
Lemma get_sums_ok ns cate is : ns <> [] -> Forall D ns -> get_sums m ns cate is = Some (map (fun i => total (part cate i ns)) is).
Proof. intros N H. induction is as [|i is IH]; cbn [get_sums map]; [reflexivity|]. rewrite (get_sum_ok ns cate i N H), IH. reflexivity. Qed.
Lemma total_app a b : Forall D a -> Forall D b -> total (a ++ b) = op (total a) (total b).
Proof.
  intros A B. induction A as [|x a X A IH]; cbn; [symmetry; apply (lw_left _ _ _ _ L), total_in, B|]. rewrite IH. apply (lw_assoc _ _ _ _ L); [exact X|apply total_in, A|apply total_in, B].
Qed.
End P.

Lemma shuffle_nth {T} (ns : list T) is r : shuffle ns is = Some r -> length r = length is /\ forall k i, nth_error is k = Some i -> nth_error r k = nth_error ns i.
Proof.
  revert r. induction is as [|i is IH]; intros r H; cbn [shuffle] in H; [injection H as <-; split; [reflexivity|intros [|k]; discriminate]|].
  destruct (nth_error ns i) as [x|] eqn:X; [|discriminate]. destruct (shuffle ns is) as [s|]; [|discriminate]. injection H as <-. destruct (IH s eq_refl) as (E & N).
  split; [cbn; congruence|]. intros [|k] j K; [injection K as <-; now rewrite X|apply N, K].
Qed.
Lemma shuffle_some {T} (ns : list T) is : (forall i, In i is -> i < length ns) <-> exists r, shuffle ns is = Some r.
Proof.
  induction is as [|i is IH]; cbn [shuffle]; [split; [eauto|intros _ i []]|]. split.
  - intros H. destruct (nth_error_lt_some ns i (H i (or_introl eq_refl))) as (x & X). rewrite X. destruct (proj1 IH) as (r & R); [intros j J; apply H; now right|]. rewrite R. eauto.
  - intros (r & R). destruct (nth_error ns i) as [x|] eqn:X; [|discriminate]. destruct (shuffle ns is) as [s|]; [|discriminate]. intros j [<-|J]; [apply nth_error_some_lt in X; exact X|]. apply (proj2 IH); eauto.
Qed.
