(** A small verified symbolic evaluator for word programs that are linear over GF(2): every result bit is the
    exclusive-or of a set of input bits.  Proof tool only; no code of /repo is modelled here. *)
From Verif Require Import Prelude.
Local Open Scope N_scope.

Inductive bx :=
| BX : bx                                   (* the input word *)
| BAnd (e : bx) (c : N)
| BOr (a b : bx)
| BXor (a b : bx)
| BShl (e : bx) (k : nat)                   (* truncated to the width *)
| BShr (e : bx) (k : nat)
| BMul (e : bx) (k : nat).                  (* e * (1 + 2^k), truncated *)

Fixpoint den (w : N) (e : bx) (x : N) : N :=
  match e with
  | BX => x
  | BAnd e c => N.land (den w e x) c
  | BOr a b => N.lor (den w a x) (den w b x)
  | BXor a b => N.lxor (den w a x) (den w b x)
  | BShl e k => N.shiftl (den w e x) (N.of_nat k) mod 2 ^ w
  | BShr e k => N.shiftr (den w e x) (N.of_nat k)
  | BMul e k => (den w e x * (1 + 2 ^ N.of_nat k)) mod 2 ^ w
  end.

(** symbolic word: for every bit, the list of input bits it is the xor of *)
Definition sw := list (list nat).

Fixpoint toggle (j : nat) (l : list nat) : list nat :=
  match l with
  | [] => [j]
  | k :: l' => if (j =? k)%nat then l' else if (j <? k)%nat then j :: l else k :: toggle j l'
  end.
Definition sx (a b : list nat) : list nat := fold_right toggle b a.
Fixpoint zip {A} (f : A -> A -> A) (d : A) (a b : list A) : list A :=
  match a, b with
  | [], _ => map (f d) b
  | x :: a', [] => f x d :: zip f d a' []
  | x :: a', y :: b' => f x y :: zip f d a' b'
  end.
Fixpoint smask (i : nat) (c : N) (s : sw) : sw :=
  match s with [] => [] | l :: s' => (if N.testbit c (N.of_nat i) then l else []) :: smask (S i) c s' end.
Fixpoint disjoint (a b : sw) : bool :=
  match a, b with
  | x :: a', y :: b' => (match x, y with [], _ => true | _, [] => true | _, _ => false end) && disjoint a' b'
  | _, _ => true
  end.
Definition sshl (w k : nat) (s : sw) : sw := firstn w (repeat [] k ++ s).

Fixpoint sym (w : nat) (win : nat) (e : bx) : option sw :=
  match e with
  | BX => Some (map (fun i => [i]) (seq 0 win))
  | BAnd e c => match sym w win e with Some s => Some (smask 0 c s) | None => None end
  | BOr a b => match sym w win a, sym w win b with
               | Some s, Some t => if disjoint s t then Some (zip sx [] s t) else None | _, _ => None end
  | BXor a b => match sym w win a, sym w win b with Some s, Some t => Some (zip sx [] s t) | _, _ => None end
  | BShl e k => match sym w win e with Some s => Some (sshl w k s) | None => None end
  | BShr e k => match sym w win e with Some s => Some (skipn k s) | None => None end
  | BMul e k => match sym w win e with
                | Some s => if disjoint (firstn w s) (sshl w k s) then Some (zip sx [] (firstn w s) (sshl w k s)) else None
                | None => None end
  end.

Definition sbit (x : N) (l : list nat) : bool := fold_right (fun j b => xorb (N.testbit x (N.of_nat j)) b) false l.
Definition sem (s : sw) (x y : N) : Prop := forall i, N.testbit y (N.of_nat i) = sbit x (nth i s []).

Lemma bits_ext x y : (forall i : nat, N.testbit x (N.of_nat i) = N.testbit y (N.of_nat i)) -> x = y.
Proof. intro H. apply N.bits_inj. intro n. rewrite <- (N2Nat.id n). apply H. Qed.

Lemma sbit_cons x j l : sbit x (j :: l) = xorb (N.testbit x (N.of_nat j)) (sbit x l).
Proof. reflexivity. Qed.
Lemma sbit_toggle x j l : sbit x (toggle j l) = xorb (N.testbit x (N.of_nat j)) (sbit x l).
Proof.
  induction l as [|k l IH]; cbn [toggle]; [reflexivity|].
  destruct (Nat.eqb_spec j k) as [->|Ne].
  - rewrite sbit_cons, <- xorb_assoc, xorb_nilpotent, xorb_false_l. reflexivity.
  - destruct (j <? k)%nat; rewrite !sbit_cons; [reflexivity|]. rewrite IH. rewrite <- !xorb_assoc. f_equal. apply xorb_comm.
Qed.
Lemma sbit_sx x a b : sbit x (sx a b) = xorb (sbit x a) (sbit x b).
Proof.
  induction a as [|j a IH]; [symmetry; apply xorb_false_l|].
  change (sx (j :: a) b) with (toggle j (sx a b)). rewrite sbit_toggle, IH, sbit_cons, xorb_assoc. reflexivity.
Qed.

Lemma nth_zip {A} (f : A -> A -> A) d a : forall b i, f d d = d -> nth i (zip f d a b) d = f (nth i a d) (nth i b d).
Proof.
  induction a as [|x a IH]; intros b i Hd; cbn.
  - revert i. induction b as [|y b IHb]; intros [|i]; cbn [map nth]; auto; try (rewrite Hd; reflexivity).
    rewrite IHb. destruct i; reflexivity.
  - destruct b as [|y b]; destruct i as [|i]; cbn; auto.
    rewrite IH by exact Hd. destruct i; reflexivity.
Qed.

Lemma nth_smask c s : forall i k, nth k (smask i c s) [] = if N.testbit c (N.of_nat (i + k)) then nth k s [] else [].
Proof.
  induction s as [|l s IH]; intros i k; cbn [smask].
  - destruct k; cbn [nth]; destruct (N.testbit _ _); reflexivity.
  - destruct k as [|k]; cbn [nth].
    + rewrite Nat.add_0_r. reflexivity.
    + rewrite IH. replace (S i + k)%nat with (i + S k)%nat by lia. reflexivity.
Qed.

Lemma sem_and s x y c : sem s x y -> sem (smask 0 c s) x (N.land y c).
Proof.
  intros H i. rewrite N.land_spec, H, nth_smask. cbn [Nat.add].
  destruct (N.testbit c (N.of_nat i)); [apply andb_true_r|apply andb_false_r].
Qed.
Lemma sem_xor s t x y z : sem s x y -> sem t x z -> sem (zip sx [] s t) x (N.lxor y z).
Proof. intros H1 H2 i. rewrite N.lxor_spec, H1, H2, nth_zip by reflexivity. rewrite sbit_sx. reflexivity. Qed.

Lemma disjoint_spec a : forall b i, disjoint a b = true -> nth i a [] = [] \/ nth i b [] = [].
Proof.
  induction a as [|x a IH]; intros b i H; [left; destruct i; reflexivity|].
  destruct b as [|y b]; [right; destruct i; reflexivity|].
  cbn in H. apply andb_true_iff in H. destruct H as [H1 H2]. destruct i as [|i]; cbn [nth].
  - destruct x; [left; reflexivity|]. destruct y; [right; reflexivity|discriminate].
  - apply IH. exact H2.
Qed.
Lemma sem_disjoint s t x y z : disjoint s t = true -> sem s x y -> sem t x z -> N.land y z = 0.
Proof.
  intros D H1 H2. apply bits_ext. intro i. rewrite N.land_spec, H1, H2, N.bits_0.
  destruct (disjoint_spec s t i D) as [E|E]; rewrite E; cbn; [reflexivity|apply andb_false_r].
Qed.
Lemma sem_or s t x y z : disjoint s t = true -> sem s x y -> sem t x z -> sem (zip sx [] s t) x (N.lor y z).
Proof.
  intros D H1 H2. rewrite <- N.lxor_lor by (eapply sem_disjoint; eauto). apply sem_xor; auto.
Qed.
Lemma nth_repeat_nil (A : Type) (k i : nat) : nth i (repeat (@nil A) k) [] = [].
Proof. revert i; induction k; intros [|i]; cbn; auto. Qed.
Lemma nth_firstn_lt {A} (d : A) : forall w (l : list A) i, (i < w)%nat -> nth i (firstn w l) d = nth i l d.
Proof. induction w; intros l i H; [lia|]. destruct l, i; cbn; auto. apply IHw. lia. Qed.
Lemma nth_firstn_ge {A} (d : A) : forall w (l : list A) i, (w <= i)%nat -> nth i (firstn w l) d = d.
Proof. intros. apply nth_overflow. rewrite firstn_length. lia. Qed.
Lemma nth_skipn' {A} (d : A) : forall k (l : list A) i, nth i (skipn k l) d = nth (k + i) l d.
Proof. induction k; intros l i; [reflexivity|]. destruct l; cbn; [destruct i; reflexivity|]. apply IHk. Qed.

Lemma sem_shl w k s x y : sem s x y -> sem (sshl w k s) x (N.shiftl y (N.of_nat k) mod 2 ^ N.of_nat w).
Proof.
  intros H i. unfold sshl. destruct (Nat.lt_ge_cases i w) as [L|L].
  - rewrite N.mod_pow2_bits_low by lia. rewrite nth_firstn_lt by exact L.
    destruct (Nat.lt_ge_cases i k) as [Lk|Lk].
    + rewrite N.shiftl_spec_low by lia. rewrite app_nth1 by (rewrite repeat_length; exact Lk).
      rewrite nth_repeat_nil. reflexivity.
    + rewrite N.shiftl_spec_high' by lia. rewrite app_nth2 by (rewrite repeat_length; lia).
      rewrite repeat_length. replace (N.of_nat i - N.of_nat k) with (N.of_nat (i - k)) by lia. apply H.
  - rewrite N.mod_pow2_bits_high by lia. rewrite nth_firstn_ge by exact L. reflexivity.
Qed.
Lemma sem_shr k s x y : sem s x y -> sem (skipn k s) x (N.shiftr y (N.of_nat k)).
Proof.
  intros H i. rewrite N.shiftr_spec by lia. rewrite nth_skipn'.
  replace (N.of_nat i + N.of_nat k) with (N.of_nat (k + i)) by lia. apply H.
Qed.
Lemma sem_trunc w s x y : sem s x y -> sem (firstn w s) x (y mod 2 ^ N.of_nat w).
Proof.
  intros H i. destruct (Nat.lt_ge_cases i w) as [L|L].
  - rewrite N.mod_pow2_bits_low by lia. rewrite nth_firstn_lt by exact L. apply H.
  - rewrite N.mod_pow2_bits_high by lia. rewrite nth_firstn_ge by exact L. reflexivity.
Qed.
Lemma sem_mul w k s x y : disjoint (firstn w s) (sshl w k s) = true -> sem s x y ->
  sem (zip sx [] (firstn w s) (sshl w k s)) x ((y * (1 + 2 ^ N.of_nat k)) mod 2 ^ N.of_nat w).
Proof.
  intros D H.
  pose proof (sem_trunc w s x y H) as H1. pose proof (sem_shl w k s x y H) as H2.
  replace ((y * (1 + 2 ^ N.of_nat k)) mod 2 ^ N.of_nat w)
    with (N.lxor (y mod 2 ^ N.of_nat w) (N.shiftl y (N.of_nat k) mod 2 ^ N.of_nat w)).
  - apply sem_xor; auto.
  - pose proof (sem_disjoint _ _ _ _ _ D H1 H2) as E.
    assert (Hw : 2 ^ N.of_nat w <> 0) by (apply N.pow_nonzero; lia).
    replace (y * (1 + 2 ^ N.of_nat k)) with (y + N.shiftl y (N.of_nat k)) by (rewrite N.shiftl_mul_pow2; lia).
    rewrite N.add_mod by exact Hw. rewrite <- (N.add_nocarry_lxor _ _ E).
    symmetry. apply N.mod_small. rewrite (N.add_nocarry_lxor _ _ E).
    set (a := y mod _) in *. set (b := N.shiftl _ _ mod _) in *.
    assert (Ha : a < 2 ^ N.of_nat w) by (apply N.mod_lt; exact Hw).
    assert (Hb : b < 2 ^ N.of_nat w) by (apply N.mod_lt; exact Hw).
    destruct (N.eq_dec (N.lxor a b) 0) as [->|Nz]; [lia|].
    apply N.log2_lt_pow2; [lia|].
    destruct (Nat.eq_dec w 0) as [Ew|Ew].
    { exfalso. subst w. cbn in Ha, Hb. assert (a = 0) as Za by lia. assert (b = 0) as Zb by lia.
      rewrite Za, Zb in Nz. apply Nz. reflexivity. }
    pose proof (N.log2_lxor a b).
    assert (N.log2 a < N.of_nat w) by (destruct (N.eq_dec a 0) as [->|]; [cbn; lia|apply N.log2_lt_pow2; lia]).
    assert (N.log2 b < N.of_nat w) by (destruct (N.eq_dec b 0) as [->|]; [cbn; lia|apply N.log2_lt_pow2; lia]).
    lia.
Qed.

Lemma testbit_small x n (i : N) : x < 2 ^ n -> n <= i -> N.testbit x i = false.
Proof.
  intros H L. destruct (N.eq_dec x 0) as [->|Nz]; [apply N.bits_0|].
  apply N.bits_above_log2. apply N.log2_lt_pow2 in H; lia.
Qed.

Lemma sem_var win x : x < 2 ^ N.of_nat win -> sem (map (fun i => [i]) (seq 0 win)) x x.
Proof.
  intros H i. destruct (Nat.lt_ge_cases i win) as [L|L].
  - rewrite (nth_indep _ [] [0%nat]) by (rewrite map_length, seq_length; exact L).
    rewrite (map_nth (fun i => [i])). rewrite seq_nth by exact L. cbn. rewrite xorb_false_r. reflexivity.
  - rewrite nth_overflow by (rewrite map_length, seq_length; exact L). cbn.
    apply (testbit_small x (N.of_nat win)); [exact H|lia].
Qed.

Theorem sym_sound w win e : forall s x, x < 2 ^ N.of_nat win -> sym w win e = Some s -> sem s x (den (N.of_nat w) e x).
Proof.
  induction e as [|e IH c|a IHa b IHb|a IHa b IHb|e IH k|e IH k|e IH k]; intros s x Hx H; cbn [sym den] in *.
  - injection H as <-. apply sem_var. exact Hx.
  - destruct (sym w win e); [|discriminate]. injection H as <-. apply sem_and. auto.
  - destruct (sym w win a); [|discriminate]. destruct (sym w win b); [|discriminate].
    destruct (disjoint _ _) eqn:D; [|discriminate]. injection H as <-. apply sem_or; auto.
  - destruct (sym w win a); [|discriminate]. destruct (sym w win b); [|discriminate].
    injection H as <-. apply sem_xor; auto.
  - destruct (sym w win e); [|discriminate]. injection H as <-. apply sem_shl. auto.
  - destruct (sym w win e); [|discriminate]. injection H as <-. apply sem_shr. auto.
  - destruct (sym w win e); [|discriminate]. destruct (disjoint _ _) eqn:D; [|discriminate].
    injection H as <-. apply sem_mul; auto.
Qed.

(** identity program *)
Definition is_id (win : nat) (s : sw) : bool :=
  forallb (fun i => match nth i s [] with [j] => (i =? j)%nat | _ => false end) (seq 0 win)
  && forallb (fun l => match l with [] => true | _ => false end) (skipn win s).

Theorem sym_id w win e s x : x < 2 ^ N.of_nat win -> sym w win e = Some s -> is_id win s = true ->
  den (N.of_nat w) e x = x.
Proof.
  intros Hx Hs Hid. pose proof (sym_sound w win e s x Hx Hs) as S.
  apply andb_true_iff in Hid. destruct Hid as [H1 H2]. rewrite forallb_forall in H1, H2.
  apply bits_ext. intro i. rewrite (S i). destruct (Nat.lt_ge_cases i win) as [L|L].
  - specialize (H1 i ltac:(apply in_seq; lia)). destruct (nth i s []) as [|j [|? ?]]; try discriminate.
    apply Nat.eqb_eq in H1. subst j. cbn. apply xorb_false_r.
  - rewrite (testbit_small x (N.of_nat win)) by (assumption || lia).
    destruct (Nat.lt_ge_cases i (length s)) as [L2|L2]; [|rewrite nth_overflow by exact L2; reflexivity].
    specialize (H2 (nth i s [])). destruct (nth i s []) eqn:E; [reflexivity|].
    assert (In (n :: l) (skipn win s)).
    { rewrite <- E. replace i with (win + (i - win))%nat by lia. rewrite <- nth_skipn'. apply nth_In.
      rewrite skipn_length. lia. }
    apply H2 in H. discriminate.
Qed.

(** program whose bit i is input bit [f i] (or zero) *)
Definition is_perm (f : nat -> option nat) (s : sw) : bool :=
  forallb (fun i => match nth i s [], f i with [j], Some k => (j =? k)%nat | [], None => true | _, _ => false end)
    (seq 0 (length s)).
Theorem sym_perm w win e s x f : x < 2 ^ N.of_nat win -> sym w win e = Some s -> is_perm f s = true ->
  forall i, N.testbit (den (N.of_nat w) e x) (N.of_nat i) =
    if (i <? length s)%nat then match f i with Some k => N.testbit x (N.of_nat k) | None => false end else false.
Proof.
  intros Hx Hs Hp i. pose proof (sym_sound w win e s x Hx Hs i) as ->.
  unfold is_perm in Hp. rewrite forallb_forall in Hp.
  destruct (Nat.ltb_spec i (length s)) as [L|L]; [|rewrite nth_overflow by exact L; reflexivity].
  specialize (Hp i ltac:(apply in_seq; lia)). destruct (nth i s []) as [|j [|? ?]], (f i); try discriminate; cbn.
  - reflexivity.
  - apply Nat.eqb_eq in Hp. subst. apply xorb_false_r.
Qed.
