(** Flows and cuts; pushing along a path. *)
From Verif Require Import Prelude FlowSpec.
Local Open Scope Z_scope.

Lemma sumn_ext n f g : (forall i, (i < n)%nat -> f i = g i) -> sumn n f = sumn n g.
Proof. induction n as [|n IH]; intro H; cbn; auto. rewrite IH by (intros; apply H; lia). rewrite H by lia. reflexivity. Qed.
Lemma sumn_add n f g : sumn n (fun i => f i + g i) = sumn n f + sumn n g.
Proof. induction n as [|n IH]; cbn; lia. Qed.
Lemma sumn_opp n f : sumn n (fun i => - f i) = - sumn n f.
Proof. induction n as [|n IH]; cbn; lia. Qed.
Lemma sumn_zero n f : (forall i, (i < n)%nat -> f i = 0) -> sumn n f = 0.
Proof. induction n as [|n IH]; intro H; cbn; auto. rewrite IH by (intros; apply H; lia). rewrite H by lia. reflexivity. Qed.
Lemma sumn_le n f g : (forall i, (i < n)%nat -> f i <= g i) -> sumn n f <= sumn n g.
Proof. induction n as [|n IH]; intro H; cbn; [lia|]. pose proof (H n ltac:(lia)). specialize (IH ltac:(intros; apply H; lia)). lia. Qed.
Lemma sumn_one n k x : (k < n)%nat -> sumn n (fun i => if (i =? k)%nat then x else 0) = x.
Proof.
  induction n as [|n IH]; intro H; [lia|]. cbn. destruct (Nat.eq_dec k n) as [->|Ne].
  - rewrite Nat.eqb_refl. rewrite sumn_zero; [lia|]. intros i Hi. destruct (Nat.eqb_spec i n); lia.
  - rewrite IH by lia. destruct (Nat.eqb_spec n k); lia.
Qed.
Lemma sumn_swap n m (f : nat -> nat -> Z) : sumn n (fun u => sumn m (fun v => f u v)) = sumn m (fun v => sumn n (fun u => f u v)).
Proof. induction n as [|n IH]; cbn [sumn]; [symmetry; apply sumn_zero; reflexivity|]. rewrite IH, sumn_add. reflexivity. Qed.

Section Cut.
Variables (n : nat) (c : nat -> nat -> Z) (s t : nat) (f : nat -> nat -> Z) (side : nat -> bool).
Hypothesis Hs : (s < n)%nat.
Hypothesis Ss : side s = true.
Hypothesis St : side t = false.
(** the flow across a cut is its value *)
Lemma value_cut : is_flow n c s t f -> value n s f = cut n f side.
Proof using Hs Ss St.
  intros (A & _ & Z0). unfold value, cut.
  assert (E1 : sumn n (fun u => if side u then sumn n (f u) else 0) = sumn n (f s)).
  { rewrite <- (sumn_one n s (sumn n (f s)) Hs). apply sumn_ext. intros u Hu. destruct (Nat.eqb_spec u s) as [->|Ne]; [rewrite Ss; reflexivity|].
    destruct (side u) eqn:Su; auto. apply Z0; auto. intros ->. congruence. }
  assert (E2 : sumn n (fun u => if side u then sumn n (fun v => if side v then f u v else 0) else 0) = 0).
  { set (X := sumn n _). assert (X = - X); [|lia]. unfold X at 1.
    rewrite (sumn_ext n _ (fun u => sumn n (fun v => if side u then if side v then f u v else 0 else 0))) by (intros u _; destruct (side u); [reflexivity|symmetry; apply sumn_zero; auto]).
    rewrite sumn_swap. unfold X. rewrite <- sumn_opp. apply sumn_ext. intros v _. destruct (side v); [|rewrite sumn_zero; [reflexivity|intros u _; destruct (side u); auto]].
    rewrite <- sumn_opp. apply sumn_ext. intros u _. destruct (side u); [apply A|reflexivity]. }
  rewrite <- E1. rewrite (sumn_ext n _ (fun u => (if side u then sumn n (fun v => if side v then f u v else 0) else 0) + (if side u then sumn n (fun v => if side v then 0 else f u v) else 0))).
  - rewrite sumn_add, E2. lia.
  - intros u _. destruct (side u); [|lia]. rewrite <- sumn_add. apply sumn_ext. intros v _. destruct (side v); lia.
Qed.
Lemma value_le_cut : is_flow n c s t f -> value n s f <= cut n c side.
Proof using Hs Ss St.
  intro F. rewrite (value_cut F). destruct F as (_ & C & _). unfold cut. apply sumn_le. intros u Hu. destruct (side u); [|lia]. apply sumn_le. intros v Hv. destruct (side v); [lia|]. apply C; auto.
Qed.
(** saturated cut: the value is its capacity *)
Lemma saturated : is_flow n c s t f -> (forall u v, (u < n)%nat -> (v < n)%nat -> side u = true -> side v = false -> f u v = c u v) -> value n s f = cut n c side.
Proof using Hs Ss St.
  intros F H. rewrite (value_cut F). unfold cut. apply sumn_ext. intros u Hu. destruct (side u) eqn:Su; auto. apply sumn_ext. intros v Hv. destruct (side v) eqn:Sv; auto.
Qed.
End Cut.

(** one more unit bundle d on the edge from p to v *)
Definition bump (f : nat -> nat -> Z) (p v : nat) (d : Z) (x y : nat) : Z :=
  if ((x =? p) && (y =? v))%nat%bool then f x y + d else if ((x =? v) && (y =? p))%nat%bool then f x y - d else f x y.
Lemma bump_skew f p v d : p <> v -> (forall x y, f x y = - f y x) -> forall x y, bump f p v d x y = - bump f p v d y x.
Proof.
  intros Ne A x y. unfold bump. pose proof (A x y).
  destruct (Nat.eqb_spec x p), (Nat.eqb_spec y v), (Nat.eqb_spec x v), (Nat.eqb_spec y p); cbn; try lia.
Qed.
Lemma bump_net n f p v d u : p <> v -> (p < n)%nat -> (v < n)%nat ->
  sumn n (bump f p v d u) = sumn n (f u) + (if (u =? p)%nat then d else 0) - (if (u =? v)%nat then d else 0).
Proof.
  intros Ne Hp Hv. 
  rewrite (sumn_ext n (bump f p v d u) (fun y => f u y + ((if (y =? v)%nat then if (u =? p)%nat then d else 0 else 0) + (if (y =? p)%nat then if (u =? v)%nat then - d else 0 else 0)))).
  - rewrite !sumn_add, !sumn_one by auto. destruct (Nat.eqb_spec u p), (Nat.eqb_spec u v); lia.
  - intros y _. unfold bump. destruct (Nat.eqb_spec u p), (Nat.eqb_spec y v), (Nat.eqb_spec u v), (Nat.eqb_spec y p); cbn; try lia.
Qed.
