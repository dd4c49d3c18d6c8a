(** * C106: extending a level set over the inside of another one *)

From Coq Require Import List ZArith Arith Bool Lia Permutation.
From Verif Require Import LdModel LdSpec LdProofs LeModel LeSpec LeProofs.
Import ListNotations.
Local Open Scope nat_scope.

Lemma start_done neg s : done_upto neg 0 s.
Proof. split; [lia |]. intros i ci o Hi. lia. Qed.

Lemma start_keeps s : keeps s s.
Proof. split; auto. Qed.

(** When it returns, the domain is exactly the set of reached blocks, the old blocks keep their
    numbers and the numbering is consistent; in every order of the visits. *)
Theorem C106_domain : forall inside orders fuel s s',
  consistent s -> (forall b m, Permutation (orders b m) (round b m)) ->
  extend_sdf inside orders fuel s = Done s' ->
  consistent s' /\
  (forall k, tab s' k <> None <-> reached inside s k) /\
  (forall k i, tab s k = Some i -> tab s' k = Some i).
Proof.
  intros inside orders fuel s s' Hc Ho E.
  destruct (expand_done inside orders Ho fuel 0 s s s' Hc Hc (start_keeps s) (start_done _ _)) as (C & K & T); auto.
  - intros k Hk. now apply r_there.
  - split; [exact C |]. split; [exact T |]. intros k i Ht. apply Hc in Ht. destruct Ht as [Hi <-].
    apply C. split; [destruct K; lia | apply (proj2 K); exact Hi].
Qed.
Print Assumptions C106_domain.

(** With blocks at multiples of 8, no round inserts more blocks than were reserved before it. *)
Theorem C106_room : forall inside orders fuel s,
  consistent s -> (forall k, tab s k <> None -> aligned k) ->
  (forall b m, Permutation (orders b m) (round b m)) ->
  extend_sdf inside orders fuel s <> Overflow.
Proof.
  intros inside orders fuel s Hc Ha Ho. apply (expand_room inside orders Ho); [exact Hc | apply start_done | exact Ha].
Qed.
Print Assumptions C106_room.

(** It returns if only finitely many blocks are reached ... *)
Theorem C106_returns : forall inside orders s,
  consistent s -> (forall k, tab s k <> None -> aligned k) ->
  (forall b m, Permutation (orders b m) (round b m)) ->
  finite_reach inside s ->
  exists fuel s', extend_sdf inside orders fuel s = Done s'.
Proof.
  intros inside orders s Hc Ha Ho (L & HL). exists (S (length L)).
  destruct (extend_sdf inside orders (S (length L)) s) as [s' | |] eqn:E; [eauto | |]; exfalso.
  - exact (C106_room inside orders _ s Hc Ha Ho E).
  - revert E. apply (expand_ends inside orders Ho L (S (length L)) 0 s s Hc (start_done _ _)); [| exact HL | lia].
    intros k Hk. now apply r_there.
Qed.
Print Assumptions C106_returns.

(** ... and never otherwise: an inside without bound around the domain is expanded for ever. *)
Theorem C106_endless : forall inside orders fuel s,
  consistent s -> (forall b m, Permutation (orders b m) (round b m)) ->
  ~ finite_reach inside s -> forall s', extend_sdf inside orders fuel s <> Done s'.
Proof.
  intros inside orders fuel s Hc Ho Hinf s' E. apply Hinf.
  destruct (C106_domain inside orders fuel s s' Hc Ho E) as (C & T & _).
  exists (map (akeys s') (seq 0 (cnt s'))). intros k Hk. apply T in Hk.
  destruct (tab s' k) as [i |] eqn:Et; [| congruence]. apply C in Et. destruct Et as [Hi <-].
  apply in_map. apply in_seq. lia.
Qed.
Print Assumptions C106_endless.

(** ** Concrete cases *)

(** One block at the origin. *)
Definition ex_s := Spls 1 (fun _ => (0, 0, 0)%Z) (fun k => if key_eqb k (0, 0, 0)%Z then Some 0 else None) (fun _ _ _ => 0%Z).

Lemma ex_consistent : consistent ex_s.
Proof.
  intros k i. cbn. destruct (key_eqb k (0, 0, 0)%Z) eqn:E; [apply key_eqb_eq in E | apply key_eqb_neq in E]; split.
  - intros H. injection H as <-. auto.
  - intros [Hi _]. f_equal. lia.
  - discriminate.
  - intros [_ H]. congruence.
Qed.

(** A rod of inside cells along x, from 3 to 20, reaches two more blocks and no third one. *)
Definition rod (c : key) : bool := let '(x, y, z) := c in (Z.leb 3 x && Z.leb x 20 && Z.eqb y 4 && Z.eqb z 4)%bool.

Lemma rod_reached k : reached rod ex_s k -> In k [(0, 0, 0); (8, 0, 0); (16, 0, 0)]%Z.
Proof.
  intros H. destruct H as [k H | k c d k' _ _ _ Hn Ha Hb].
  - cbn in H. destruct (key_eqb k (0, 0, 0)%Z) eqn:E; [| congruence]. apply key_eqb_eq in E. subst k. now left.
  - destruct k' as [[u v] w], d as [[x y] z]. cbn in Hn, Ha, Hb.
    rewrite !andb_true_iff, !Z.eqb_eq, !Z.leb_le in Hn. destruct Ha as ((p & ->) & (q & ->) & (r & ->)).
    assert (q = 0)%Z by lia. assert (r = 0)%Z by lia. assert (p = 0 \/ p = 1 \/ p = 2)%Z by lia. subst q r. cbn.
    intuition (subst p; auto).
Qed.

Lemma rod_last : reached rod ex_s (16, 0, 0)%Z.
Proof.
  apply r_step with (k := (8, 0, 0)%Z) (c := (15, 4, 4)%Z) (d := (16, 4, 4)%Z); [| cbn; lia | cbn; lia | reflexivity | | cbn; lia].
  - apply r_step with (k := (0, 0, 0)%Z) (c := (7, 4, 4)%Z) (d := (8, 4, 4)%Z); [| cbn; lia | cbn; lia | reflexivity | | cbn; lia].
    + apply r_there. discriminate.
    + cbn. repeat split; [exists 1%Z | exists 0%Z | exists 0%Z]; lia.
  - cbn. repeat split; [exists 2%Z | exists 0%Z | exists 0%Z]; lia.
Qed.

Example C106_ex : exists fuel s', extend_sdf rod round fuel ex_s = Done s' /\
  tab s' (16, 0, 0)%Z <> None /\ tab s' (24, 0, 0)%Z = None.
Proof.
  destruct (C106_returns rod round ex_s ex_consistent) as (fuel & s' & E).
  - intros k H. apply (r_there rod) in H. apply rod_reached in H. cbn in H.
    destruct H as [<- | [<- | [<- | []]]]; cbn; repeat split; [exists 0%Z | exists 0%Z | exists 0%Z | exists 1%Z | exists 0%Z | exists 0%Z | exists 2%Z | exists 0%Z | exists 0%Z]; lia.
  - intros. apply Permutation_refl.
  - exists [(0, 0, 0); (8, 0, 0); (16, 0, 0)]%Z. exact rod_reached.
  - exists fuel, s'. split; [exact E |].
    destruct (C106_domain rod round fuel ex_s s' ex_consistent (fun _ _ => Permutation_refl _) E) as (_ & T & _). split.
    + apply T. exact rod_last.
    + destruct (tab s' (24, 0, 0)%Z) eqn:Et; [| reflexivity]. exfalso.
      assert (H : tab s' (24, 0, 0)%Z <> None) by congruence. apply T in H. apply rod_reached in H. cbn in H.
      destruct H as [H | [H | [H | []]]]; discriminate.
Qed.

(** Everything inside: every block of the x axis is reached, so the extension never returns. *)
Example C106_ex_endless : ~ finite_reach (fun _ => true) ex_s.
Proof.
  intros (L & HL).
  assert (Hr : forall n, reached (fun _ => true) ex_s (8 * Z.of_nat n, 0, 0)%Z).
  { induction n as [| n IH]; [apply r_there; discriminate |].
    eapply r_step with (c := (8 * Z.of_nat n + 7, 0, 0)%Z) (d := (8 * Z.of_nat (S n), 0, 0)%Z); [exact IH | | | reflexivity | |]; cbn [in_block touching aligned]; try (repeat split; lia).
    split; [exists (Z.of_nat (S n)); lia |]. split; exists 0%Z; lia. }
  set (f := fun n => (8 * Z.of_nat n, 0, 0)%Z).
  assert (Hn : NoDup (map f (seq 0 (S (length L))))).
  { apply FinFun.Injective_map_NoDup; [| apply seq_NoDup]. intros a b E. unfold f in E. assert (E' : (8 * Z.of_nat a = 8 * Z.of_nat b)%Z) by congruence. lia. }
  apply (NoDup_incl_length (l' := L)) in Hn; [rewrite map_length, seq_length in Hn; lia |].
  intros k Hk. apply in_map_iff in Hk. destruct Hk as (n & <- & _). apply HL. apply Hr.
Qed.
