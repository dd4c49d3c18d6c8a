(** C93: the PCG random number generator. *)
From Coq Require Import ZArith List Lia.
Import ListNotations.
From Verif Require Import PcgModel PcgSpec PcgProofs.
Open Scope Z_scope.

(** The states repeat after exactly 2^64 calls, whatever the start and the increment, and every state occurs. *)
Theorem C93_period g : word 64 (state g) ->
  (forall i j, state (after i g) = state (after j g) <-> (2 ^ 64 | Z.of_nat i - Z.of_nat j)) /\
  (forall s, word 64 s -> exists k, Z.of_nat k < 2 ^ 64 /\ state (after k g) = s).
Proof.
  intros W. assert (A : 6364136223846793005 mod 4 = 1) by reflexivity. pose proof (odd_lor (inc g)) as C. split.
  - intros i j. destruct (after_state g i W) as [_ ->]. destruct (after_state g j W) as [_ ->]. rewrite mod_eq by lia.
    exact (lin_period _ _ A C 64 i j (state g)).
  - intros s S. destruct (locate_spec _ _ A C 64 (state g) s) as [B D]. set (k := locate _ _ 64 (state g) s) in *. change (Z.of_nat 64) with 64 in *.
    exists (Z.to_nat k). split; [rewrite Z2Nat.id; lia|]. destruct (after_state g (Z.to_nat k) W) as [_ ->].
    apply mod_eq in D; [|lia]. rewrite D. apply Z.mod_small. exact S.
Qed.
Print Assumptions C93_period.

(** Results are 32 bit words, and in any 2^64 consecutive calls each of them is returned exactly 2^32 times. *)
Theorem C93_equidistributed g : word 64 (state g) ->
  (forall k, word 32 (draw g k)) /\ (forall y, word 32 y -> exactly (2 ^ 32) (fun k => word 64 k /\ draw g (Z.to_nat k) = y)).
Proof.
  intros W. split.
  - intros k. unfold draw. cbn [call fst]. destruct (after_state g k W) as [_ E].
    assert (S : word 64 (state (after k g))) by (rewrite E; apply Z.mod_pos_bound; lia). destruct (output_upper _ S) as (_ & O & R). cbv zeta in O, R. rewrite O.
    apply rotr_word; [apply Z.mod_pos_bound; lia|exact R].
  - intros y Y. assert (A : 6364136223846793005 mod 4 = 1) by reflexivity. pose proof (odd_lor (inc g)) as C.
    assert (T : forall s, word 64 s -> word 64 (locate 6364136223846793005 (Z.lor (inc g) 1) 64 (state g) s) /\
      state (after (Z.to_nat (locate 6364136223846793005 (Z.lor (inc g) 1) 64 (state g) s)) g) = s).
    { intros s S. destruct (locate_spec _ _ A C 64 (state g) s) as [B D]. set (k := locate _ _ 64 (state g) s) in *. change (Z.of_nat 64) with 64 in *. split; [exact B|].
      destruct (after_state g (Z.to_nat k) W) as [_ ->]. apply mod_eq in D; [|lia]. rewrite D. apply Z.mod_small. exact S. }
    exists (fun i => locate 6364136223846793005 (Z.lor (inc g) 1) 64 (state g) (preimage y i)). split; [|split].
    + intros i I. destruct (preimage_parts y i Y I) as (S & _). destruct (T _ S) as [B E]. split; [exact B|]. unfold draw. cbn [call fst]. rewrite E. apply output_preimage; assumption.
    + intros i j I J E. destruct (preimage_parts y i Y I) as (S1 & _). destruct (preimage_parts y j Y J) as (S2 & _). apply (preimage_inj y); try assumption.
      rewrite <- (proj2 (T _ S1)), <- (proj2 (T _ S2)). now rewrite E.
    + intros k [K D]. destruct (after_state g (Z.to_nat k) W) as [_ E].
      assert (S : word 64 (state (after (Z.to_nat k) g))) by (rewrite E; apply Z.mod_pos_bound; lia).
      destruct (preimage_onto y _ Y S D) as (i & I & P). exists i. split; [exact I|]. rewrite P. destruct (T _ S) as [B Q].
      destruct (C93_period g W) as [U _]. apply U in Q. rewrite !Z2Nat.id in Q by (destruct B, K; assumption).
      destruct Q as [q Q]. set (x := locate _ _ 64 _ _) in *. unfold word in *. assert (q = 0) by lia. subst q. lia.
Qed.
Print Assumptions C93_equidistributed.

(** call_random(i) is the result of call i of a fresh generator (of call 0 for negative i); the static version computes the same stream. *)
Theorem C93_calls : (forall time i, call_random time i = draw (fresh time) (Z.to_nat i)) /\
  (forall s ic, call_static s ic = (fst (call (Rng s ic)), state (snd (call (Rng s ic))))).
Proof.
  split; [|reflexivity]. intros time i. unfold call_random, draw. do 2 f_equal. generalize (Z.to_nat i) (fresh time). intros k. induction k; intros g; [reflexivity|].
  cbn [discard]. rewrite IHk. clear IHk. change (after (S k) g) with (snd (call (after k g))). generalize g. clear. induction k; intros g; [reflexivity|]. cbn [after]. now rewrite IHk.
Qed.
Print Assumptions C93_calls.

(** Compilation times give the same seed exactly if they differ at most in the tens of hours. *)
Theorem C93_seed_refuted h1 h2 m1 m2 s1 s2 h1' h2' m1' m2' s1' s2' :
  Forall digit [h1; h2; m1; m2; s1; s2] -> Forall digit [h1'; h2'; m1'; m2'; s1'; s2'] ->
  (seed (clock h1 h2 m1 m2 s1 s2) = seed (clock h1' h2' m1' m2' s1' s2') <-> [h2; m1; m2; s1; s2] = [h2'; m1'; m2'; s1'; s2']).
Proof.
  assert (B : forall x c, Z.lor (Z.shiftl x 8 mod 2 ^ 64) c = Z.lor (256 * x mod 2 ^ 64) c) by (intros; rewrite Z.shiftl_mul_pow2 by lia; do 2 f_equal; lia).
  assert (L : forall x c, 0 <= c < 256 -> Z.lor (256 * x mod 2 ^ 64) c = 256 * x mod 2 ^ 64 + c).
  { intros x c Hc. change (2 ^ 64) with (256 * 2 ^ 56). rewrite Z.mul_mod_distr_l by lia. rewrite <- Z.lxor_lor, <- Z.add_nocarry_lxor; try reflexivity.
    all: apply Z.bits_inj'; intros i Hi; rewrite Z.land_spec, Z.bits_0; replace (256 * (x mod 2 ^ 56)) with (x mod 2 ^ 56 * 2 ^ 8) by lia; destruct (Z.lt_ge_cases i 8);
      [rewrite Z.mul_pow2_bits_low by lia; reflexivity|rewrite (word_high 8 c i) by (unfold word; lia); apply Bool.andb_false_r]. }
  assert (V : forall a b c d e f, Forall digit [a; b; c; d; e; f] ->
    seed (clock a b c d e f) = 256 * (f + 256 * (e + 256 * (58 + 256 * (d + 256 * (c + 256 * (58 + 256 * b))))))).
  { intros a b c d e f D. unfold digit in D. repeat match goal with H : Forall _ (_ :: _) |- _ => inversion H; clear H; subst end.
    unfold seed, clock. cbn [app fold_left]. rewrite !B. rewrite !L by lia.
    change (256 * 0 mod 2 ^ 64) with 0. rewrite !Z.add_0_l.
    rewrite (Z.mod_small (256 * a)) by lia. rewrite (Z.mod_small (256 * (256 * a + b))) by lia. rewrite (Z.mod_small (256 * (256 * (256 * a + b) + 58))) by lia.
    rewrite (Z.mod_small (256 * (256 * (256 * (256 * a + b) + 58) + c))) by lia.
    rewrite (Z.mod_small (256 * (256 * (256 * (256 * (256 * a + b) + 58) + c) + d))) by lia.
    rewrite (Z.mod_small (256 * (256 * (256 * (256 * (256 * (256 * a + b) + 58) + c) + d) + 58))) by lia.
    rewrite (Z.mod_small (256 * (256 * (256 * (256 * (256 * (256 * (256 * a + b) + 58) + c) + d) + 58) + e))) by lia.
    rewrite Z.add_0_r. symmetry. apply Z.mod_unique_pos with (q := a); lia. }
  intros D D'. rewrite !V by assumption. unfold digit in *. repeat match goal with H : Forall _ (_ :: _) |- _ => inversion H; clear H; subst end.
  split; [|now intros [= -> -> -> -> ->]]. intros E. repeat f_equal; lia.
Qed.
Print Assumptions C93_seed_refuted.

(** 01:23:45 and 11:23:45; the first results of the generator with the default increment of the static version. *)
Example C93_ex : Forall digit [48; 49; 50; 51; 52; 53] /\ seed (clock 48 49 50 51 52 53) = seed (clock 49 49 50 51 52 53).
Proof. split; [repeat constructor; discriminate|reflexivity]. Qed.
Example C93_ex_draws : map (draw (Rng 42 1442695040888963407)) [0; 1; 2]%nat = [0; 1971522493; 242089394].
Proof. vm_compute. reflexivity. Qed.
