From Verif Require Import Prelude BitLin BitsModel BitsProofs MaskModel MaskProofs VmemModel VmemSpec.
Local Open Scope Z_scope.

Lemma G_pos : 0 < G. Proof. reflexivity. Qed.
Lemma round_down_spec n : round_down n <= n < round_down n + G /\ round_down n mod G = 0 /\ round_down n / G = n / G.
Proof.
  unfold round_down. pose proof G_pos. pose proof (Z.div_mod n G ltac:(lia)). pose proof (Z.mod_pos_bound n G ltac:(lia)).
  rewrite Z.mod_mul, Z.div_mul by lia. lia.
Qed.
Lemma round_up_spec n : n <= round_up n < n + G /\ round_up n mod G = 0.
Proof.
  unfold round_up. pose proof G_pos. pose proof (Z.div_mod (n + G - 1) G ltac:(lia)). pose proof (Z.mod_pos_bound (n + G - 1) G ltac:(lia)).
  rewrite Z.mod_mul by lia. lia.
Qed.
Lemma mod0 n : n mod G = 0 -> n = G * (n / G).
Proof. intro H. pose proof G_pos. pose proof (Z.div_mod n G ltac:(lia)). lia. Qed.
Opaque G.

(** single bits *)
Lemma set_bit_ok m n on nw : wfm nw m -> (n < 64 * nw)%nat ->
  exists m', set_bit m n on = Some m' /\ wfm nw m' /\ forall i, mbit m' i = if (i =? n)%nat then on else mbit m i.
Proof.
  intros W Hn. destruct on; cbn [set_bit].
  - destruct (mod_word_ok m n (fun w => N.lor w (wbit n)) orb nw W Hn) as (m' & E & W' & B).
    + intros. apply lor_lt; [assumption|apply wbit_lt].
    + intros. rewrite N.lor_spec, wbit_bits by assumption. apply orb_comm.
    + reflexivity.
    + exists m'. split; [exact E|]. split; [exact W'|exact B].
  - destruct (mod_word_ok m n (fun w => N.land w (wnot 64 (wbit n))) (fun a b => negb a && b) nw W Hn) as (m' & E & W' & B).
    + intros. apply land_lt64. assumption.
    + intros. rewrite N.land_spec, wnot_bits, wbit_bits by assumption. apply andb_comm.
    + reflexivity.
    + exists m'. split; [exact E|]. split; [exact W'|exact B].
Qed.
Lemma isOn_bit m n nw : wfm nw m -> (n < 64 * nw)%nat -> isOn m n = Some (mbit m n).
Proof.
  intros [HL HF] Hn. unfold isOn.
  assert (Hq : (n / 64 < length m)%nat) by (rewrite HL; apply Nat.div_lt_upper_bound; lia).
  destruct (nth_error_lt_some m _ Hq) as [w Ew]. rewrite Ew. f_equal.
  rewrite land_wbit_zero by (rewrite Forall_forall in HF; apply HF; eapply nth_error_In; eauto).
  unfold mbit. rewrite (nth_error_nth _ _ 0%N Ew). reflexivity.
Qed.
Lemma set_loop_ok on nw : forall n m st, wfm nw m -> (st + n <= 64 * nw)%nat ->
  exists m', set_loop m st n on = Some m' /\ wfm nw m' /\
   forall i, mbit m' i = if (st <=? i)%nat && (i <? st + n)%nat then on else mbit m i.
Proof.
  induction n as [|n IH]; intros m st W H; cbn [set_loop].
  - exists m. split; [reflexivity|]. split; [exact W|]. intro i. destruct (Nat.leb_spec st i); destruct (Nat.ltb_spec i (st + 0)); try lia; reflexivity.
  - destruct (set_bit_ok m st on nw W ltac:(lia)) as (m1 & E1 & W1 & B1). rewrite E1.
    destruct (IH m1 (S st) W1 ltac:(lia)) as (m2 & E2 & W2 & B2). exists m2. split; [exact E2|]. split; [exact W2|].
    intro i. rewrite B2, B1. destruct (Nat.leb_spec (S st) i), (Nat.ltb_spec i (S st + n)), (Nat.leb_spec st i), (Nat.ltb_spec i (st + S n)), (Nat.eqb_spec i st); cbn; try reflexivity; lia.
Qed.
Lemma check_loop_ok nw : forall n m st, wfm nw m -> (st + n <= 64 * nw)%nat ->
  exists b, check_loop m st n = Some b /\ (b = true <-> forall i, (st <= i < st + n)%nat -> mbit m i = true).
Proof.
  induction n as [|n IH]; intros m st W H; cbn [check_loop].
  - exists true. split; [reflexivity|]. split; [intros; lia|reflexivity].
  - rewrite (isOn_bit m st nw W) by lia. destruct (mbit m st) eqn:E.
    + destruct (IH m (S st) W ltac:(lia)) as (b & Eb & Hb). exists b. split; [exact Eb|]. rewrite Hb. split.
      * intros H1 i Hi. destruct (Nat.eq_dec i st) as [->|]; [exact E|apply H1; lia].
      * intros H1 i Hi. apply H1. lia.
    + exists false. split; [reflexivity|]. split; [discriminate|]. intro H1. rewrite <- E. apply H1. lia.
Qed.

Definition ainv (R : Z) (a : arena) : Prop :=
  ares a = R /\ exists nw, wfm nw (amask a) /\ R / G <= 64 * Z.of_nat nw /\
  forall b, acc (aos a) b = (0 <=? b) && (b <? R) && mbit (amask a) (Z.to_nat (b / G)).

Lemma ainv_ctor space : 0 <= space -> ainv (round_up space) (arena_ctor space).
Proof.
  intro H. split; [reflexivity|]. set (R := round_up space). destruct (round_up_spec space) as [B1 _]. fold R in B1.
  pose proof G_pos. assert (HRG : 0 <= R / G) by (apply Z.div_pos; lia).
  exists (Z.to_nat ((R / G + 63) / 64)). cbn [amask arena_ctor aos acc]. fold R. split; [apply repeat_wf|]. split.
  - pose proof (Z.div_mod (R / G + 63) 64 ltac:(lia)). pose proof (Z.mod_pos_bound (R / G + 63) 64 ltac:(lia)).
    assert (HQ : 0 <= (R / G + 63) / 64) by (apply Z.div_pos; lia). rewrite Z2Nat.id by exact HQ. lia.
  - intro b. unfold mbit. rewrite nth_repeat. rewrite N.bits_0. rewrite andb_false_r. reflexivity.
Qed.

(** chunk-aligned ranges in terms of chunk indices *)
Lemma chunk_in_range st ed b : 0 <= st -> st <= ed -> st mod G = 0 -> ed mod G = 0 -> 0 <= b ->
  in_rng st (ed - st) b = (Z.to_nat (st / G) <=? Z.to_nat (b / G))%nat && (Z.to_nat (b / G) <? Z.to_nat (st / G) + chunks st ed)%nat.
Proof.
  intros Hst Hle M1 M2 Hb. pose proof G_pos. unfold in_rng, chunks.
  assert (D1 := mod0 _ M1). assert (D2 := mod0 _ M2). pose proof (Z.div_mod b G ltac:(lia)). pose proof (Z.mod_pos_bound b G ltac:(lia)).
  assert (0 <= st / G) by (apply Z.div_pos; lia). assert (0 <= b / G) by (apply Z.div_pos; lia).
  assert (st / G <= ed / G) by (apply Z.div_le_mono; lia).
  assert (P1 : st <= b <-> st / G <= b / G) by (split; intro; nia).
  assert (P2 : b < ed <-> b / G < ed / G) by (split; intro; nia).
  destruct (Z.leb_spec st b); destruct (Z.ltb_spec b (st + (ed - st))); destruct (Nat.leb_spec (Z.to_nat (st / G)) (Z.to_nat (b / G)));
   destruct (Nat.ltb_spec (Z.to_nat (b / G)) (Z.to_nat (st / G) + Z.to_nat (ed / G - st / G))); cbn; try reflexivity; exfalso; lia.
Qed.

Lemma end_up_spec R off : R mod G = 0 -> end_up R off mod G = 0 /\ Z.min off R <= end_up R off <= R.
Proof.
  intro M. unfold end_up. destruct (Z.leb_spec off R); [|split; [exact M|lia]].
  destruct (round_up_spec off) as [B1 B2]. split; [exact B2|]. assert (D1 := mod0 _ M). assert (D2 := mod0 _ B2). pose proof G_pos.
  assert (round_up off / G < R / G + 1) by nia. nia.
Qed.
Lemma end_down_spec R off : R mod G = 0 -> end_down R off mod G = 0 /\ end_down R off <= off /\ end_down R off <= R.
Proof.
  intro M. unfold end_down. destruct (Z.leb_spec off R); [|split; [exact M|lia]].
  destruct (round_down_spec off) as [B1 [B2 _]]. split; [exact B2|lia].
Qed.

Lemma arena_commit_ok R a offset bytes ok : R mod G = 0 -> ainv R a -> 0 <= offset -> 0 <= bytes ->
  exists a' r, arena_commit a offset bytes ok = Some (a', r) /\ ainv R a' /\ (forall b, val (aos a') b = val (aos a) b) /\
  (forall b, acc (aos a) b = true -> acc (aos a') b = true) /\
  (r = true -> forall b, offset <= b < offset + bytes -> b < R -> acc (aos a') b = true) /\
  (r = true <-> round_down offset < R /\ ok = true).
Proof.
  intros MR (ER & nw & W & HN & HA) Ho Hb. unfold arena_commit. rewrite ER. pose proof G_pos.
  destruct (round_down_spec offset) as (S1 & S2 & S3). set (st := round_down offset) in *.
  assert (Hst : 0 <= st). { assert (D := mod0 _ S2). assert (0 <= offset / G) by (apply Z.div_pos; lia). nia. }
  destruct (Z.leb_spec R st) as [L|L].
  { exists a, false. split; [reflexivity|]. split; [split; [exact ER|exists nw; auto]|]. split; [auto|]. split; [auto|]. split; [discriminate|].
    split; [discriminate|lia]. }
  destruct (end_up_spec R (offset + bytes) MR) as [E1 E2]. set (ed := end_up R (offset + bytes)) in *.
  assert (Hle : st <= ed) by lia.
  destruct ok.
  2: { exists a, false. split; [reflexivity|]. split; [split; [exact ER|exists nw; auto]|]. split; [auto|]. split; [auto|]. split; [discriminate|].
       split; [discriminate|]. intros [_ Q]; discriminate. }
  assert (0 <= st / G) by (apply Z.div_pos; lia). assert (st / G <= ed / G) by (apply Z.div_le_mono; lia).
  assert (ed / G <= R / G) by (apply Z.div_le_mono; lia).
  destruct (set_loop_ok true nw (chunks st ed) (amask a) (Z.to_nat (st / G)) W) as (m & Em & Wm & Bm).
  { unfold chunks. lia. }
  rewrite Em. eexists _, true. split; [reflexivity|]. split.
  { split; [reflexivity|]. exists nw. cbn [amask aos]. split; [exact Wm|]. split; [exact HN|]. intro b. cbn [mprotect acc]. rewrite Bm, HA.
    destruct (Z.leb_spec 0 b) as [Hb0|Hb0].
    - rewrite chunk_in_range by assumption. destruct (_ && _)%nat eqn:Q.
      + destruct (Z.ltb_spec b R); [reflexivity|]. exfalso.
        rewrite <- chunk_in_range in Q by assumption. unfold in_rng in Q. lia.
      + reflexivity.
    - cbn. unfold in_rng. destruct (Z.leb_spec st b); [lia|]. reflexivity. }
  split; [reflexivity|]. split.
  { intros b Hacc. cbn. destruct (in_rng st (ed - st) b); [reflexivity|exact Hacc]. }
  split.
  - intros _ b Hb1 Hb2. cbn. unfold in_rng. destruct (Z.leb_spec st b); [|lia]. destruct (Z.ltb_spec b (st + (ed - st))); [reflexivity|lia].
  - split; [auto|reflexivity].
Qed.

Lemma arena_evict_ok R a offset bytes ok1 ok2 : R mod G = 0 -> ainv R a -> 0 <= offset -> 0 <= bytes ->
  exists a' r, arena_evict a offset bytes ok1 ok2 = Some (a', r) /\ ainv R a' /\
  (forall b, ~ (offset <= b < offset + bytes) -> acc (aos a') b = acc (aos a) b /\ val (aos a') b = val (aos a) b) /\
  (r = true -> forall b, round_up offset <= b < end_down R (offset + bytes) -> acc (aos a') b = false) /\
  (forall b, acc (aos a') b = true -> acc (aos a) b = true).
Proof.
  intros MR (ER & nw & W & HN & HA) Ho Hb. unfold arena_evict. rewrite ER. pose proof G_pos.
  destruct (round_up_spec offset) as (S1 & S2). set (st := round_up offset) in *.
  destruct (end_down_spec R (offset + bytes) MR) as (E1 & E2 & E3). set (ed := end_down R (offset + bytes)) in *.
  destruct (Z.leb_spec ed st) as [L|L].
  { exists a, false. split; [reflexivity|]. split; [split; [exact ER|exists nw; auto]|]. split; [auto|]. split; [discriminate|auto]. }
  destruct ok1; cbn [negb].
  2: { exists a, false. split; [reflexivity|]. split; [split; [exact ER|exists nw; auto]|]. split; [auto|]. split; [discriminate|auto]. }
  assert (OUT : forall b, ~ (offset <= b < offset + bytes) -> in_rng st (ed - st) b = false).
  { intros b Q. unfold in_rng. destruct (Z.leb_spec st b); [|reflexivity]. destruct (Z.ltb_spec b (st + (ed - st))); [lia|reflexivity]. }
  destruct ok2; cbn [negb].
  2: { eexists _, false. split; [reflexivity|]. split; [split; [reflexivity|exists nw; auto]|]. split; [|split; [discriminate|auto]].
       intros b Q. cbn. rewrite (OUT b Q). auto. }
  assert (Hst : 0 <= st) by lia. assert (0 <= st / G) by (apply Z.div_pos; lia). assert (st / G <= ed / G) by (apply Z.div_le_mono; lia).
  assert (ed / G <= R / G) by (apply Z.div_le_mono; lia).
  cbn [amask]. destruct (set_loop_ok false nw (chunks st ed) (amask a) (Z.to_nat (st / G)) W) as (m & Em & Wm & Bm).
  { unfold chunks. lia. }
  rewrite Em. eexists _, true. split; [reflexivity|]. split.
  { split; [reflexivity|]. exists nw. cbn [amask aos]. split; [exact Wm|]. split; [exact HN|]. intro b. cbn [mprotect dontneed acc]. rewrite Bm, HA.
    destruct (Z.leb_spec 0 b) as [Hb0|Hb0].
    - rewrite chunk_in_range by (assumption || lia). destruct (_ && _)%nat; [rewrite andb_false_r; reflexivity|reflexivity].
    - cbn. unfold in_rng. destruct (Z.leb_spec st b); [lia|]. reflexivity. }
  split.
  { intros b Q. cbn. rewrite (OUT b Q). auto. }
  split.
  - intros _ b Q. cbn. unfold in_rng. destruct (Z.leb_spec st b); [|lia]. destruct (Z.ltb_spec b (st + (ed - st))); [reflexivity|lia].
  - intros b. cbn. destruct (in_rng st (ed - st) b); [discriminate|auto].
Qed.

Lemma arena_check_ok R a offset bytes : R mod G = 0 -> ainv R a -> 0 <= offset -> 0 < bytes -> offset < R ->
  exists r, arena_check a offset bytes = Some r /\
   (r = true <-> forall b, round_down offset <= b < end_up R (offset + bytes) -> acc (aos a) b = true) /\
   (r = true <-> forall b, offset <= b < offset + bytes -> b < R -> acc (aos a) b = true).
Proof.
  intros MR (ER & nw & W & HN & HA) Ho Hb HR. unfold arena_check. rewrite ER. pose proof G_pos.
  destruct (round_down_spec offset) as (S1 & S2 & S3). set (st := round_down offset) in *.
  assert (Hst : 0 <= st). { assert (D := mod0 _ S2). assert (0 <= offset / G) by (apply Z.div_pos; lia). nia. }
  destruct (Z.leb_spec R st) as [L|L]; [lia|].
  destruct (end_up_spec R (offset + bytes) MR) as [E1 E2]. 
  assert (E3 : end_up R (offset + bytes) < offset + bytes + G).
  { unfold end_up. destruct (Z.leb_spec (offset + bytes) R); [apply round_up_spec|lia]. }
  set (ed := end_up R (offset + bytes)) in *.
  assert (Hle : st <= ed) by lia.
  assert (0 <= st / G) by (apply Z.div_pos; lia). assert (st / G <= ed / G) by (apply Z.div_le_mono; lia).
  assert (ed / G <= R / G) by (apply Z.div_le_mono; lia).
  destruct (check_loop_ok nw (chunks st ed) (amask a) (Z.to_nat (st / G)) W) as (r & Er & Hr).
  { unfold chunks. lia. }
  exists r. split; [exact Er|].
  assert (IDX : forall i, (Z.to_nat (st / G) <= i < Z.to_nat (st / G) + chunks st ed)%nat <-> st / G <= Z.of_nat i < ed / G)
    by (intro i; unfold chunks; lia).
  assert (D1 := mod0 _ S2). assert (D2 := mod0 _ E1). assert (D3 := mod0 _ MR).
  (* every chunk index in range has a byte of the asked range below R, so chunk-wise and byte-wise views agree *)
  assert (FWD : (forall i, (Z.to_nat (st / G) <= i < Z.to_nat (st / G) + chunks st ed)%nat -> mbit (amask a) i = true) ->
                forall b, st <= b < ed -> acc (aos a) b = true).
  { intros M b Q. rewrite HA. destruct (Z.leb_spec 0 b); [|lia]. destruct (Z.ltb_spec b R); [|lia]. cbn.
    apply M. apply IDX. rewrite Z2Nat.id by (apply Z.div_pos; lia).
    split.
    - apply Z.div_le_mono; lia.
    - apply Z.div_lt_upper_bound; lia. }
  assert (BWD : (forall b, offset <= b < offset + bytes -> b < R -> acc (aos a) b = true) ->
     forall i, (Z.to_nat (st / G) <= i < Z.to_nat (st / G) + chunks st ed)%nat -> mbit (amask a) i = true).
  { intros M i Q. apply IDX in Q.
    assert (B : exists b, offset <= b < offset + bytes /\ b < R /\ b / G = Z.of_nat i).
    { exists (Z.max offset (G * Z.of_nat i)).
      assert (G * Z.of_nat i < ed) by nia. assert (G * Z.of_nat i + G <= ed) by nia.
      assert (offset < st + G) by lia. assert (st <= G * Z.of_nat i) by nia.
      split; [lia|]. split; [lia|].
      symmetry. apply (Z.div_unique_pos _ _ _ (Z.max offset (G * Z.of_nat i) - G * Z.of_nat i)); lia. }
    destruct B as (b & B1 & B2 & B3). specialize (M b B1 B2). rewrite HA in M.
    apply andb_true_iff in M. destruct M as [_ M]. rewrite B3, Nat2Z.id in M. exact M. }
  split; rewrite Hr; split.
  - exact FWD.
  - intros M. apply BWD. intros b B1 B2. apply M. lia.
  - intros M b B1 B2. apply FWD; [exact M|]. lia.
  - exact BWD.
Qed.

(** histories *)
Definition arena_step (oa : option arena) (c : vcall) : option arena :=
  match oa with
  | None => None
  | Some a => match c with
    | VCommit o b ok => option_map fst (arena_commit a o b ok)
    | VEvict o b ok1 ok2 => option_map fst (arena_evict a o b ok1 ok2)
    end
  end.
Definition arena_run (space : Z) (cs : list vcall) : option arena := fold_left arena_step cs (Some (arena_ctor space)).

Lemma arena_run_from R cs : R mod G = 0 -> Forall vcall_ok cs -> forall a, ainv R a ->
  exists a', fold_left arena_step cs (Some a) = Some a' /\ ainv R a'.
Proof.
  intros MR F. induction F as [|c cs Hc F IH]; intros a I; cbn [fold_left]; [eauto|]. destruct c as [o b ok|o b ok1 ok2]; cbn [arena_step]; cbn in Hc; destruct Hc as [H1 H2].
  - destruct (arena_commit_ok R a o b ok MR I H1 H2) as (a' & r & E & I' & _). rewrite E. cbn. apply IH. exact I'.
  - destruct (arena_evict_ok R a o b ok1 ok2 MR I H1 H2) as (a' & r & E & I' & _). rewrite E. cbn. apply IH. exact I'.
Qed.
Lemma arena_run_inv space cs : 0 <= space -> Forall vcall_ok cs -> exists a, arena_run space cs = Some a /\ ainv (round_up space) a.
Proof. intros H F. apply arena_run_from; [apply round_up_spec|exact F|apply ainv_ctor; exact H]. Qed.

(** committed bytes stay accessible while later evicts avoid them *)
Definition evict_avoids (lo hi : Z) (c : vcall) : Prop :=
  match c with VEvict o b _ _ => o + b <= lo \/ hi <= o | VCommit _ _ _ => True end.
Lemma arena_stays R cs lo hi : R mod G = 0 -> Forall vcall_ok cs -> Forall (evict_avoids lo hi) cs -> forall a, ainv R a ->
  (forall b, lo <= b < hi -> b < R -> acc (aos a) b = true) ->
  exists a', fold_left arena_step cs (Some a) = Some a' /\ ainv R a' /\ (forall b, lo <= b < hi -> b < R -> acc (aos a') b = true).
Proof.
  intros MR F. induction F as [|c cs Hc F IH]; intros FA a I A; cbn [fold_left]; [eauto|]. inversion FA; subst.
  destruct c as [o b ok|o b ok1 ok2]; cbn [arena_step]; cbn in Hc; destruct Hc as [Q1 Q2].
  - destruct (arena_commit_ok R a o b ok MR I Q1 Q2) as (a' & r & E & I' & _ & K & _). rewrite E. cbn. apply IH; auto.
  - destruct (arena_evict_ok R a o b ok1 ok2 MR I Q1 Q2) as (a' & r & E & I' & K & _). rewrite E. cbn. apply IH; auto.
    intros x X1 X2. destruct (K x) as [-> _]; [cbn in H1; lia|]. apply A; assumption.
Qed.

Lemma arena_commit_then_check space cs1 o b cs2 a a1 : 0 <= space -> Forall vcall_ok cs1 -> Forall vcall_ok cs2 -> 0 <= o -> 0 < b -> o < round_up space ->
  Forall (evict_avoids o (o + b)) cs2 -> arena_run space cs1 = Some a -> arena_commit a o b true = Some (a1, true) ->
  exists a2, fold_left arena_step cs2 (Some a1) = Some a2 /\ arena_check a2 o b = Some true.
Proof.
  intros Hs F1 F2 Ho Hb HR FA E1 E2. destruct (round_up_spec space) as [_ MR].
  destruct (arena_run_inv space cs1 Hs F1) as (a0 & E0 & I0). rewrite E1 in E0. injection E0 as <-.
  destruct (arena_commit_ok _ a o b true MR I0 Ho ltac:(lia)) as (a' & r & E & I' & _ & _ & K & _). rewrite E2 in E. injection E as <- <-.
  destruct (arena_stays _ cs2 o (o + b) MR F2 FA a1 I' (K eq_refl)) as (a2 & E3 & I2 & A2). exists a2. split; [exact E3|].
  destruct (arena_check_ok _ a2 o b MR I2 Ho Hb HR) as (r & Er & _ & Hr). rewrite Er. f_equal. apply Hr. exact A2.
Qed.

Lemma arena_residency_exact space cs o b : 0 <= space -> Forall vcall_ok cs -> 0 <= o -> 0 < b -> o + b <= round_up space ->
  exists a r, arena_run space cs = Some a /\ arena_check a o b = Some r /\ (r = true <-> forall x, o <= x < o + b -> acc (aos a) x = true).
Proof.
  intros Hs F Ho Hb HR. destruct (round_up_spec space) as [_ MR]. destruct (arena_run_inv space cs Hs F) as (a & E & I).
  destruct (arena_check_ok _ a o b MR I Ho Hb ltac:(lia)) as (r & Er & _ & Hr). exists a, r. split; [exact E|]. split; [exact Er|].
  rewrite Hr. split; intros M x; intros; apply M; auto; lia.
Qed.
Lemma arena_evict_local space cs o b ok1 ok2 : 0 <= space -> Forall vcall_ok cs -> 0 <= o -> 0 <= b ->
  exists a a' r, arena_run space cs = Some a /\ arena_evict a o b ok1 ok2 = Some (a', r) /\
   (forall x, ~ (o <= x < o + b) -> acc (aos a') x = acc (aos a) x /\ val (aos a') x = val (aos a) x) /\
   (r = true -> forall x, round_up o <= x < end_down (round_up space) (o + b) -> acc (aos a') x = false).
Proof.
  intros Hs F Ho Hb. destruct (round_up_spec space) as [_ MR]. destruct (arena_run_inv space cs Hs F) as (a & E & I).
  destruct (arena_evict_ok _ a o b ok1 ok2 MR I Ho Hb) as (a' & r & E' & _ & K1 & K2 & _). exists a, a', r. auto.
Qed.

(** ---- stack resource ---- *)
Definition sinv (R : Z) (s : svm) : Prop :=
  sres s = R /\ 0 <= salloc s <= R /\ salloc s mod G = 0 /\ forall b, acc (sos s) b = (0 <=? b) && (b <? salloc s).
Lemma sinv_ctor size : 0 <= size -> sinv (round_up size) (svm_ctor size).
Proof.
  intro H. destruct (round_up_spec size). split; [reflexivity|]. cbn. split; [lia|]. split; [reflexivity|]. intro b.
  destruct (Z.leb_spec 0 b); destruct (Z.ltb_spec b 0); try reflexivity; lia.
Qed.
Lemma svm_commit_ok R s o b ok : R mod G = 0 -> 0 <= R -> sinv R s -> 0 <= o -> 0 <= b ->
  let '(s', r) := svm_commit s o b ok in sinv R s' /\ (forall x, val (sos s') x = val (sos s) x) /\
  (forall x, acc (sos s) x = true -> acc (sos s') x = true) /\
  (r = true -> forall x, o <= x < o + b -> x < R -> acc (sos s') x = true).
Proof.
  intros MR HR (ER & HA & MA & HB) Ho Hb. unfold svm_commit. rewrite ER.
  destruct (end_up_spec R (o + b) MR) as [E1 E2]. set (ed := end_up R (o + b)) in *.
  destruct (Z.ltb_spec ed (salloc s)) as [L|L].
  - split; [repeat split; auto; lia|]. split; [auto|]. split; [auto|]. intros _ x X1 X2. rewrite HB.
    destruct (Z.leb_spec 0 x); [|lia]. destruct (Z.ltb_spec x (salloc s)); [reflexivity|lia].
  - destruct ok.
    + assert (AC : forall x, acc (mprotect (sos s) 0 ed true) x = (0 <=? x) && (x <? ed)).
      { intro x. cbn. rewrite HB. unfold in_rng. destruct (Z.leb_spec 0 x); cbn; [|reflexivity].
        destruct (Z.ltb_spec x ed); [reflexivity|]. destruct (Z.ltb_spec x (salloc s)); [lia|reflexivity]. }
      split; [split; [reflexivity|]; split; [cbn; lia|]; split; [exact E1|exact AC]|]. split; [reflexivity|]. cbn [sos]. split.
      * intros x. rewrite AC, HB. lia.
      * intros _ x X1 X2. rewrite AC. lia.
    + split; [repeat split; auto; lia|]. split; [auto|]. split; [auto|discriminate].
Qed.
Lemma svm_evict_ok R s o b ok1 ok2 : sinv R s -> 0 <= o ->
  let '(s', r) := svm_evict s o b ok1 ok2 in sinv R s' /\
  (forall x, x < o -> acc (sos s') x = acc (sos s) x /\ val (sos s') x = val (sos s) x) /\
  (r = true -> forall x, round_up o <= x -> acc (sos s') x = false).
Proof.
  intros (ER & HA & MA & HB) Ho. unfold svm_evict. destruct (round_up_spec o) as [S1 S2]. set (st := round_up o) in *.
  destruct (Z.leb_spec (salloc s) st) as [L|L].
  { split; [repeat split; auto; lia|]. split; [auto|]. intros _ x X. rewrite HB. lia. }
  destruct ok1; cbn [negb]; [|split; [repeat split; auto; lia|]; split; [auto|discriminate]].
  assert (OUT : forall x, x < o -> in_rng st (salloc s - st) x = false) by (intros x X; unfold in_rng; lia).
  destruct ok2; cbn [negb].
  - split; [split; [exact ER|]; split; [cbn; lia|]; split; [exact S2|]|].
    + intro x. cbn. rewrite HB. destruct (in_rng st (salloc s - st) x) eqn:Q; unfold in_rng in Q; lia.
    + split; [intros x X; cbn; rewrite (OUT x X); auto|]. intros _ x X. cbn. rewrite HB. destruct (in_rng st (salloc s - st) x) eqn:Q; unfold in_rng in Q; lia.
  - split; [repeat split; auto; cbn; try lia|]. split; [|discriminate]. intros x X. cbn. rewrite (OUT x X). auto.
Qed.
Definition svm_step (s : svm) (c : vcall) : svm :=
  match c with VCommit o b ok => fst (svm_commit s o b ok) | VEvict o b k1 k2 => fst (svm_evict s o b k1 k2) end.
Definition svm_run (size : Z) (cs : list vcall) : svm := fold_left svm_step cs (svm_ctor size).
Lemma svm_run_inv size cs : 0 <= size -> Forall vcall_ok cs -> sinv (round_up size) (svm_run size cs).
Proof.
  intros H F. destruct (round_up_spec size) as [B MR]. unfold svm_run. pose proof (sinv_ctor size H) as I. revert I.
  generalize (svm_ctor size). induction F as [|c cs Hc F IH]; intros s I; cbn [fold_left]; [exact I|]. apply IH.
  destruct c as [o b ok|o b k1 k2]; cbn in Hc; destruct Hc as [H1 H2]; cbn [svm_step].
  - pose proof (svm_commit_ok _ s o b ok MR ltac:(lia) I H1 H2) as K. destruct (svm_commit s o b ok). apply K.
  - pose proof (svm_evict_ok _ s o b k1 k2 I H1) as K. destruct (svm_evict s o b k1 k2). apply K.
Qed.
Lemma svm_residency size cs o b : 0 <= size -> Forall vcall_ok cs -> 0 <= o -> 0 < b -> o + b <= round_up size ->
  let s := svm_run size cs in svm_check s o b = true <-> forall x, o <= x < o + b -> acc (sos s) x = true.
Proof.
  intros H F Ho Hb HR. destruct (round_up_spec size) as [B MR]. destruct (svm_run_inv size cs H F) as (ER & HA & MA & HB). cbn zeta.
  set (s := svm_run size cs) in *. unfold svm_check. rewrite ER. unfold end_up. destruct (Z.leb_spec (o + b) (round_up size)); [|lia].
  destruct (round_up_spec (o + b)) as [U1 U2]. pose proof G_pos. split.
  - intros Q x X. rewrite HB. lia.
  - intro M. specialize (M (o + b - 1) ltac:(lia)). rewrite HB in M. assert (D1 := mod0 _ U2). assert (D2 := mod0 _ MA).
    apply Z.leb_le. assert (o + b - 1 < salloc s) by lia. clear M HB F.
    assert (round_up (o + b) / G < salloc s / G + 1) by nia. nia.
Qed.
Lemma svm_ops : forall size cs o b ok1 ok2, 0 <= size -> Forall vcall_ok cs -> 0 <= o -> 0 <= b ->
  let s := svm_run size cs in
  (let '(s', r) := svm_commit s o b ok1 in
    (forall x, val (sos s') x = val (sos s) x) /\ (forall x, acc (sos s) x = true -> acc (sos s') x = true) /\
    (r = true -> forall x, o <= x < o + b -> x < round_up size -> acc (sos s') x = true)) /\
  (let '(s', r) := svm_evict s o b ok1 ok2 in
    (forall x, x < o -> acc (sos s') x = acc (sos s) x /\ val (sos s') x = val (sos s) x) /\
    (r = true -> forall x, round_up o <= x -> acc (sos s') x = false)).
Proof.
  intros size cs o b ok1 ok2 H F Ho Hb. cbn zeta. destruct (round_up_spec size) as [B MR]. pose proof (svm_run_inv size cs H F) as I. split.
  - pose proof (svm_commit_ok _ _ o b ok1 MR ltac:(lia) I Ho Hb) as K. destruct (svm_commit (svm_run size cs) o b ok1). apply K.
  - pose proof (svm_evict_ok _ _ o b ok1 ok2 I Ho) as K. destruct (svm_evict (svm_run size cs) o b ok1 ok2). apply K.
Qed.
