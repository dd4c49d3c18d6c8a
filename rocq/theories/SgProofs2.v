(** The grid invariant and its preservation. *)
From Coq Require Import QArith Qround.
From Verif Require Import Prelude SgModel SgSpec SgProofs.
Open Scope Z_scope.

Lemma coord_eqb_eq a b : coord_eqb a b = true <-> a = b.
Proof.
  revert b. induction a as [|x a IH]; intros [|y b]; cbn; try (split; congruence).
  rewrite andb_true_iff, Z.eqb_eq, IH. split; [intros [-> ->]; reflexivity|intros E; injection E; auto].
Qed.
Lemma find_key_in l c i : 0 <= i -> In c l ->
  exists j, nth_error l j = Some c /\ find_key l c i = i + Z.of_nat j /\ (forall j', (j' < j)%nat -> nth_error l j' <> Some c).
Proof.
  revert i. induction l as [|x l IH]; intros i Hi H; [destruct H|]. cbn [find_key].
  destruct (coord_eqb x c) eqn:E.
  - apply coord_eqb_eq in E. subst. exists O. split; [reflexivity|]. split; [lia|]. intros; lia.
  - destruct H as [->|H]; [exfalso; rewrite (proj2 (coord_eqb_eq c c) eq_refl) in E; discriminate|].
    destruct (IH (i + 1)) as (j & A & B & C); [lia|assumption|]. exists (Datatypes.S j). split; [exact A|]. split; [lia|].
    intros [|j'] Hj; cbn; [intros Q; injection Q as ->; rewrite (proj2 (coord_eqb_eq c c) eq_refl) in E; discriminate|]. apply C. lia.
Qed.
Lemma find_key_notin l c i : ~ In c l -> find_key l c i = sentinel_v.
Proof.
  revert i. induction l as [|x l IH]; intros i H; cbn [find_key]; [reflexivity|].
  destruct (coord_eqb x c) eqn:E; [apply coord_eqb_eq in E; subst; exfalso; apply H; left; reflexivity|].
  apply IH. intros G. apply H. right. exact G.
Qed.
Lemma find_key_nth l c j : NoDup l -> nth_error l j = Some c -> find_key l c 0 = Z.of_nat j.
Proof.
  intros ND H. destruct (find_key_in l c 0) as (j' & A & B & _); [lia|eapply nth_error_In; eassumption|].
  rewrite B. assert (j' = j); [|lia]. apply (proj1 (NoDup_nth_error l) ND); [apply nth_error_Some; congruence|congruence].
Qed.
Lemma find_key_app l c d : In c l -> find_key (l ++ [d]) c 0 = find_key l c 0.
Proof.
  generalize 0. induction l as [|x l IH]; intros i H; [destruct H|]. cbn [app find_key].
  destruct (coord_eqb x c) eqn:E; [reflexivity|]. apply IH. destruct H as [->|H]; [|assumption].
  rewrite (proj2 (coord_eqb_eq c c) eq_refl) in E. discriminate.
Qed.

Section I.
Context {V W : Type}.
Variable w2i : W -> list Q.
Variable k : Z.
Hypothesis Hk : 0 <= k.
Variable dim : nat.
Variable n : nat.
Variable nch : Z.
Hypothesis Hnch : 0 <= nch.
Variable bg v0 : V.
Notation S := (side k).
Notation bs := (block_size k dim).
Notation op := (op V W).

Lemma bs_pos : 0 < bs.
Proof. unfold block_size. apply Z.pow_pos_nonneg; [apply side_pos; assumption|lia]. Qed.
Fixpoint base (h : list op) : V :=
  match h with [] => v0 | OReset _ _ v :: _ => v | _ :: r => base r end.
Definition cno (X : coordT) : Z := local_coord_to_offset k (cellid k X).
Lemma cno_range X : length X = dim -> 0 <= cno X < bs.
Proof. intros L. apply coord_offset; [assumption|]. rewrite <- L. apply cellid_local; assumption. Qed.
Lemma cno_det X Y : length X = dim -> length Y = dim -> bkey k X = bkey k Y -> cno X = cno Y -> X = Y.
Proof.
  intros LX LY B C. apply (X_det k Hk); [assumption|].
  assert (A : local_coord S dim (cellid k X)) by (rewrite <- LX; apply cellid_local; assumption).
  assert (A' : local_coord S dim (cellid k Y)) by (rewrite <- LY; apply cellid_local; assumption).
  destruct (coord_offset k Hk dim _ A) as [_ E]. destruct (coord_offset k Hk dim _ A') as [_ E'].
  unfold cno in C. congruence.
Qed.
Definition addr (chn b c : Z) : Z := b * bs * nch + (chn * bs + c).
Lemma addr_range chn b c : 0 <= chn < nch -> 0 <= c < bs -> b * (bs * nch) <= addr chn b c < (b + 1) * (bs * nch).
Proof. intros A B. pose proof bs_pos. unfold addr. nia. Qed.
Lemma addr_inj chn b c chn' b' c' : 0 <= chn < nch -> 0 <= c < bs -> 0 <= chn' < nch -> 0 <= c' < bs ->
  addr chn b c = addr chn' b' c' -> b = b' /\ chn = chn' /\ c = c'.
Proof.
  intros A B A' B' E. pose proof bs_pos as P. pose proof (addr_range chn b c A B) as R. pose proof (addr_range chn' b' c' A' B') as R'.
  assert (b = b') by nia. subst b'. unfold addr in E. assert (chn = chn') by nia. subst. lia.
Qed.

Record inv (h : list op) (g : grid V) : Prop := mkInv {
  iv_nch : gnch V g = nch; iv_bg : gbg V g = bg;
  iv_len : length (gbuf V g) = (n * Z.to_nat (bs * nch))%nat;
  iv_nd : NoDup (gkeys V g);
  iv_al : Forall (fun c => length c = dim /\ bkey k c = c) (gkeys V g);
  iv_act : forall X, length X = dim -> (In (bkey k X) (gkeys V g) <-> active w2i S h X);
  iv_val : forall b chn X, length X = dim -> 0 <= chn < nch -> nth_error (gkeys V g) b = Some (bkey k X) -> (b < n)%nat ->
    nth_error (gbuf V g) (Z.to_nat (addr chn (Z.of_nat b) (cno X))) = Some (content v0 h chn X);
  iv_in : forall X chn, length X = dim -> ~ In (bkey k X) (gkeys V g) -> content v0 h chn X = base h;
  iv_rest : forall a, (length (gkeys V g) * Z.to_nat (bs * nch) <= a < length (gbuf V g))%nat -> nth_error (gbuf V g) a = Some (base h) }.

Lemma decompose_eq g X : decomposeCoord V k g X = (find_key (gkeys V g) (bkey k X) 0, cno X).
Proof. unfold decomposeCoord. rewrite block_key by assumption. reflexivity. Qed.

Lemma inv_fresh : inv [] (fresh V k dim n nch bg v0).
Proof.
  constructor; cbn; try reflexivity; try constructor.
  - apply repeat_length.
  - intros [].
  - intros (x & N & [] & _).
  - intros b chn X _ _ H. destruct b; discriminate H.
  - intros a Ha. apply nth_error_repeat. rewrite repeat_length in Ha. lia.
Qed.

Lemma key_of_spec x : length (w2i x) = dim -> length (key_of W w2i k x) = dim /\ bkey k (key_of W w2i k x) = key_of W w2i k x.
Proof.
  intros L. unfold key_of. rewrite block_key by assumption. rewrite bkey_idem by assumption. split; [|reflexivity].
  rewrite bkey_length, map_length. assumption.
Qed.
Lemma active_cons x h X : length (w2i x) = dim ->
  (active w2i S (OInsert V W x :: h) X <-> key_of W w2i k x = bkey k X \/ active w2i S h X).
Proof.
  intros L. unfold active. split.
  - intros (y & N & [E|H] & NN & SB).
    + injection E as <-. left. unfold key_of. rewrite block_key by assumption. rewrite (nearest_unique _ _ NN).
      apply bkey_same; assumption.
    + right. exists y, N. auto.
  - intros [E|(y & N & H & NN & SB)].
    + exists x, (map (fun q => Qfloor (q + (1#2))%Q) (w2i x)). split; [left; reflexivity|]. split; [apply nearest_floor|].
      apply bkey_same; [assumption|]. rewrite <- E. unfold key_of. rewrite block_key by assumption. reflexivity.
    + exists y, N. split; [right; assumption|auto].
Qed.

Lemma content_insert h x chn X : content v0 (OInsert V W x :: h) chn X = content v0 h chn X.
Proof. reflexivity. Qed.

Lemma inv_insert h g x : inv h g -> length (w2i x) = dim ->
  inv (OInsert V W x :: h) (snd (insert V W w2i k g x)).
Proof.
  intros I L. destruct (key_of_spec x L) as [KL KA]. unfold insert, table_insert, table_query.
  destruct (in_dec (list_eq_dec Z.eq_dec) (key_of W w2i k x) (gkeys V g)) as [Hin|Hout].
  - destruct (find_key_in _ _ 0 (Z.le_refl 0) Hin) as (j & _ & E & _). rewrite E.
    destruct (Z.eqb_spec (0 + Z.of_nat j) sentinel_v) as [B|_]; [unfold sentinel_v in B; lia|]. cbn [snd].
    destruct I. constructor; auto.
    intros X LX. rewrite active_cons by assumption. rewrite iv_act0 by assumption. split; [auto|].
    intros [K|A]; [|assumption]. apply iv_act0; [assumption|]. rewrite <- K. assumption.
  - rewrite (find_key_notin _ _ 0 Hout), Z.eqb_refl. cbn [snd]. pose proof I as I0. destruct I. constructor; cbn; auto.
    + apply NoDup_Add with (a := key_of W w2i k x) (l := gkeys V g); [|split; assumption].
      rewrite <- (app_nil_r (gkeys V g)) at 1. apply Add_app.
    + apply Forall_app. split; [assumption|]. constructor; [auto|constructor].
    + intros X LX. rewrite active_cons by assumption. rewrite in_app_iff, iv_act0 by assumption. cbn. split.
      * intros [A|[A|[]]]; auto.
      * intros [A|A]; auto.
    + intros b chn X LX Hc Hb Hn. destruct (Nat.lt_ge_cases b (length (gkeys V g))) as [B|B].
      * rewrite nth_error_app1 in Hb by assumption. apply iv_val0; assumption.
      * assert (b = length (gkeys V g)). { assert (b < length (gkeys V g ++ [key_of W w2i k x]))%nat by (apply nth_error_Some; congruence). rewrite app_length in H; cbn in H. lia. }
        subst b. rewrite nth_error_app2, Nat.sub_diag in Hb by lia. cbn in Hb. injection Hb as Hb.
        rewrite iv_in0 by (try assumption; rewrite <- Hb; assumption).
        apply iv_rest0. pose proof (addr_range chn (Z.of_nat (length (gkeys V g))) (cno X) Hc (cno_range X LX)) as R. pose proof bs_pos.
        split.
        -- apply Nat2Z.inj_le. rewrite Z2Nat.id, Nat2Z.inj_mul, Z2Nat.id by nia. lia.
        -- apply Nat2Z.inj_lt. rewrite iv_len0, Z2Nat.id, Nat2Z.inj_mul, Z2Nat.id by nia. nia.
    + intros X chn LX NI. apply iv_in0; [assumption|]. intros G. apply NI, in_or_app. left. exact G.
    + intros a Ha. apply iv_rest0. rewrite app_length in Ha. cbn in Ha. nia.
Qed.

Lemma inv_reset h g v : inv h g -> inv (OReset V W v :: h) (reset V g v).
Proof.
  intros []. constructor; cbn; auto.
  - rewrite map_length. assumption.
  - intros X LX. rewrite iv_act0 by assumption. unfold active. split; intros (x & N & H & R); exists x, N; (split; [|exact R]).
    + right. exact H.
    + destruct H as [H|H]; [discriminate|exact H].
  - intros b chn X LX Hc Hb Hn. specialize (iv_val0 b chn X LX Hc Hb Hn).
    rewrite (map_nth_error _ _ _ iv_val0). reflexivity.
  - intros a Ha. rewrite map_length in Ha. destruct (nth_error (gbuf V g) a) eqn:E.
    + rewrite (map_nth_error _ _ _ E). reflexivity.
    + apply nth_error_None in E. lia.
Qed.

Lemma inv_set h g chn X v g' : inv h g -> 0 <= chn < nch -> length X = dim ->
  assign V k dim g chn X v = Some g' -> inv (OSet V W chn X v :: h) g'.
Proof.
  intros I Hc LX. unfold assign. rewrite decompose_eq. unfold tile_write.
  assert (TA : forall b c, tile_addr V k dim g chn b c = addr chn b c).
  { intros. unfold tile_addr, addr. rewrite (iv_nch _ _ I). reflexivity. }
  rewrite TA. pose proof (cno_range X LX) as CR. pose proof bs_pos as P.
  destruct (in_dec (list_eq_dec Z.eq_dec) (bkey k X) (gkeys V g)) as [Hin|Hout].
  2:{ rewrite (find_key_notin _ _ 0 Hout). pose proof (addr_range chn sentinel_v _ Hc CR) as R. unfold sentinel_v in *.
      destruct (Z.ltb_spec (addr chn (-1) (cno X)) 0); [discriminate|lia]. }
  destruct (find_key_in _ _ 0 (Z.le_refl 0) Hin) as (j & Hj & E & _). rewrite E. rewrite Z.add_0_l.
  pose proof (addr_range chn (Z.of_nat j) _ Hc CR) as R.
  destruct (Z.ltb_spec (addr chn (Z.of_nat j) (cno X)) 0) as [|Ha]; [discriminate|].
  destruct (upd (gbuf V g) _ v) as [b'|] eqn:U; [|discriminate]. intros Q; injection Q as <-.
  destruct I. constructor; cbn; auto.
  - rewrite (upd_length _ _ _ _ U). assumption.
  - intros Y LY. rewrite iv_act0 by assumption. unfold active. split; intros (x & N & H & R'); exists x, N; (split; [|exact R']).
    + right. exact H.
    + destruct H as [H|H]; [discriminate|exact H].
  - intros b chn' Y LY Hc' Hb Hn. pose proof (cno_range Y LY) as CR'.
    pose proof (addr_range chn' (Z.of_nat b) _ Hc' CR') as R2.
    destruct (Z.eq_dec (addr chn (Z.of_nat j) (cno X)) (addr chn' (Z.of_nat b) (cno Y))) as [EA|NA].
    + destruct (addr_inj _ _ _ _ _ _ Hc CR Hc' CR' EA) as (Eb & -> & Ec).
      apply Nat2Z.inj in Eb. subst b. assert (Y = X) by (apply cno_det; congruence). subst Y.
      rewrite (upd_nth_eq _ _ _ _ U), Z.eqb_refl. destruct (list_eq_dec Z.eq_dec X X); [reflexivity|congruence].
    + rewrite (upd_nth_neq _ _ _ _ _ U) by (intros Q; apply NA; apply Z2Nat.inj in Q; lia || nia).
      rewrite iv_val0 by assumption.
      destruct (Z.eqb_spec chn' chn) as [->|]; [|reflexivity]. destruct (list_eq_dec Z.eq_dec Y X) as [->|]; [|reflexivity].
      exfalso. apply NA. assert (j = b); [|congruence]. apply (proj1 (NoDup_nth_error (gkeys V g)) iv_nd0); [apply nth_error_Some; congruence|congruence].
  - intros Y chn' LY NI. destruct (Z.eqb_spec chn' chn) as [->|]; cbn; [|apply iv_in0; assumption].
    destruct (list_eq_dec Z.eq_dec Y X) as [->|]; [contradiction|]. apply iv_in0; assumption.
  - intros a Ha'. rewrite (upd_length _ _ _ _ U) in Ha'. rewrite (upd_nth_neq _ _ _ _ _ U); [apply iv_rest0; assumption|].
    intros Q. assert (j < length (gkeys V g))%nat by (apply nth_error_Some; congruence).
    assert (Z.of_nat a = addr chn (Z.of_nat j) (cno X)) by (rewrite <- Q, Z2Nat.id; lia).
    assert (Z.of_nat (length (gkeys V g) * Z.to_nat (bs * nch)) <= Z.of_nat a) by lia.
    rewrite Nat2Z.inj_mul, Z2Nat.id in H1 by nia. nia.
Qed.

Lemma inv_step h g o g' : inv h g -> op_ok w2i dim nch o -> step V W w2i k dim (Some g) o = Some g' -> inv (o :: h) g'.
Proof.
  intros I OK. destruct o as [x|chn X v|v]; cbn [step].
  - intros Q; injection Q as <-. apply inv_insert; assumption.
  - destruct OK as [A B]. intros Q. eapply inv_set; eassumption.
  - intros Q; injection Q as <-. apply inv_reset; assumption.
Qed.
Lemma step_none ops : fold_left (step V W w2i k dim) ops None = None.
Proof. induction ops; [reflexivity|assumption]. Qed.
Lemma inv_run ops : forall h g g', inv h g -> Forall (op_ok w2i dim nch) ops ->
  run V W w2i k dim g ops = Some g' -> inv (rev ops ++ h) g'.
Proof.
  induction ops as [|o ops IH]; intros h g g' I OK R.
  - injection R as <-. assumption.
  - inversion OK as [|? ? O1 O2]; subst. unfold run in R. cbn [fold_left] in R.
    destruct (step V W w2i k dim (Some g) o) as [g1|] eqn:E; [|rewrite step_none in R; discriminate].
    cbn [rev]. rewrite <- app_assoc. cbn [app]. apply (IH (o :: h) g1); auto. eapply inv_step; eassumption.
Qed.
End I.
