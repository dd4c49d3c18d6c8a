From Coq Require Import ZArith List Arith Lia Permutation.
From Verif Require Import IdxModel IdxSpec IdxProofs IdxProps TvModel TvSpec.
Import ListNotations.
Open Scope Z_scope.

Lemma rowmajor_radix ns : forall a, rowmajor ns a = radix ns a.
Proof. induction ns as [|n ns IH]; intros [|x a]; cbn; [reflexivity..|]. now rewrite IH. Qed.

Lemma plus_combine : forall b c, map (fun p => fst p + snd p) (combine b c) = plus b c.
Proof. induction b as [|x b IH]; intros [|y c]; cbn; [reflexivity..|]. now rewrite IH. Qed.

Lemma bases_cons n ns : map (fun i => excl_suffix_mul (Z.of_nat i) (n :: ns)) (seq 0 (length (n :: ns))) =
  product ns :: map (fun i => excl_suffix_mul (Z.of_nat i) ns) (seq 0 (length ns)).
Proof.
  cbn [length seq map]. f_equal; [rewrite (suffix_mul_skipn 0); reflexivity|].
  rewrite <- seq_shift, map_map. apply map_ext. intros i. now rewrite !suffix_mul_skipn.
Qed.

Lemma product_pos ns : Forall (fun n => 0 < n) ns -> 0 < product ns.
Proof. induction 1; cbn; [lia|]. fold (product l). nia. Qed.

Lemma index_pos ns a : index ns a -> Forall (fun n => 0 < n) ns.
Proof. induction 1; constructor; [lia|assumption]. Qed.

Lemma itc_rowmajor ns a : index ns a -> index_to_coord (rowmajor ns a) ns = a.
Proof.
  unfold index_to_coord. induction 1 as [|n x ns a H F IH]; [reflexivity|].
  rewrite bases_cons. cbn [rowmajor peel].
  pose proof (radix_range ns a F) as R. rewrite <- rowmajor_radix in R.
  assert (E : (x * product ns + rowmajor ns a) / product ns = x).
  { symmetry. apply (Z.div_unique _ _ _ (rowmajor ns a)); lia. }
  rewrite E. f_equal. replace (x * product ns + rowmajor ns a - product ns * x) with (rowmajor ns a) by lia. exact IH.
Qed.

Lemma itc_spec ns k : Forall (fun n => 0 < n) ns -> 0 <= k < product ns ->
  index ns (index_to_coord k ns) /\ rowmajor ns (index_to_coord k ns) = k.
Proof.
  intros P K. destruct (radix_onto ns k) as (a & A & <-); [eapply Forall_impl; [|exact P]; cbn; lia|exact K|].
  rewrite <- rowmajor_radix, itc_rowmajor by exact A. auto.
Qed.

Lemma index_mono ns ms a : Forall2 (fun n m => 0 < n <= m) ns ms -> index ns a -> index ms a.
Proof. intros H. revert a. induction H; intros a A; inversion A; subst; constructor; [lia|now apply IHForall2]. Qed.

Lemma coord_within v c : length c = length (v_ext v) -> coord v c = Some (within v c).
Proof. intros E. unfold coord, within. rewrite E, Nat.eqb_refl, plus_combine. reflexivity. Qed.

Lemma plus_repeat : forall c, plus (repeat 0 (length c)) c = c.
Proof. induction c as [|x c IH]; cbn; [reflexivity|]. now rewrite IH. Qed.

(** Full subscripting of a view *)
Lemma v_chain_full t : forall c v, v_ext v <> [] -> length (v_base v) = length (v_ext v) -> length c = length (v_ext v) ->
  v_chain t (Sub v) c = Some (Ref (t_call t (within v c))).
Proof.
  induction c as [|i c IH]; intros v N B E; [destruct (v_ext v); [congruence|discriminate]|].
  cbn [v_chain]. unfold v_at. destruct (v_ext v) as [|n r] eqn:X; [congruence|]. destruct r as [|m r].
  - destruct c; [|discriminate]. rewrite coord_within by (rewrite X; reflexivity). reflexivity.
  - destruct (v_base v) as [|b0 bs] eqn:Y; [discriminate|]. cbn [nth tl].
    rewrite IH; cbn [v_ext v_base]; [|discriminate|cbn in B |- *; lia|cbn in E |- *; lia].
    unfold within. cbn [v_pre v_base]. rewrite Y. cbn [plus]. rewrite <- app_assoc. cbn [app]. now rewrite (Z.add_comm i).
Qed.

(** Partial subscripting of a view *)
Lemma v_chain_part t : forall a v, (length a < length (v_ext v))%nat -> length (v_base v) = length (v_ext v) ->
  exists w, v_chain t (Sub v) a = Some (Sub w) /\ v_ext w = skipn (length a) (v_ext v) /\ length (v_base w) = length (v_ext w) /\
    length (v_pre w) = (length (v_pre v) + length a)%nat /\
    forall c, within w c = within v (a ++ c).
Proof.
  induction a as [|i a IH]; intros v L B.
  - exists v. cbn. split; [reflexivity|]. split; [reflexivity|]. split; [exact B|]. split; [lia|reflexivity].
  - cbn [v_chain]. unfold v_at. destruct (v_ext v) as [|n [|m r]] eqn:X; [cbn in L; lia|cbn in L; lia|].
    destruct (v_base v) as [|b0 bs] eqn:Y; [discriminate|]. cbn [nth tl].
    destruct (IH (Vw (m :: r) (v_pre v ++ [i + b0]) bs)) as (w & W1 & W2 & W3 & W4 & W5).
    + cbn in L |- *. lia.
    + cbn in B |- *. lia.
    + exists w. split; [exact W1|]. split; [exact W2|]. split; [exact W3|]. split; [rewrite W4; cbn [v_pre]; rewrite app_length; cbn; lia|].
      intros c. rewrite W5. unfold within. cbn [v_pre v_base]. rewrite Y. cbn [app plus]. rewrite <- app_assoc. cbn [app]. now rewrite (Z.add_comm i).
Qed.
