(* The arena: both constructors put the stencil around the position. *)
From Coq Require Import QArith Qround Qabs List Lia Lqa.
From Verif Require Import KernModel KernSpec KernProofs KernProofs2 KernProofs3.
Import ListNotations.
Open Scope Q_scope.

Definition radius (kt : kernel) : Q :=
  match kt with Linear | Delta2 => 1 | Quadratic | Delta3 => 3#2 | Cubic | Delta4 => 2 end.

Lemma F2_length' : forall A B (P : A -> B -> Prop) l l', Forall2 P l l' -> length l = length l'.
Proof. induction 1; cbn; congruence. Qed.

Section Arena.
Variable sq : Q -> Q.
Hypothesis R : root_like sq.

(* one dimension: base position b, position x, local offset l *)
Definition cell (kt : kernel) (l : Q) (bx : Q * Q) : Prop :=
  l == snd bx - fst bx /\ degQ kt <= l /\ l < degQ kt + 1.

Record placed (kt : kernel) (a : arena) (bases X : list Q) : Prop := {
  pl_pads : pads a = map (row_of sq kt) (iLocalPos a);
  pl_cells : Forall2 (cell kt) (iLocalPos a) (combine bases X);
  pl_len : length bases = length X;
  pl_corner : length (iCorner a) = length X }.

Lemma local_off0 : forall kt l, degQ kt <= l -> l < degQ kt + 1 -> off0 kt l == l.
Proof.
  intros kt l A B. unfold off0. rewrite (base_local (lerp_degree kt) l).
  - change (inject_Z 0) with 0. ring.
  - destruct kt; cbn [degQ lerp_degree] in *; change (Z.of_nat 0) with 0%Z; change (Z.of_nat 1) with 1%Z;
      change (Z.of_nat 2) with 2%Z; unfold inject_Z; lra.
  - destruct kt; cbn [degQ lerp_degree] in *; change (Z.of_nat 0) with 0%Z; change (Z.of_nat 1) with 1%Z;
      change (Z.of_nat 2) with 2%Z; unfold inject_Z; lra.
Qed.

Lemma placed_length : forall kt a bases X, placed kt a bases X ->
  length (iLocalPos a) = length X /\ length (pads a) = length X.
Proof.
  intros kt a bases X P. pose proof (pl_cells _ _ _ _ P) as C.
  assert (E : length (iLocalPos a) = length X).
  { rewrite (F2_length' _ _ _ _ _ C), combine_length, (pl_len _ _ _ _ P). lia. }
  split; [exact E|]. rewrite (pl_pads _ _ _ _ P), map_length. exact E.
Qed.

Lemma placed_rows : forall kt a bases X, placed kt a bases X ->
  Forall2 (fun r bx => qsum r == 1 /\ moment r (fst bx) == snd bx) (map w0s (pads a)) (combine bases X).
Proof.
  intros kt a bases X P. rewrite (pl_pads _ _ _ _ P). rewrite map_map.
  pose proof (pl_cells _ _ _ _ P) as C. induction C as [|l [b x] ls bxs [E [L U]] C IH]; cbn [map]; constructor; auto.
  cbn [fst snd] in *. split; [apply row_sum; exact R|].
  rewrite (row_moment sq R), (local_off0 kt l L U), E. ring.
Qed.

Lemma placed_drows : forall kt a bases X, has_deriv kt -> placed kt a bases X ->
  Forall2 (fun r b => qsum r == 0 /\ moment r b == 1) (map w1s (pads a)) bases.
Proof.
  intros kt a bases X D P. pose proof (placed_length _ _ _ _ P) as [L _]. pose proof (pl_len _ _ _ _ P) as LB.
  rewrite (pl_pads _ _ _ _ P), map_map. rewrite <- LB in L. clear - D L.
  revert L. generalize (iLocalPos a). induction bases as [|b bases IH]; intros [|l ls] L; try discriminate; cbn [combine map fst snd]; constructor.
  - split; [apply drow_sum; assumption|apply drow_moment; assumption].
  - apply IH. cbn in L. congruence.
Qed.

Lemma placed_good : forall kt a bases X, placed kt a bases X ->
  Forall (fun r => qsum r == 1 /\ Forall (fun w => 0 <= w) r) (map w0s (pads a)).
Proof.
  intros kt a bases X P. rewrite (pl_pads _ _ _ _ P), map_map. apply Forall_forall.
  intros r H. apply in_map_iff in H. destruct H as (l & <- & _).
  split; [apply row_sum; exact R|apply row_nonneg; exact R].
Qed.

Lemma placed_widths : forall kt a bases X, placed kt a bases X ->
  Forall (fun r => length r = width kt) (map w0s (pads a)).
Proof.
  intros kt a bases X P. rewrite (pl_pads _ _ _ _ P), map_map. apply Forall_forall.
  intros r H. apply in_map_iff in H. destruct H as (l & <- & _). apply row_length.
Qed.

Lemma isample_tsum : forall kt a bases X value, placed kt a bases X ->
  isample kt a value == tsum (map w0s (pads a)) (pad_of a value).
Proof.
  intros kt a bases X value P.
  assert (G : fold_left (fun ret off => ret + weight a off * pad_of a value off)
                   (ndrange (length (pads a)) (width kt)) 0 == tsum (map w0s (pads a)) (pad_of a value)).
  { rewrite fold_sum. rewrite <- (flat_sum _ (width kt)) by (eapply placed_widths; eauto).
    rewrite map_length. rewrite Qplus_0_l. apply qsum_ext. intros o _. rewrite weight_pr. reflexivity. }
  destruct kt; cbn [isample]; try exact G.
  clear G. rewrite xlerp_tsum. apply tsum_rows. rewrite (pl_pads _ _ _ _ P), map_map.
  pose proof (pl_cells _ _ _ _ P) as C. induction C as [|l [b x] ls bxs [E [L U]] C IH]; cbn [map]; constructor; auto.
  pose proof (local_off0 Linear l L U) as O. unfold off0 in O. cbn [lerp_degree] in O.
  cbn [row_of linear_row w0s]. constructor; [|constructor; [|constructor]].
  - rewrite O. reflexivity.
  - rewrite O. reflexivity.
Qed.

Lemma ndrange_inside : forall rows w o, Forall (fun r : list Q => length r = w) rows ->
  (In o (ndrange (length rows) w) <-> inside rows o).
Proof.
  induction rows as [|r rs IH]; intros w o H; cbn [length ndrange].
  - split.
    + intros [<-|[]]. constructor.
    + intros I. inversion I. left; reflexivity.
  - inversion H as [|? ? Hr Hrs]; subst. rewrite in_flat_map. split.
    + intros (i & Hi & Ho). apply in_map_iff in Ho. destruct Ho as (o' & <- & Ho). apply in_seq in Hi.
      constructor; [lia|]. eapply IH; eauto.
    + intros I. inversion I as [|? i ? o' Hi Ho]; subst. exists i. split; [apply in_seq; lia|].
      apply in_map. eapply IH; eauto.
Qed.

(* nodes of the stencil are near the position *)
Lemma nodes_within : forall kt a bases X o, placed kt a bases X ->
  inside (map w0s (pads a)) o -> within (radius kt) (nodes bases o) X.
Proof.
  intros kt a bases X o P I. rewrite (pl_pads _ _ _ _ P), map_map in I.
  pose proof (pl_cells _ _ _ _ P) as C. pose proof (pl_len _ _ _ _ P) as LB. clear P.
  revert C I LB. generalize (iLocalPos a) as ls. intros ls C. revert bases X o C.
  induction ls as [|l ls IH]; intros bases X o C I LB.
  - inversion C as [E|]. inversion I; subst. destruct bases, X; try discriminate. constructor.
  - destruct bases as [|b bases], X as [|x X]; try (now inversion C); try discriminate.
    cbn [combine] in C. inversion C as [|? ? ? ? [E [L U]] C']; subst.
    cbn [map] in I. inversion I as [|? i ? o' Hi Ho]; subst.
    unfold within, nodes. cbn [combine map fst snd] in *. constructor; [|apply IH; auto].
    rewrite row_length in Hi.
    assert (Hq : exists q, inject_Z (Z.of_nat i) == q /\ 0 <= q /\ q <= inject_Z (Z.of_nat (width kt) - 1)).
    { exists (inject_Z (Z.of_nat i)). split; [reflexivity|]. split.
      - change 0 with (inject_Z 0). rewrite <- Zle_Qle. lia.
      - rewrite <- Zle_Qle. lia. }
    destruct Hq as (q & Eq & Q0 & Q1). rewrite Eq.
    apply Qabs_Qle_condition.
    destruct kt; cbn [degQ radius width] in *;
      (change (inject_Z (Z.of_nat 2 - 1)) with 1 in Q1 || change (inject_Z (Z.of_nat 3 - 1)) with 2 in Q1
       || change (inject_Z (Z.of_nat 4 - 1)) with 3 in Q1); split; lra.
Qed.

Lemma affine_sample : forall kt a bases X c slope value,
  placed kt a bases X -> length slope = length X ->
  (forall o, inside (map w0s (pads a)) o -> value (coord a o) == affine c slope (nodes bases o)) ->
  isample kt a value == affine c slope X.
Proof.
  intros kt a bases X c slope value P Ls H. rewrite (isample_tsum _ _ _ _ value P).
  rewrite <- (tsum_affine (map w0s (pads a)) bases X c slope).
  - apply tsum_ext. intros o Ho. apply H. exact Ho.
  - apply (placed_rows _ _ _ _ P).
  - apply (pl_len _ _ _ _ P).
  - exact Ls.
Qed.

Lemma affine_gradient : forall kt a bases X c slope value i,
  has_deriv kt -> placed kt a bases X -> length slope = length X -> (i < length X)%nat ->
  (forall o, inside (map w0s (pads a)) o -> value (coord a o) == affine c slope (nodes bases o)) ->
  qsum (map (fun o => weightGradient a i o * value (coord a o)) (ndrange (length X) (width kt))) == nth i slope 0.
Proof.
  intros kt a bases X c slope value i D P Ls Hi H.
  pose proof (placed_length _ _ _ _ P) as [_ LP].
  assert (GL : forall rows s, length (grows i s rows) = length rows) by (induction rows; intros; cbn; auto).
  assert (GW : Forall (fun r => length r = width kt) (grows i 0 (pads a))).
  { rewrite (pl_pads _ _ _ _ P). generalize 0%nat as s. induction (iLocalPos a); intros s; cbn; constructor; auto.
    destruct (Nat.eqb i s); [apply drow_length; assumption|apply row_length]. }
  rewrite (qsum_ext _ _ (fun o => pr (grows i 0 (pads a)) o * affine c slope (nodes bases o))).
  2:{ intros o Ho. rewrite gradient_pr. rewrite H; [reflexivity|].
      eapply (ndrange_inside _ (width kt)); [eapply placed_widths; eauto|].
      rewrite map_length, LP. exact Ho. }
  rewrite <- LP, <- (GL (pads a) 0%nat).
  rewrite (flat_sum _ (width kt) _ GW).
  rewrite (tsum_gradient (pads a) bases X c slope i (placed_rows _ _ _ _ P) (placed_drows _ _ _ _ D P)
             (pl_len _ _ _ _ P) Ls 0%nat) by lia.
  rewrite Nat.sub_0_r. reflexivity.
Qed.

(* bounds *)
Lemma best_fold_min : forall l r, exists m, fold_left (best qlt) l (Some r) = Some m /\
  (m = r \/ In m l) /\ m <= r /\ forall v, In v l -> m <= v.
Proof.
  induction l as [|v l IH]; intros r; cbn [fold_left].
  - exists r. repeat split; auto; [apply Qle_refl|intros v []].
  - cbn [best]. unfold qlt at 2. destruct (Qle_bool r v) eqn:E; cbn [negb].
    + apply qle_t in E. destruct (IH r) as (m & F & M & L & A). exists m. repeat split; auto.
      * destruct M; [left; auto|right; right; auto].
      * intros w [<-|W]; [lra|auto].
    + apply qle_f in E. destruct (IH v) as (m & F & M & L & A). exists m. repeat split; auto.
      * destruct M; [right; left; auto|right; right; auto].
      * lra.
      * intros w [<-|W]; [lra|auto].
Qed.
Lemma best_fold_max : forall l r, exists m, fold_left (best (fun v r => qlt r v)) l (Some r) = Some m /\
  (m = r \/ In m l) /\ r <= m /\ forall v, In v l -> v <= m.
Proof.
  induction l as [|v l IH]; intros r; cbn [fold_left].
  - exists r. repeat split; auto; [apply Qle_refl|intros v []].
  - cbn [best]. unfold qlt at 2. destruct (Qle_bool v r) eqn:E; cbn [negb].
    + apply qle_t in E. destruct (IH r) as (m & F & M & L & A). exists m. repeat split; auto.
      * destruct M; [left; auto|right; right; auto].
      * intros w [<-|W]; [lra|auto].
    + apply qle_f in E. destruct (IH v) as (m & F & M & L & A). exists m. repeat split; auto.
      * destruct M; [right; left; auto|right; right; auto].
      * lra.
      * intros w [<-|W]; [lra|auto].
Qed.

Lemma ndrange_nonempty : forall kt n, ndrange n (width kt) <> [].
Proof.
  intros kt n H.
  assert (K : forall n, In (repeat 0%nat n) (ndrange n (width kt))).
  { clear. induction n; cbn [ndrange repeat]; [left; reflexivity|].
    apply in_flat_map. exists 0%nat. split; [apply in_seq; destruct kt; cbn; lia|]. apply in_map. exact IHn. }
  specialize (K n). rewrite H in K. exact K.
Qed.

Lemma minimum_ok : forall kt a value, exists m, minimum kt a value = Some m /\
  least (fun o => value (coord a o)) (ndrange (length (pads a)) (width kt)) m.
Proof.
  intros kt a value. unfold minimum. pose proof (ndrange_nonempty kt (length (pads a))) as N.
  destruct (ndrange (length (pads a)) (width kt)) as [|o l]; [congruence|].
  cbn [map fold_left best]. destruct (best_fold_min (map (pad_of a value) l) (pad_of a value o)) as (m & F & M & L & A).
  exists m. split; [exact F|]. split.
  - destruct M as [->|M]; [exists o; split; [left|]; reflexivity|].
    apply in_map_iff in M. destruct M as (o' & E & I). exists o'. split; [right; exact I|exact E].
  - intros o' [<-|I]; [exact L|]. apply A. apply (in_map (pad_of a value)) in I. exact I.
Qed.
Lemma maximum_ok : forall kt a value, exists m, maximum kt a value = Some m /\
  greatest (fun o => value (coord a o)) (ndrange (length (pads a)) (width kt)) m.
Proof.
  intros kt a value. unfold maximum. pose proof (ndrange_nonempty kt (length (pads a))) as N.
  destruct (ndrange (length (pads a)) (width kt)) as [|o l]; [congruence|].
  cbn [map fold_left best]. destruct (best_fold_max (map (pad_of a value) l) (pad_of a value o)) as (m & F & M & L & A).
  exists m. split; [exact F|]. split.
  - destruct M as [->|M]; [exists o; split; [left|]; reflexivity|].
    apply in_map_iff in M. destruct M as (o' & E & I). exists o'. split; [right; exact I|exact E].
  - intros o' [<-|I]; [exact L|]. apply A. apply (in_map (pad_of a value)) in I. exact I.
Qed.

Lemma sample_bounds : forall kt a bases X value m M, placed kt a bases X ->
  minimum kt a value = Some m -> maximum kt a value = Some M ->
  m <= isample kt a value /\ isample kt a value <= M.
Proof.
  intros kt a bases X value m M P Em EM.
  destruct (minimum_ok kt a value) as (m' & E1 & [_ L]). rewrite Em in E1. injection E1 as <-.
  destruct (maximum_ok kt a value) as (M' & E2 & [_ G]). rewrite EM in E2. injection E2 as <-.
  rewrite (isample_tsum _ _ _ _ value P).
  apply tsum_bounds; [eapply placed_good; eauto|].
  intros o Ho. assert (I : In o (ndrange (length (pads a)) (width kt))).
  { rewrite <- (map_length w0s). apply ndrange_inside; [eapply placed_widths; eauto|exact Ho]. }
  split; [apply L; exact I|apply G; exact I].
Qed.

(* the two constructors *)
Lemma collocated_placed : forall kt X,
  placed kt (arena_collocated sq kt X) (map inject_Z (map (base_node (lerp_degree kt)) X)) X.
Proof.
  intros kt X. constructor; cbn [arena_collocated pads iLocalPos iCorner].
  - reflexivity.
  - induction X as [|x X IH]; cbn; constructor; auto.
    unfold cell; cbn [fst snd]. pose proof (off0_range kt x) as Z. unfold off0 in Z. split; [reflexivity|exact Z].
  - rewrite !map_length. reflexivity.
  - apply map_length.
Qed.

Definition deltas (X : list Q) (f : nat) : list Q := map (face_delta (length X) f) (seq 0 (length X)).
Definition bases_of (kt : kernel) (X ds : list Q) : list Q :=
  map (fun cd => inject_Z (fst cd) + snd cd)
    (combine (map (fun xd => base_node (lerp_degree kt) (fst xd - snd xd)) (combine X ds)) ds).

Lemma staggered_placed : forall kt X f,
  placed kt (arena_staggered sq kt X f) (bases_of kt X (deltas X f)) X.
Proof.
  intros kt X f. pose proof (map_length (face_delta (length X) f) (seq 0 (length X))) as Ld.
  rewrite seq_length in Ld. fold (deltas X f) in Ld.
  constructor; cbn [arena_staggered pads iLocalPos iCorner]; fold (deltas X f); [reflexivity| | |].
  - unfold bases_of. revert Ld. generalize (deltas X f) as ds. induction X as [|x X IH]; intros [|d ds] Ld; try discriminate; cbn [combine map fst snd]; constructor.
    + unfold cell; cbn [fst snd]. pose proof (off0_range kt (x - d)) as Z. unfold off0 in Z.
      split; [reflexivity|]. destruct Z. split; lra.
    + apply IH. cbn in Ld. congruence.
  - unfold bases_of. rewrite map_length, combine_length, map_length, combine_length. lia.
  - rewrite map_length, combine_length. lia.
Qed.
End Arena.
