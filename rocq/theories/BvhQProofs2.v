From Verif Require Import Prelude BvsModel BvsSpec BvsProofs BvhSpec BvhQSpec BvhQModel BvhQProofs TileProofs.
Open Scope Z_scope.

Lemma nth_map_seq (f : nat -> Z) dim d : (d < dim)%nat -> nth d (map f (seq 0 dim)) 0 = f d.
Proof. intro H. rewrite (nth_indep _ 0 (f 0%nat)) by (rewrite map_length, seq_length; exact H). rewrite map_nth, seq_nth by exact H. reflexivity. Qed.
Lemma join_min dim x y d : (d < dim)%nat -> bmin (join dim x y) d = Z.min (Z.min (bmin x d) (bmin y d)) (bmax y d).
Proof. intro H. unfold join, merge, bmin, bmax. cbn [fst snd]. rewrite !nth_map_seq by exact H. reflexivity. Qed.
Lemma join_max dim x y d : (d < dim)%nat -> bmax (join dim x y) d = Z.max (Z.max (bmax x d) (bmin y d)) (bmax y d).
Proof. intro H. unfold join, merge, bmin, bmax. cbn [fst snd]. rewrite !nth_map_seq by exact H. reflexivity. Qed.

Section Hull.
Variable dim : nat.
Variable pb : Z -> box.
Lemma ubox_nonempty t : (forall p, In p (prims t) -> nonempty dim (pb p)) -> nonempty dim (ubox dim pb t).
Proof.
  induction t as [q|l IHl r IHr]; intro H; cbn [ubox]; [apply H; left; reflexivity|]. intros d Hd. cbn [prims] in H.
  assert (H1 : nonempty dim (ubox dim pb l)) by (apply IHl; intros; apply H, in_or_app; auto). assert (H2 : nonempty dim (ubox dim pb r)) by (apply IHr; intros; apply H, in_or_app; auto).
  specialize (H1 d Hd). specialize (H2 d Hd). change (bmin (join dim (ubox dim pb l) (ubox dim pb r)) d <= bmax (join dim (ubox dim pb l) (ubox dim pb r)) d). rewrite join_min, join_max by exact Hd. unfold bmin, bmax. lia.
Qed.
Lemma ubox_hull t : (forall p, In p (prims t) -> nonempty dim (pb p)) -> hull dim (map pb (prims t)) (ubox dim pb t).
Proof.
  induction t as [q|l IHl r IHr]; intro H; cbn [ubox prims map].
  - intros d Hd. split; [intros c [<-|[]]; lia|]. split; exists (pb q); split; auto; left; reflexivity.
  - cbn [prims] in H. assert (Hl : forall p, In p (prims l) -> nonempty dim (pb p)) by (intros; apply H, in_or_app; auto). assert (Hr : forall p, In p (prims r) -> nonempty dim (pb p)) by (intros; apply H, in_or_app; auto).
    intros d Hd. destruct (IHl Hl d Hd) as (L1 & (cl & L2 & L3) & (dl & L4 & L5)). destruct (IHr Hr d Hd) as (R1 & (cr & R2 & R3) & (dr & R4 & R5)). pose proof (ubox_nonempty l Hl d Hd) as Nl. pose proof (ubox_nonempty r Hr d Hd) as Nr.
    change (nth d (fst (join dim (ubox dim pb l) (ubox dim pb r))) 0) with (bmin (join dim (ubox dim pb l) (ubox dim pb r)) d). change (nth d (snd (join dim (ubox dim pb l) (ubox dim pb r))) 0) with (bmax (join dim (ubox dim pb l) (ubox dim pb r)) d).
    rewrite join_min, join_max by exact Hd. unfold bmin, bmax in *. rewrite map_app. split; [|split].
    + intros c Hc. apply in_app_or in Hc. destruct Hc as [Hc|Hc]; [specialize (L1 c Hc)|specialize (R1 c Hc)]; lia.
    + destruct (Z_le_gt_dec (nth d (fst (ubox dim pb l)) 0) (nth d (fst (ubox dim pb r)) 0)); [exists cl|exists cr]; (split; [apply in_or_app; auto|lia]).
    + destruct (Z_le_gt_dec (nth d (snd (ubox dim pb r)) 0) (nth d (snd (ubox dim pb l)) 0)); [exists dl|exists dr]; (split; [apply in_or_app; auto|lia]).
Qed.
End Hull.

(** a test that holds of a box holds of every box containing it *)
Definition monotone (dim : nat) (test : box -> bool) : Prop :=
  forall x y, (forall d, (d < dim)%nat -> nth d (fst y) 0 <= nth d (fst x) 0 /\ nth d (snd x) 0 <= nth d (snd y) 0) -> test x = true -> test y = true.
Lemma mono_join dim test : monotone dim test -> forall x y, test x = true \/ test y = true -> test (join dim x y) = true.
Proof.
  intros M x y [H|H]; (eapply M; [|exact H]); intros d Hd; pose proof (join_min dim x y d Hd); pose proof (join_max dim x y d Hd); unfold bmin, bmax in *; lia.
Qed.
Lemma overlaps_mono dim q : monotone dim (fun c => overlaps dim c q).
Proof.
  intros x y C H. unfold overlaps in *. rewrite forallb_forall in *. intros d Hd. specialize (H d Hd). apply in_seq in Hd. specialize (C d ltac:(lia)). unfold bmin, bmax in *. lia.
Qed.

Lemma level_of' b t pos par esc : laid b t pos par esc -> levels b pos = Some (spine t).
Proof. intro H. destruct t as [q|l r]; [apply laid_leaf in H; tauto|apply laid_node in H; tauto]. Qed.
(** ** the nearest point *)
Section Near.
Variable dim : nat.
Variable pb : Z -> box.
Variable b : bvh.
Variable p : list Z.
Notation N := (numNodes b).
Notation bd := (box_dist2 dim p).
Notation pd := (point_dist2 dim p).
Definition better (s : Z * Z) (q : Z) : Z * Z := if pd (pb q) <? snd s then (q, pd (pb q)) else s.
Lemma sum_le (f g : nat -> Z) l : (forall d, In d l -> f d <= g d) -> fold_right Z.add 0 (map f l) <= fold_right Z.add 0 (map g l).
Proof. induction l as [|a l IH]; intro H; cbn; [lia|]. pose proof (H a (or_introl eq_refl)). assert (forall d, In d l -> f d <= g d) by (intros; apply H; right; assumption). specialize (IH H1). lia. Qed.
Lemma sq_le x y : 0 <= x -> x <= y -> x * x <= y * y.
Proof. intros. apply Z.mul_le_mono_nonneg; lia. Qed.
Lemma sq_max x y : 0 <= x -> (x <= y \/ x <= - y) -> x * x <= y * y.
Proof. intros H [H1|H1]; [apply sq_le; lia|]. replace (y * y) with ((- y) * (- y)) by ring. apply sq_le; lia. Qed.
Lemma bd_join_l x y : bd (join dim x y) <= bd x.
Proof. unfold box_dist2. apply sum_le. intros d Hd. apply in_seq in Hd. cbv zeta. rewrite join_min, join_max by lia. apply sq_le; lia. Qed.
Lemma bd_join_r x y : bd (join dim x y) <= bd y.
Proof. unfold box_dist2. apply sum_le. intros d Hd. apply in_seq in Hd. cbv zeta. rewrite join_min, join_max by lia. apply sq_le; lia. Qed.
Lemma bd_pd x : nonempty dim x -> bd x <= pd x.
Proof.
  intro H. unfold box_dist2, point_dist2. apply sum_le. intros d Hd. apply in_seq in Hd. cbv zeta. specialize (H d ltac:(lia)). unfold bmin, bmax. apply sq_max; [lia|].
  destruct (Z_le_gt_dec (nth d p 0) (nth d (fst x) 0)); [right|left]; lia.
Qed.
Lemma far t s : (forall q, In q (prims t) -> nonempty dim (pb q)) -> snd s < bd (ubox dim pb t) -> fold_left better (prims t) s = s.
Proof.
  induction t as [q|l IHl r IHr]; intros Hn H; cbn [prims fold_left ubox] in *.
  - unfold better. pose proof (bd_pd (pb q) (Hn q (or_introl eq_refl))). replace (pd (pb q) <? snd s) with false by lia. reflexivity.
  - rewrite fold_left_app. pose proof (bd_join_l (ubox dim pb l) (ubox dim pb r)). pose proof (bd_join_r (ubox dim pb l) (ubox dim pb r)). rewrite IHl; [|intros; apply Hn, in_or_app; auto|lia]. apply IHr; [intros; apply Hn, in_or_app; auto|lia].
Qed.
Definition nbody (f : nat) (lv : nat) (node d i : Z) : option (Z * Z) :=
  ln <-? descend_near b dim p d lv node ;;
  match fst ln with
  | O => bx <-? bvs b (snd ln) ;; if pd bx <? d then q <-? aux b (snd ln) ;; near_loop b dim p f (snd ln + 1) (pd bx) q else near_loop b dim p f (snd ln + 1) d i
  | S _ => nx <-? aux b (snd ln) ;; near_loop b dim p f nx d i
  end.
Lemma near_S f node lv d i : node <> -1 -> node <> N -> levels b node = Some lv -> 0 <= lv -> near_loop b dim p (S f) node d i = nbody f (Z.to_nat lv) node d i.
Proof.
  intros H1 H2 E H. cbn [near_loop]. replace (node =? -1) with false by lia. replace (node =? N) with false by lia. cbn [orb]. rewrite E. cbn [obind]. replace (lv <? 0) with false by lia. reflexivity.
Qed.
Lemma near_mono f : forall node d i out, near_loop b dim p f node d i = Some out -> near_loop b dim p (S f) node d i = Some out.
Proof.
  induction f as [|f IH]; intros node d i out E; [discriminate|]. cbn [near_loop] in E. remember (S f) as f' eqn:Ef. cbn [near_loop]. subst f'. destruct ((node =? -1) || (node =? N)); [exact E|].
  destruct (levels b node) as [lv|]; [|discriminate]. cbn [obind] in *. destruct (lv <? 0); [discriminate|]. destruct (descend_near b dim p d (Z.to_nat lv) node) as [[l nd]|]; [|discriminate]. cbn [obind fst snd] in *. destruct l as [|l].
  - destruct (bvs b nd) as [bx|]; [|discriminate]. cbn [obind] in *. destruct (pd bx <? d); [|apply IH; exact E]. destruct (aux b nd) as [q|]; [|discriminate]. cbn [obind] in *. apply IH. exact E.
  - destruct (aux b nd) as [nx|]; [|discriminate]. cbn [obind] in *. apply IH. exact E.
Qed.
Lemma near_mono' f g node d i out : (f <= g)%nat -> near_loop b dim p f node d i = Some out -> near_loop b dim p g node d i = Some out.
Proof. induction 1; auto using near_mono. Qed.
Lemma near_end f node d i : (0 < f)%nat -> node = -1 \/ node = N -> near_loop b dim p f node d i = Some (i, d).
Proof. destruct f as [|f]; [lia|]. intros _ H. cbn [near_loop]. replace ((node =? -1) || (node =? N)) with true by lia. reflexivity. Qed.
Lemma nbody_ok t : (forall q, In q (prims t) -> nonempty dim (pb q)) -> forall pos par esc f K, laid b t pos par esc -> boxed dim pb b t pos par esc -> (esc = pos + size t \/ (esc = -1 /\ pos + size t = N)) ->
  0 <= pos -> pos + size t <= N -> (0 < f)%nat -> (forall d i, near_loop b dim p f (pos + size t) d i = Some (K (i, d))) ->
  forall d i, nbody (f + Z.to_nat (size t)) (Z.to_nat (spine t)) pos d i = Some (K (fold_left better (prims t) (i, d))).
Proof.
  induction t as [q|l IHl r IHr]; intros Hn pos par esc f K HL HB HE H1 H2 Hf HW d i.
  - apply laid_leaf in HL. apply boxed_leaf in HB. destruct HL as (_ & HA & _). unfold nbody. cbn [spine]. change (Z.to_nat 0) with 0%nat. cbn [descend_near obind fst snd]. rewrite HB. cbn [obind].
    cbn [size prims fold_left] in *. unfold better. cbn [snd]. assert (HW' : forall d i, near_loop b dim p (f + Z.to_nat 1) (pos + 1) d i = Some (K (i, d))) by (intros; apply near_mono' with (f := f); [lia|apply HW]).
    destruct (pd (pb q) <? d); [rewrite HA; cbn [obind]|]; apply HW'.
  - apply laid_node in HL. destruct HL as ((HLv & HAx & _) & HLl & HLr). apply boxed_node in HB. destruct HB as (HB & HBl & HBr). pose proof (size_pos l) as Sl. pose proof (size_pos r) as Sr. pose proof (spine_nonneg l) as Pl. pose proof (spine_nonneg r) as Pr. cbn [size] in *.
    cbn [spine]. replace (Z.to_nat (1 + spine l)) with (S (Z.to_nat (spine l))) by lia.
    destruct (d <? bd (ubox dim pb (Node l r))) eqn:Et.
    + assert (X : nbody (f + Z.to_nat (1 + size l + size r)) (S (Z.to_nat (spine l))) pos d i = near_loop b dim p (f + Z.to_nat (1 + size l + size r)) esc d i).
      { unfold nbody. cbn [descend_near]. rewrite HB. cbn [obind]. rewrite Et. cbn [obind fst snd]. rewrite HAx. reflexivity. }
      rewrite X, (far (Node l r) (i, d) Hn) by (cbn [snd]; lia). destruct HE as [HE|[HE1 HE2]].
      * rewrite HE. apply near_mono' with (f := f); [lia|apply HW].
      * rewrite <- (HW d i). rewrite !near_end by (auto || lia). reflexivity.
    + assert (X : nbody (f + Z.to_nat (1 + size l + size r)) (S (Z.to_nat (spine l))) pos d i = nbody (f + Z.to_nat (1 + size l + size r)) (Z.to_nat (spine l)) (pos + 1) d i).
      { unfold nbody. cbn [descend_near]. rewrite HB. cbn [obind]. rewrite Et. reflexivity. }
      rewrite X. clear X. replace (f + Z.to_nat (1 + size l + size r))%nat with ((S (f + Z.to_nat (size r))) + Z.to_nat (size l))%nat by lia.
      cbn [prims]. rewrite fold_left_app. cbn [prims] in Hn. eapply (IHl ltac:(intros; apply Hn, in_or_app; auto) (pos + 1) pos (pos + 1 + size l) (S (f + Z.to_nat (size r))) (fun s => K (fold_left better (prims r) s))); [exact HLl|exact HBl|left; reflexivity|lia|lia|lia|].
      assert (ELr : levels b (pos + 1 + size l) = Some (spine r)) by (eapply level_of'; exact HLr). intros d' i'.
      rewrite (near_S _ _ (spine r)); [|lia|lia|exact ELr|exact Pr].
      eapply (IHr ltac:(intros; apply Hn, in_or_app; auto)); [exact HLr|exact HBr|destruct HE as [HE|HE]; [left; lia|right; lia]|lia|lia|exact Hf|]. intros. replace (pos + 1 + size l + size r) with (pos + (1 + size l + size r)) by lia. apply HW.
Qed.
End Near.

(** ** the front *)
Section Front.
Variable dim : nat.
Variable pb : Z -> box.
Variable b : bvh.
Variable test : box -> bool.
Hypothesis mono : forall x y, test x = true \/ test y = true -> test (join dim x y) = true.
Variable ed : Z.
Notation N := (numNodes b).
Fixpoint cut (t : tree) (pos par esc : Z) : list (tree * Z) :=
  match t with
  | Leaf q => [(t, pos)]
  | Node l r => if test (ubox dim pb t) then cut l (pos + 1) pos (pos + 1 + size l) ++ cut r (pos + 1 + size l) pos esc else [(t, pos)]
  end.
Lemma cut_sub t : forall pos par esc c x, In (c, x) (cut t pos par esc) -> (exists p e, sub t pos par esc c x p e) /\ ((exists q, c = Leaf q) \/ test (ubox dim pb c) = false).
Proof.
  induction t as [q|l IHl r IHr]; intros pos par esc c x H; cbn [cut] in H.
  - destruct H as [E|[]]. injection E as <- <-. split; [do 2 eexists; constructor|left; eauto].
  - destruct (test (ubox dim pb (Node l r))) eqn:E.
    + apply in_app_or in H. destruct H as [H|H]; [destruct (IHl _ _ _ _ _ H) as [(p & e & X) Y]|destruct (IHr _ _ _ _ _ H) as [(p & e & X) Y]]; (split; [exists p, e|exact Y]); [apply sub_left|apply sub_right]; exact X.
    + destruct H as [X|[]]. injection X as <- <-. split; [do 2 eexists; constructor|right; exact E].
Qed.
Lemma cut_prims t : forall pos par esc, flat_map (fun c => prims (fst c)) (cut t pos par esc) = prims t.
Proof. induction t as [q|l IHl r IHr]; intros pos par esc; cbn [cut]; [reflexivity|]. destruct (test _); [rewrite flat_map_app, IHl, IHr; reflexivity|cbn; apply app_nil_r]. Qed.
Definition fbody (f : nat) (lv : nat) (node : Z) : option (list Z * list Z) :=
  ln <-? descend b test lv node ;;
  match fst ln with
  | O =>
    h <-? hit b test (snd ln) ;;
    if h then p <-? aux b (snd ln) ;; r <-? walk_front b test f ed (snd ln + 1) ;; Some (p :: fst r, snd ln :: snd r)
    else r <-? walk_front b test f ed (snd ln + 1) ;; Some (fst r, snd ln :: snd r)
  | S _ => nx <-? aux b (snd ln) ;; r <-? walk_front b test f ed nx ;; Some (fst r, snd ln :: snd r)
  end.
Lemma front_S f node lv : node <> ed -> node <> N -> levels b node = Some lv -> 0 <= lv -> walk_front b test (S f) ed node = fbody f (Z.to_nat lv) node.
Proof.
  intros H1 H2 E H. cbn [walk_front]. replace (node =? ed) with false by lia. replace (node =? N) with false by lia. cbn [orb]. rewrite E. cbn [obind]. replace (lv <? 0) with false by lia. reflexivity.
Qed.
Lemma front_mono f : forall node out, walk_front b test f ed node = Some out -> walk_front b test (S f) ed node = Some out.
Proof.
  induction f as [|f IH]; intros node out E; [discriminate|]. cbn [walk_front] in E. remember (S f) as f' eqn:Ef. cbn [walk_front]. subst f'. destruct ((node =? ed) || (node =? N)); [exact E|].
  destruct (levels b node) as [lv|]; [|discriminate]. cbn [obind] in *. destruct (lv <? 0); [discriminate|]. destruct (descend b test (Z.to_nat lv) node) as [[l nd]|]; [|discriminate]. cbn [obind fst snd] in *. destruct l as [|l].
  - destruct (hit b test nd) as [[]|]; [| |discriminate]; cbn [obind] in *.
    + destruct (aux b nd) as [q|]; [|discriminate]. cbn [obind] in *. destruct (walk_front b test f ed (nd + 1)) as [r|] eqn:Er; [|discriminate]. rewrite (IH _ _ Er). exact E.
    + destruct (walk_front b test f ed (nd + 1)) as [r|] eqn:Er; [|discriminate]. rewrite (IH _ _ Er). exact E.
  - destruct (aux b nd) as [nx|]; [|discriminate]. cbn [obind] in *. destruct (walk_front b test f ed nx) as [r|] eqn:Er; [|discriminate]. rewrite (IH _ _ Er). exact E.
Qed.
Lemma front_mono' f g node out : (f <= g)%nat -> walk_front b test f ed node = Some out -> walk_front b test g ed node = Some out.
Proof. induction 1; auto using front_mono. Qed.
Lemma front_end f node : (0 < f)%nat -> node = ed \/ node = N -> walk_front b test f ed node = Some ([], []).
Proof. destruct f as [|f]; [lia|]. intros _ H. cbn [walk_front]. replace ((node =? ed) || (node =? N)) with true by lia. reflexivity. Qed.
Lemma fbody_ok t : forall pos par esc f out fr, laid b t pos par esc -> boxed dim pb b t pos par esc -> (esc = pos + size t \/ (esc = ed /\ pos + size t = N)) ->
  (ed < pos \/ pos + size t <= ed) -> pos + size t <= N -> (0 < f)%nat -> walk_front b test f ed (pos + size t) = Some (out, fr) ->
  fbody (f + Z.to_nat (size t)) (Z.to_nat (spine t)) pos = Some (hits pb test t ++ out, map snd (cut t pos par esc) ++ fr).
Proof.
  induction t as [q|l IHl r IHr]; intros pos par esc f out fr HL HB HE H1 H2 Hf HW.
  - apply laid_leaf in HL. apply boxed_leaf in HB. destruct HL as (_ & HA & _). unfold fbody. cbn [spine]. change (Z.to_nat 0) with 0%nat. cbn [descend obind fst snd]. unfold hit. rewrite HB. cbn [obind].
    cbn [size] in *. assert (HW' : walk_front b test (f + Z.to_nat 1) ed (pos + 1) = Some (out, fr)) by (apply front_mono' with (f := f); [lia|exact HW]).
    unfold hits. cbn [prims filter cut map snd app]. destruct (test (pb q)); cbn [app]; [rewrite HA; cbn [obind]|]; rewrite HW'; reflexivity.
  - apply laid_node in HL. destruct HL as ((HLv & HAx & _) & HLl & HLr). apply boxed_node in HB. destruct HB as (HB & HBl & HBr). pose proof (size_pos l) as Sl. pose proof (size_pos r) as Sr. pose proof (spine_nonneg l) as Pl. pose proof (spine_nonneg r) as Pr. cbn [size] in *.
    cbn [spine]. replace (Z.to_nat (1 + spine l)) with (S (Z.to_nat (spine l))) by lia. cbn [cut].
    destruct (test (ubox dim pb (Node l r))) eqn:Et.
    + assert (X : fbody (f + Z.to_nat (1 + size l + size r)) (S (Z.to_nat (spine l))) pos = fbody (f + Z.to_nat (1 + size l + size r)) (Z.to_nat (spine l)) (pos + 1)).
      { unfold fbody. cbn [descend]. unfold hit at 1. rewrite HB. cbn [obind]. rewrite Et. reflexivity. }
      rewrite X. clear X. replace (f + Z.to_nat (1 + size l + size r))%nat with ((S (f + Z.to_nat (size r))) + Z.to_nat (size l))%nat by lia.
      unfold hits. cbn [prims]. rewrite filter_app, <- app_assoc, map_app, <- app_assoc. eapply IHl; [exact HLl|exact HBl|left; reflexivity|lia|lia|lia|].
      assert (ELr : levels b (pos + 1 + size l) = Some (spine r)) by (eapply level_of'; exact HLr).
      rewrite (front_S _ _ (spine r)); [|lia|lia|exact ELr|exact Pr].
      eapply IHr; [exact HLr|exact HBr|destruct HE as [HE|HE]; [left; lia|right; lia]|lia|lia|exact Hf|]. rewrite <- HW. f_equal. lia.
    + assert (X : fbody (f + Z.to_nat (1 + size l + size r)) (S (Z.to_nat (spine l))) pos = obind (walk_front b test (f + Z.to_nat (1 + size l + size r)) ed esc) (fun r => Some (fst r, pos :: snd r))).
      { unfold fbody. cbn [descend]. unfold hit at 1. rewrite HB. cbn [obind]. rewrite Et. cbn [obind fst snd]. rewrite HAx. reflexivity. }
      rewrite X, (test_ubox dim pb test mono _ Et). cbn [app map snd]. destruct HE as [HE|[HE1 HE2]].
      * rewrite HE. rewrite (front_mono' f _ _ (out, fr)); [reflexivity|lia|exact HW].
      * rewrite front_end in HW by auto. injection HW as <- <-. rewrite front_end by (auto || lia). reflexivity.
Qed.
Lemma front_ok t pos par esc f out fr : laid b t pos par esc -> boxed dim pb b t pos par esc -> (esc = pos + size t \/ (esc = ed /\ pos + size t = N)) ->
  (ed < pos \/ pos + size t <= ed) -> pos + size t <= N -> (0 < f)%nat -> walk_front b test f ed (pos + size t) = Some (out, fr) ->
  walk_front b test (S (f + Z.to_nat (size t))) ed pos = Some (hits pb test t ++ out, map snd (cut t pos par esc) ++ fr).
Proof.
  intros HL HB HE H1 H2 Hf HW. pose proof (size_pos t). rewrite (front_S _ _ (spine t)); [|lia|lia|eapply level_of'; exact HL|apply spine_nonneg]. eapply fbody_ok; eassumption.
Qed.
End Front.

(** ** pairs *)
Section Pairs.
Variable ov : nat -> nat -> bool.
Fixpoint pairs (l : list nat) : list (nat * nat) := match l with [] => [] | x :: r => map (pair x) (filter (ov x) r) ++ pairs r end.
Lemma pairs_in l : forall i j, In (i, j) (pairs l) -> In i l /\ In j l /\ ov i j = true.
Proof.
  induction l as [|x l IH]; intros i j H; [destruct H|]. cbn [pairs] in H. apply in_app_or in H. destruct H as [H|H].
  - apply in_map_iff in H. destruct H as (y & E & H). injection E as <- <-. apply filter_In in H. split; [left; reflexivity|]. split; [right; tauto|tauto].
  - destruct (IH _ _ H) as (A & B & C). split; [right; exact A|]. split; [right; exact B|exact C].
Qed.
Lemma pairs_nodup l : NoDup l -> NoDup (pairs l).
Proof.
  induction 1 as [|x l Hx Hl IH]; cbn [pairs]; [constructor|]. apply NoDup_app'; [apply FinFun.Injective_map_NoDup; [intros a c E; congruence|apply NoDup_filter; exact Hl]|exact IH|].
  intros [i j] H H'. apply in_map_iff in H. destruct H as (y & E & _). injection E as <- <-. apply pairs_in in H'. tauto.
Qed.
Lemma pairs_irr l : NoDup l -> forall i, ~ In (i, i) (pairs l).
Proof.
  induction 1 as [|x l Hx Hl IH]; intros i H; [destruct H|]. cbn [pairs] in H. apply in_app_or in H. destruct H as [H|H]; [|exact (IH _ H)].
  apply in_map_iff in H. destruct H as (y & E & H). injection E as <- <-. apply filter_In in H. tauto.
Qed.
Lemma pairs_once l : NoDup l -> forall i j, In i l -> In j l -> i <> j -> ov i j = true -> ov j i = true -> (In (i, j) (pairs l) /\ ~ In (j, i) (pairs l)) \/ (In (j, i) (pairs l) /\ ~ In (i, j) (pairs l)).
Proof.
  induction 1 as [|x l Hx Hl IH]; intros i j Hi Hj N O O'; [destruct Hi|]. cbn [pairs].
  assert (HD : forall y z, y <> x -> z = x -> ~ In (y, z) (map (pair x) (filter (ov x) l) ++ pairs l)).
  { intros y z Ny -> H. apply in_app_or in H. destruct H as [H|H]; [apply in_map_iff in H; destruct H as (w & E & _); congruence|apply pairs_in in H; tauto]. }
  destruct Hi as [<-|Hi]; destruct Hj as [<-|Hj]; [congruence| | |].
  - left. split; [|apply HD; [congruence|reflexivity]]. apply in_or_app. left. apply in_map, filter_In. auto.
  - right. split; [|apply HD; [congruence|reflexivity]]. apply in_or_app. left. apply in_map, filter_In. auto.
  - assert (A : forall y z, In y l -> (In (y, z) (map (pair x) (filter (ov x) l) ++ pairs l) <-> In (y, z) (pairs l))).
    { intros y z Hy. rewrite in_app_iff. split; [|auto]. intros [H|H]; [|exact H]. apply in_map_iff in H. destruct H as (w & E & _). injection E as -> _. contradiction. }
    rewrite !A by assumption. apply IH; assumption.
Qed.
End Pairs.
