(** The build kernels compute the pre-order layout. *)
From Verif Require Import Prelude BvhModel BvhBits BvhTopo BvhTree BvhFacts.
Open Scope Z_scope.

Definition runs {A} (k : M A) (m : mem) (Q : A -> mem -> Prop) : Prop := match k m with Some (x, m') => Q x m' | None => False end.
Lemma runs_bind {A B} (k : M A) (f : A -> M B) m (Q : B -> mem -> Prop) : runs k m (fun x m' => runs (f x) m' Q) -> runs (bind k f) m Q.
Proof. unfold runs, bind. destruct (k m) as [[x m']|]; auto. Qed.
Lemma runs_ret {A} (x : A) m (Q : A -> mem -> Prop) : Q x m -> runs (ret x) m Q.
Proof. auto. Qed.
Lemma runs_lift {A} (o : option A) x m (Q : A -> mem -> Prop) : o = Some x -> Q x m -> runs (lift o) m Q.
Proof. intros -> H. exact H. Qed.
Lemma runs_mono {A} (k : M A) m (Q R : A -> mem -> Prop) : runs k m Q -> (forall x m', Q x m' -> R x m') -> runs k m R.
Proof. unfold runs. destruct (k m) as [[x m']|]; auto. Qed.
Lemma arr_eqb_eq a b : arr_eqb a b = true <-> a = b.
Proof. destruct a, b; cbn; split; intro; congruence. Qed.
Lemma put_same m a i v : put m a i v a i = Some v.
Proof. unfold put. rewrite (proj2 (arr_eqb_eq a a) eq_refl), Z.eqb_refl. reflexivity. Qed.
Lemma put_cases m a i v b j : (b = a /\ j = i /\ put m a i v b j = Some v) \/ ((b <> a \/ j <> i) /\ put m a i v b j = m b j).
Proof.
  unfold put. destruct (arr_eqb b a) eqn:E; cbn [andb].
  - apply arr_eqb_eq in E. destruct (Z.eqb_spec j i) as [e|e]; auto.
  - right. split; [left; intro X; apply arr_eqb_eq in X; congruence|reflexivity].
Qed.

Section Build.
Variables mcs inds : list Z.
Notation n := (BvhModel.n mcs).
Hypothesis big : 1 < n.
Hypothesis rng : forall i, 0 <= i < n -> 0 <= cf mcs i < 2 ^ 32.
Hypothesis srt : forall i j, 0 <= i -> i <= j -> j < n -> cf mcs i <= cf mcs j.
Hypothesis leni : length inds = length mcs.
Variable T : ktree.
Hypothesis sh : shape mcs false 0 (n - 1) T.
Notation L := (BvhFacts.L mcs T).
Notation root := (BvhFacts.root mcs T).
Notation depth := (BvhFacts.depth T).
Notation off := (BvhFacts.off T).

Definition top (a : nd) : Z := last (nch a) (ni a + (n - 1)).
(** final contents *)
Definition G (a : arr) (x v : Z) : Prop :=
  match a with
  | LDepths => False
  | TLcs | TRcs => 0 <= x < n - 1
  | PInds => 0 <= x < n /\ at_ inds x = Some v
  | LOffsets => 0 <= x <= n /\ v = off x
  | LPars => exists c, In c L /\ ni c = nj c /\ x = ni c /\ v = npar c
  | LLcas => exists c, In c L /\ ni c = nj c /\ x = ni c /\ v = top c
  | LInds => exists c, In c L /\ ni c = nj c /\ x = ni c /\ v = nB c
  | TPars => exists c, In c L /\ ni c < nj c /\ x = nlab c /\ v = npar c
  | TLs => exists c, In c L /\ ni c < nj c /\ x = nlab c /\ v = ni c
  | TRs => exists c, In c L /\ ni c < nj c /\ x = nlab c /\ v = nj c
  | TDst => exists c, In c L /\ ni c < nj c /\ x = nlab c /\ v = nB c
  | Levels => exists c, In c L /\ x = nB c /\ v = kspine (nt c)
  | Parents => exists c, In c L /\ x = nB c /\ v = nppos c
  | Aux => exists c, In c L /\ x = nB c /\ ((ni c = nj c /\ at_ inds (ni c) = Some v) \/ (ni c < nj c /\ v = nesc c))
  end.
Lemma G_inb a x v : G a x v -> inb mcs a x = true.
Proof.
  unfold inb, asize, numTrunk.
  destruct a; cbn [G]; intro H; try contradiction; try lia;
    try (destruct H as (c & Hc & E & -> & _); pose proof (L_in mcs T sh c Hc); try (pose proof (L_lab mcs big T sh c Hc E)); lia);
    try (destruct H as (c & Hc & -> & _); pose proof (L_in mcs T sh c Hc); pose proof (ksize_pos (nt c)); lia).
Qed.
Lemma G_fun a x v w : a <> TLcs -> a <> TRcs -> G a x v -> G a x w -> v = w.
Proof.
  intros N1 N2. destruct a; cbn [G]; intros H1 H2; try contradiction; try congruence; try (destruct H1, H2; congruence);
    try (destruct H1 as (c & C1 & C2 & C3 & ->), H2 as (d & D1 & D2 & D3 & ->);
         first [rewrite (uniq_leaf' mcs T sh c d C1 D1 C2 D2 ltac:(congruence)) | rewrite (uniq_lab' mcs T sh c d C1 D1 C2 D2 ltac:(congruence))]; reflexivity);
    try (destruct H1 as (c & C1 & C3 & ->), H2 as (d & D1 & D3 & ->); rewrite (uniq_pos' mcs T sh c d C1 D1 ltac:(congruence)); reflexivity).
  destruct H1 as (c & C1 & C3 & X), H2 as (d & D1 & D3 & Y). pose proof (uniq_pos' mcs T sh c d C1 D1 ltac:(congruence)). subst d.
  destruct X as [[X1 X2]|[X1 X2]], Y as [[Y1 Y2]|[Y1 Y2]]; try lia; congruence.
Qed.

Record St (D : arr -> Z -> Prop) (P : (Z -> option Z) -> Prop) (m : mem) : Prop :=
  { st_g : forall a x v, a <> LDepths -> m a x = Some v -> G a x v; st_d : forall a x, D a x -> m a x <> None; st_p : P (m LDepths) }.
Definition add (D : arr -> Z -> Prop) (b : arr) (y : Z) : arr -> Z -> Prop := fun a x => D a x \/ (a = b /\ x = y).
Lemma St_mono D (D' : arr -> Z -> Prop) P (Q : _ -> Prop) m : St D P m -> (forall a x, D' a x -> D a x) -> (forall f, P f -> Q f) -> St D' Q m.
Proof. intros [A B C] H1 H2. constructor; auto. Qed.
Lemma runs_wr (D : arr -> Z -> Prop) (P : _ -> Prop) m a x v (R : unit -> mem -> Prop) : St D P m -> a <> LDepths -> G a x v -> (forall f g, (forall y, f y = g y) -> P f -> P g) -> (forall m', St (add D a x) P m' -> R tt m') -> runs (wr mcs a x v) m R.
Proof.
  intros [A B C] Ha Hg HP HR. unfold runs, wr. rewrite (G_inb _ _ _ Hg). apply HR. constructor.
  - intros b y w Hb E. destruct (put_cases m a x v b y) as [(-> & -> & X)|(_ & X)]; rewrite X in E; [injection E as <-; exact Hg|exact (A b y w Hb E)].
  - intros b y Hd. destruct (put_cases m a x v b y) as [(_ & _ & X)|(Y & X)]; rewrite X; [discriminate|]. destruct Hd as [Hd|[-> ->]]; [exact (B b y Hd)|]. destruct Y; congruence.
  - eapply HP; [|exact C]. intro y. destruct (put_cases m a x v LDepths y) as [(Y & _)|(_ & X)]; [congruence|auto].
Qed.
Lemma runs_rd (D : arr -> Z -> Prop) P m a x v (R : Z -> mem -> Prop) : St D P m -> a <> TLcs -> a <> TRcs -> D a x -> G a x v -> R v m -> runs (rd mcs a x) m R.
Proof.
  intros [A B C] N1 N2 Hd Hg HR. unfold runs, rd. rewrite (G_inb _ _ _ Hg). destruct (m a x) as [w|] eqn:E; [|exact (B a x Hd E)].
  assert (a <> LDepths) by (intros ->; exact Hg). rewrite <- (G_fun a x v w N1 N2 Hg) in * by (apply A; auto). exact HR.
Qed.
Lemma runs_rd_any (D : arr -> Z -> Prop) P m a x (R : Z -> mem -> Prop) : St D P m -> a <> LDepths -> D a x -> (forall v, R v m) -> runs (rd mcs a x) m R.
Proof.
  intros [A B C] N1 Hd HR. unfold runs, rd. destruct (m a x) as [w|] eqn:E; [|destruct (B a x Hd E)]. rewrite (G_inb _ _ _ (A _ _ _ N1 E)). apply HR.
Qed.
Lemma runs_rd_depth (D : arr -> Z -> Prop) P m x v (R : Z -> mem -> Prop) : St D P m -> 0 <= x <= n -> (forall f, P f -> f x = Some v) -> R v m -> runs (rd mcs LDepths x) m R.
Proof.
  intros [A B C] N1 Hd HR. unfold runs, rd. rewrite (Hd _ C). unfold inb, asize. replace ((0 <=? x) && (x <? n + 1)) with true by lia. exact HR.
Qed.
Lemma runs_wr_depth (D : arr -> Z -> Prop) (P Q : _ -> Prop) m x v (R : unit -> mem -> Prop) : St D P m -> (forall y, ~ D LDepths y) -> 0 <= x <= n -> (forall f g, P f -> (forall y, g y = if y =? x then Some v else f y) -> Q g) -> (forall m', St D Q m' -> R tt m') -> runs (wr mcs LDepths x v) m R.
Proof.
  intros [A B C] ND N1 HQ HR. unfold runs, wr. unfold inb, asize. replace ((0 <=? x) && (x <? n + 1)) with true by lia. apply HR. constructor.
  - intros b y w Hb E. destruct (put_cases m LDepths x v b y) as [(-> & _)|(_ & X)]; [congruence|]. rewrite X in E. eauto.
  - intros b y Hd. destruct (put_cases m LDepths x v b y) as [(-> & _)|(_ & X)]; [destruct (ND _ Hd)|]. rewrite X. eauto.
  - eapply HQ; [exact C|]. intro y. unfold put. cbn [arr_eqb andb]. reflexivity.
Qed.
Lemma launch_ok (k : Z -> M unit) (D0 : arr -> Z -> Prop) (out : Z -> arr -> Z -> Prop) (P : list Z -> (Z -> option Z) -> Prop) (order : list Z) :
  (forall done idx (D : arr -> Z -> Prop) m, In idx order -> (forall x, In x done -> In x order) -> (forall a x, D0 a x -> D a x) -> (forall y, ~ D LDepths y) -> St D (P done) m ->
     runs (k idx) m (fun _ m' => St (fun a x => D a x \/ out idx a x) (P (done ++ [idx])) m')) ->
  (forall idx y, ~ out idx LDepths y) -> (forall y, ~ D0 LDepths y) ->
  forall m, St D0 (P []) m -> runs (launch order k) m (fun _ m' => St (fun a x => D0 a x \/ exists idx, In idx order /\ out idx a x) (P order) m').
Proof.
  intros HK ND1 ND0.
  assert (X : forall todo done m, order = done ++ todo -> St (fun a x => D0 a x \/ exists idx, In idx done /\ out idx a x) (P done) m -> runs (launch todo k) m (fun _ m' => St (fun a x => D0 a x \/ exists idx, In idx order /\ out idx a x) (P order) m')).
  { induction todo as [|idx todo IH]; intros done m E HS; cbn [launch].
    - rewrite app_nil_r in E. subst done. exact HS.
    - apply runs_bind. eapply runs_mono; [eapply HK; [| | | |exact HS]|].
      + rewrite E. apply in_or_app. right. left. reflexivity.
      + intros x Hx. rewrite E. apply in_or_app. auto.
      + intros a x Hx. left. exact Hx.
      + intros y [Y|(i & _ & Y)]; [exact (ND0 y Y)|exact (ND1 i y Y)].
      + intros u m' HS'. cbv beta in HS'. clear u. apply (IH (done ++ [idx])); [rewrite <- app_assoc; exact E|]. eapply St_mono; [exact HS'| |auto]. intros a x [A|(i & Hi & A)]; [auto|]. apply in_app_or in Hi. destruct Hi as [Hi|[<-|[]]]; [left; right; eauto|right; exact A]. }
  intros m HS. apply (X order [] m eq_refl). eapply St_mono; [exact HS| |auto]. intros a x [A|(i & [] & _)]; exact A.
Qed.

(** ** init_depths *)
Definition P1 (done : list Z) (f : Z -> option Z) : Prop := (forall x, In x done -> f x = Some 1) /\ (In 0 done -> f n = Some 0).
Definition out1 (idx : Z) (a : arr) (x : Z) : Prop := a = PInds /\ x = idx.
Lemma P1_ext done f g : (forall y, f y = g y) -> P1 done f -> P1 done g.
Proof. intros E [A B]. split; intros; rewrite <- E; auto. Qed.
Lemma k1_ok done idx (D : arr -> Z -> Prop) m : 0 <= idx < n -> (forall x, In x done -> 0 <= x < n) -> (forall y, ~ D LDepths y) -> St D (P1 done) m ->
  runs (init_depths mcs inds idx) m (fun _ m' => St (fun a x => D a x \/ out1 idx a x) (P1 (done ++ [idx])) m').
Proof.
  intros Hi Hd ND HS. unfold init_depths. assert (E : exists v, at_ inds idx = Some v).
  { unfold at_. replace (idx <? 0) with false by lia. apply nth_error_lt_some. rewrite leni. unfold BvhModel.n in Hi. lia. }
  destruct E as [v E]. apply runs_bind. apply (runs_lift _ v _ _ E). apply runs_bind. apply (runs_wr _ _ _ _ _ _ _ HS); [discriminate|split; assumption|apply P1_ext|].
  intros m1 H1. apply runs_bind. apply (runs_wr_depth _ _ (fun f => (forall x, In x (done ++ [idx]) -> f x = Some 1) /\ (In 0 done -> f n = Some 0)) _ _ _ _ H1); [|lia| |].
  - intros y [Y|[Y _]]; [exact (ND y Y)|discriminate].
  - intros f g [A B] E1. split; [intros x Hx|intro H0].
    + rewrite E1. destruct (Z.eqb_spec x idx) as [e|e]; [reflexivity|]. apply in_app_or in Hx. destruct Hx as [Hx|[Hx|[]]]; [auto|congruence].
    + rewrite E1. replace (n =? idx) with false by lia. auto.
  - intros m2 H2. destruct (Z.eqb_spec idx 0) as [e|e].
    + unfold numTrunk. replace (n - 1 + 1) with n by lia. apply (runs_wr_depth _ _ (P1 (done ++ [idx])) _ _ _ _ H2); [|lia| |].
      * intros y [Y|[Y _]]; [exact (ND y Y)|discriminate].
      * intros f g [A B] E1. split; [intros x Hx|intro H0]; rewrite E1; [|rewrite Z.eqb_refl; reflexivity].
        assert (0 <= x < n) by (apply in_app_or in Hx; destruct Hx as [Hx|[<-|[]]]; auto). replace (x =? n) with false by lia. auto.
      * intros m3 H3. eapply St_mono; [exact H3| |auto]. intros a x [A|A]; [left; exact A|right; exact A].
    + apply runs_ret. eapply St_mono; [exact H2|intros a x [A|A]; [left; exact A|right; exact A]|]. intros f [A B]. split; [exact A|]. intro H0. apply B. apply in_app_or in H0. destruct H0 as [H0|[H0|[]]]; [exact H0|congruence].
Qed.

(** ** build_topo *)
Definition P2 (done : list Z) (f : Z -> option Z) : Prop := (forall k, 0 <= k < n -> f k = Some (1 + Z.of_nat (length (filter (left_is mcs k) done)))) /\ f n = Some 0.
Lemma P2_ext done f g : (forall y, f y = g y) -> P2 done f -> P2 done g.
Proof. intros E [A B]. split; intros; rewrite <- E; auto. Qed.
Definition out2 (idx : Z) (a : arr) (x : Z) : Prop :=
  ((a = TLs \/ a = TRs) /\ x = idx) \/ (a = TPars /\ x = 0 /\ idx = 0) \/
  exists b c, In b L /\ In c L /\ ni b < nj b /\ nlab b = idx /\ kid b c /\ ((a = LPars /\ ni c = nj c /\ x = ni c) \/ (a = TPars /\ ni c < nj c /\ x = nlab c)).
Lemma kid_range a b g l r : nt a = KN (ns a) (ni a) (nj a) g l r -> kid a b -> (ns b = true /\ ni b = ni a /\ nj b = g) \/ (ns b = false /\ ni b = g + 1 /\ nj b = nj a).
Proof. intros E (_ & _ & g' & l' & r' & E' & X). rewrite E in E'. injection E' as <- _ _. exact X. Qed.
Lemma k2_ok done idx (D : arr -> Z -> Prop) m : 0 <= idx < n - 1 -> (forall y, ~ D LDepths y) -> St D (P2 done) m ->
  runs (build_topo mcs idx) m (fun _ m' => St (fun a x => D a x \/ out2 idx a x) (P2 (done ++ [idx])) m').
Proof.
  intros Hi ND HS. destruct (has_trunk mcs T sh idx Hi) as (a & Ha & Ta & Ea). pose proof (L_in mcs T sh a Ha) as (_ & R1 & R2 & R3 & _).
  destruct (L_trunk mcs T sh a Ha Ta) as (g & l & r & Et & _ & Hg). destruct (L_kids mcs T a g l r Ha Et) as (b & c & Hb & Hc & Kb & Kc & B1 & B2 & C1 & C2 & _ & _ & _ & _ & Sb & Sc).
  pose proof (L_range mcs big rng srt T sh a Ha Ta) as ER. rewrite Ea in ER.
  unfold build_topo. apply runs_bind. apply (runs_lift _ _ _ _ ER). apply runs_bind.
  apply (runs_rd_depth _ _ _ _ (1 + Z.of_nat (length (filter (left_is mcs (ni a)) done))) _ HS); [lia|intros f [A B]; apply A; lia|]. apply runs_bind.
  apply (runs_wr_depth _ _ (P2 (done ++ [idx])) _ _ _ _ HS ND); [lia| |].
  { intros f f' [A B] E1. split; [intros k Hk|]; rewrite E1.
    - rewrite filter_app, app_length. cbn [filter]. replace (left_is mcs k idx) with (ni a =? k) by (unfold left_is; rewrite ER; reflexivity). destruct (Z.eqb_spec k (ni a)) as [e|e].
      + subst k. rewrite Z.eqb_refl. cbn [length]. f_equal. lia.
      + replace (ni a =? k) with false by lia. cbn [length]. rewrite A by lia. f_equal. lia.
    - replace (n =? ni a) with false by lia. exact B. }
  clear m HS. intros m HS. apply runs_bind. apply (runs_wr _ _ _ _ _ _ _ HS); [discriminate|exists a; auto|apply P2_ext|]. clear m HS. intros m HS.
  apply runs_bind. apply (runs_wr _ _ _ _ _ _ _ HS); [discriminate|exists a; auto|apply P2_ext|]. clear m HS. intros m HS.
  apply runs_bind. apply (runs_lift _ g); [apply (L_split mcs big rng srt T sh a g l r Ha Et)|].
  apply runs_bind. apply (runs_wr _ _ _ _ _ _ _ HS); [discriminate|exact Hi|apply P2_ext|]. clear m HS. intros m HS.
  apply runs_bind. apply (runs_wr _ _ _ _ _ _ _ HS); [discriminate|exact Hi|apply P2_ext|]. clear m HS. intros m HS.
  replace (ni a <? nj a) with true by lia. replace (nj a <? ni a) with false by lia. cbv zeta iota.
  set (D1 := add (add (add (add D TLs idx) TRs idx) TLcs idx) TRcs idx) in *.
  (* left child *)
  apply runs_bind. eapply (runs_mono _ _ (fun _ m' => St (fun e x => D1 e x \/ ((e = LPars /\ ni b = nj b /\ x = ni b) \/ (e = TPars /\ ni b < nj b /\ x = nlab b))) (P2 (done ++ [idx])) m')).
  { destruct (Z.eqb_spec (ni a) g) as [e|e].
    - apply runs_bind. apply (runs_wr _ _ _ _ _ _ _ HS); [discriminate|exists b; destruct Kb as (Kb & _); rewrite Kb; repeat split; auto; lia|apply P2_ext|]. clear m HS. intros m HS.
      apply runs_bind. eapply (runs_rd_any _ _ _ _ _ _ HS); [discriminate|unfold D1, add; tauto|]. intro v. apply (runs_wr _ _ _ _ _ _ _ HS); [discriminate|exact Hi|apply P2_ext|]. clear m HS. intros m HS.
      eapply St_mono; [exact HS| |auto]. intros e1 x [X|[(X1 & X2 & X3)|(X1 & X2 & X3)]]; unfold add; [tauto| |lia]. left. right. split; [exact X1|lia].
    - apply (runs_wr _ _ _ _ _ _ _ HS); [discriminate|exists b; destruct Kb as (Kb & _); rewrite Kb; unfold nlab; rewrite Sb; cbn [lab]; repeat split; auto; lia|apply P2_ext|]. clear m HS. intros m HS.
      eapply St_mono; [exact HS| |auto]. intros e1 x [X|[(X1 & X2 & X3)|(X1 & X2 & X3)]]; unfold add; [tauto|lia|]. right. split; [exact X1|]. rewrite X3. unfold nlab. rewrite Sb. cbn [lab]. lia. }
  clear m HS. intros _ m HS. set (D2 := fun e x => D1 e x \/ _) in HS.
  apply runs_bind. eapply (runs_mono _ _ (fun _ m' => St (fun e x => D2 e x \/ ((e = LPars /\ ni c = nj c /\ x = ni c) \/ (e = TPars /\ ni c < nj c /\ x = nlab c))) (P2 (done ++ [idx])) m')).
  { destruct (Z.eqb_spec (nj a) (g + 1)) as [e|e].
    - apply runs_bind. apply (runs_wr _ _ _ _ _ _ _ HS); [discriminate|exists c; destruct Kc as (Kc & _); rewrite Kc; repeat split; auto; lia|apply P2_ext|]. clear m HS. intros m HS.
      apply runs_bind. eapply (runs_rd_any _ _ _ _ _ _ HS); [discriminate|unfold D2, D1, add; tauto|]. intro v. apply (runs_wr _ _ _ _ _ _ _ HS); [discriminate|exact Hi|apply P2_ext|]. clear m HS. intros m HS.
      eapply St_mono; [exact HS| |auto]. intros e1 x [X|[(X1 & X2 & X3)|(X1 & X2 & X3)]]; unfold add; [tauto| |lia]. left. right. split; [exact X1|lia].
    - apply (runs_wr _ _ _ _ _ _ _ HS); [discriminate|exists c; destruct Kc as (Kc & _); rewrite Kc; unfold nlab; rewrite Sc; cbn [lab]; repeat split; auto; lia|apply P2_ext|]. clear m HS. intros m HS.
      eapply St_mono; [exact HS| |auto]. intros e1 x [X|[(X1 & X2 & X3)|(X1 & X2 & X3)]]; unfold add; [tauto|lia|]. right. split; [exact X1|]. rewrite X3. unfold nlab. rewrite Sc. cbn [lab]. lia. }
  clear m HS. intros _ m HS. set (D3 := fun e x => D2 e x \/ _) in HS.
  assert (Fin : forall e x, D e x \/ out2 idx e x -> D3 e x \/ (e = TPars /\ x = 0 /\ idx = 0)).
  { intros e x [X|[X|[X|(a' & c' & A1 & A2 & A3 & A4 & A5 & A6)]]].
    - left. unfold D3, D2, D1, add. tauto.
    - left. unfold D3, D2, D1, add. tauto.
    - right. exact X.
    - left. assert (a' = a) by (apply (uniq_lab' mcs T sh); auto; congruence). subst a'. unfold D3, D2.
      assert (Xb : nlab b = g) by (unfold nlab; rewrite Sb; cbn [lab]; exact B2). assert (Xc : nlab c = g + 1) by (unfold nlab; rewrite Sc; cbn [lab]; exact C1).
      destruct (kid_range _ _ _ _ _ Et A5) as [(Z1 & Z2 & Z3)|(Z1 & Z2 & Z3)]; unfold nlab in A6; rewrite Z1 in A6; cbn [lab] in A6.
      + left. right. destruct A6 as [(Y1 & Y2 & Y3)|(Y1 & Y2 & Y3)]; [left|right]; (split; [exact Y1|lia]).
      + right. destruct A6 as [(Y1 & Y2 & Y3)|(Y1 & Y2 & Y3)]; [left|right]; (split; [exact Y1|lia]). }
  destruct (Z.eqb_spec idx 0) as [e|e].
  - assert (a = root) by (apply (proj2 (L_lab mcs big T sh a Ha Ta)); congruence). subst a.
    apply (runs_wr _ _ _ _ _ _ _ HS); [discriminate|exists root; repeat split; auto; lia|apply P2_ext|]. clear m HS. intros m HS. eapply St_mono; [exact HS| |auto].
    intros e1 x X. destruct (Fin e1 x X) as [Y|(Y1 & Y2 & _)]; [left; exact Y|right; auto].
  - apply runs_ret. eapply St_mono; [exact HS| |auto]. intros e1 x X. destruct (Fin e1 x X) as [Y|(Y1 & Y2 & Y3)]; [exact Y|congruence].
Qed.

(** ** exclusive_scan *)
Definition P3 (f : Z -> option Z) : Prop := (forall k, 0 <= k < n -> f k = Some (depth k)) /\ f n = Some 0.
Lemma P3_ext f g : (forall y, f y = g y) -> P3 f -> P3 g.
Proof. intros E [A B]. split; intros; rewrite <- E; auto. Qed.
Lemma scan_ok k : forall q (D : arr -> Z -> Prop) m, 0 <= q -> q + Z.of_nat k = n + 1 -> St D P3 m ->
  runs (scan mcs k q (off q)) m (fun _ m' => St (fun a x => D a x \/ (a = LOffsets /\ q <= x <= n)) P3 m').
Proof.
  induction k as [|k IH]; intros q D m Hq Hk HS; cbn [scan].
  - apply runs_ret. eapply St_mono; [exact HS| |auto]. intros a x [X|[_ X]]; [exact X|lia].
  - apply runs_bind. apply (runs_wr _ _ _ _ _ _ _ HS); [discriminate|split; [lia|reflexivity]|apply P3_ext|]. clear m HS. intros m HS. apply runs_bind.
    destruct (Z.eq_dec q n) as [e|e].
    + subst q. assert (k = 0%nat) by lia. subst k. apply (runs_rd_depth _ _ _ _ 0 _ HS); [lia|intros f [_ B]; exact B|]. cbn [scan]. apply runs_ret.
      eapply St_mono; [exact HS| |auto]. intros a x [X|[-> X]]; unfold add; [tauto|right; split; [reflexivity|lia]].
    + apply (runs_rd_depth _ _ _ _ (depth q) _ HS); [lia|intros f [A _]; apply A; lia|]. rewrite <- (off_succ mcs T q) by lia. eapply runs_mono; [apply IH; [lia|lia|exact HS]|]. intros u m' HS'. cbv beta in HS'.
      eapply St_mono; [exact HS'| |auto]. intros a x [X|[-> X]]; unfold add; [tauto|]. destruct (Z.eq_dec x q); [left; right; auto|right; split; [reflexivity|lia]].
Qed.

(** ** supp_topo *)
Lemma last_nth {A} (l : list A) d : l <> [] -> nth_error l (length l - 1) = Some (last l d).
Proof.
  induction l as [|x l IH]; intro H; [congruence|]. destruct l as [|y l]; [reflexivity|]. specialize (IH ltac:(discriminate)). cbn [length] in *. replace (S (S (length l)) - 1)%nat with (S (S (length l) - 1)) by lia. exact IH.
Qed.
Definition out3 (idx : Z) (a : arr) (x : Z) : Prop :=
  (a = LLcas /\ x = idx) \/ exists b c, In b L /\ In c L /\ ni b = nj b /\ ni b = idx /\ ni c < nj c /\ In (nlab c) (nch b) /\ ((a = TDst /\ x = nlab c) \/ (a = Levels /\ x = nB c)).
Lemma supp_loop_ok b : In b L -> ni b = nj b -> forall rest pre fu node ch (D : arr -> Z -> Prop) m,
  nch b = pre ++ rest -> (length rest < fu)%nat -> (forall c, In c L -> ni c < nj c -> D TPars (nlab c)) -> St D P3 m ->
  (rest <> [] -> hd_error rest = Some node) -> ch = last pre (ni b + (n - 1)) ->
  runs (supp_loop mcs fu (1 + Z.of_nat (length rest)) node (nB b - 1 - Z.of_nat (length pre)) (Z.of_nat (length pre)) ch) m
    (fun v m' => v = top b /\ St (fun a x => D a x \/ exists c, In c L /\ ni c < nj c /\ In (nlab c) rest /\ ((a = TDst /\ x = nlab c) \/ (a = Levels /\ x = nB c))) P3 m').
Proof.
  intros Hb Lb. induction rest as [|p rest IH]; intros pre fu node ch D m E Hf HD HS Hn Hch; (destruct fu as [|fu]; [cbn [length] in Hf; lia|]); cbn [supp_loop length].
  - replace (1 + Z.of_nat 0 - 1 =? 0) with true by lia. apply runs_ret. rewrite app_nil_r in E. split; [unfold top; rewrite E; exact Hch|]. eapply St_mono; [exact HS| |auto]. intros a x [X|(c & _ & _ & [] & _)]. exact X.
  - specialize (Hn ltac:(discriminate)). cbn [hd_error] in Hn. injection Hn as <-. replace (1 + Z.of_nat (S (length rest)) - 1 =? 0) with false by lia.
    destruct (L_chain mcs T sh b Hb) as [_ Hch2]. destruct (Hch2 (length pre) p) as (c & C1 & C2 & C3 & C4 & C5 & C6 & C7).
    { rewrite E, nth_error_app2, Nat.sub_diag by lia. reflexivity. }
    assert (Sp : kspine (nt b) = 0) by (rewrite (L_leaf mcs T sh b Hb Lb); reflexivity).
    apply runs_bind. apply (runs_wr _ _ _ _ _ _ _ HS); [discriminate|exists c; repeat split; auto; lia|apply P3_ext|]. clear m HS. intros m HS.
    apply runs_bind. apply (runs_wr _ _ _ _ _ _ _ HS); [discriminate|exists c; repeat split; auto; lia|apply P3_ext|]. clear m HS. intros m HS.
    apply runs_bind. apply (runs_rd _ _ _ _ _ (npar c) _ HS); [discriminate|discriminate|unfold add; left; left; rewrite <- C3; auto|exists c; auto|].
    replace (1 + Z.of_nat (S (length rest)) - 1) with (1 + Z.of_nat (length rest)) by lia. replace (nB b - 1 - Z.of_nat (length pre) - 1) with (nB b - 1 - Z.of_nat (length (pre ++ [p]))) by (rewrite app_length; cbn [length]; lia).
    replace (Z.of_nat (length pre) + 1) with (Z.of_nat (length (pre ++ [p]))) by (rewrite app_length; cbn [length]; lia).
    eapply runs_mono; [eapply (IH (pre ++ [p]) fu (npar c) p); [rewrite <- app_assoc; exact E|cbn [length] in Hf; lia| |exact HS| |rewrite last_last; reflexivity]|].
    + intros c' H1 H2. unfold add. left. left. auto.
    + intro Hr. destruct rest as [|p' rest]; [congruence|]. cbn [hd_error]. f_equal. symmetry. apply C7. rewrite E. rewrite nth_error_app2 by lia. replace (S (length pre) - length pre)%nat with 1%nat by lia. reflexivity.
    + intros v m' [Hv HS']. cbv beta in HS'. split; [exact Hv|]. eapply St_mono; [exact HS'| |auto]. intros a x [X|(c' & X1 & X2 & X3 & X4)]; unfold add; [tauto|]. destruct X3 as [X3|X3].
      * assert (c' = c) by (apply (uniq_lab' mcs T sh); auto; congruence). subst c'. left. destruct X4 as [[-> ->]|[-> ->]]; [left; right; split; [reflexivity|congruence]|right; split; [reflexivity|lia]].
      * right. exists c'. auto.
Qed.
Lemma off_leaf b : In b L -> ni b = nj b -> off (ni b + 1) = nB b + 1.
Proof.
  intros Hb Lb. pose proof (L_in mcs T sh b Hb). rewrite (off_succ mcs T) by lia. rewrite (L_depth mcs T sh b Hb Lb). rewrite (L_pos mcs T sh b Hb). lia.
Qed.
Definition need3 (D : arr -> Z -> Prop) : Prop :=
  (forall x, 0 <= x <= n -> D LOffsets x) /\ (forall x, 0 <= x < n -> D LPars x) /\ (forall c, In c L -> ni c < nj c -> D TPars (nlab c)).
Lemma k3_ok idx (D : arr -> Z -> Prop) m : 0 <= idx < n -> need3 D -> St D P3 m -> runs (supp_topo mcs idx) m (fun _ m' => St (fun a x => D a x \/ out3 idx a x) P3 m').
Proof.
  intros Hi (N1 & N2 & N3) HS. destruct (has_leaf mcs T sh idx Hi) as (b & Hb & B1 & B2). unfold supp_topo.
  apply runs_bind. apply (runs_rd _ _ _ _ _ (off (idx + 1)) _ HS); [discriminate|discriminate|apply N1; lia|split; [lia|reflexivity]|].
  apply runs_bind. apply (runs_rd _ _ _ _ _ (off idx) _ HS); [discriminate|discriminate|apply N1; lia|split; [lia|reflexivity]|].
  apply runs_bind. apply (runs_rd _ _ _ _ _ (npar b) _ HS); [discriminate|discriminate|apply N2; lia|exists b; repeat split; auto; lia|].
  apply runs_bind. assert (Lb : ni b = nj b) by lia. pose proof (off_leaf b Hb Lb) as O. pose proof (L_depth mcs T sh b Hb Lb) as O2. pose proof (off_succ mcs T idx Hi) as O3. pose proof (depth_bnd mcs big T sh idx) as O4. subst idx.
  replace (off (ni b + 1) - off (ni b)) with (1 + Z.of_nat (length (nch b))) by lia. replace (off (ni b + 1) - 2) with (nB b - 1 - Z.of_nat (length (@nil Z))) by (cbn [length]; lia). change 0 with (Z.of_nat (length (@nil Z))) at 1.
  eapply runs_mono; [eapply (supp_loop_ok b Hb Lb (nch b) [] (fuel mcs)); [reflexivity| |exact N3|exact HS| |reflexivity]|].
  - unfold fuel. unfold BvhModel.n in *. lia.
  - intro X. destruct (nch b) as [|p q] eqn:E; [congruence|]. cbn. f_equal. symmetry. exact (proj1 (L_chain mcs T sh b Hb) p q E).
  - intros v m' [-> HS']. cbv beta in HS'. apply (runs_wr _ _ _ _ _ _ _ HS'); [discriminate|exists b; auto|apply P3_ext|]. clear m HS m' HS'. intros m HS. eapply St_mono; [exact HS| |auto].
    intros a x [X|[X|(b' & c & X1 & X2 & X3 & X4 & X5 & X6 & X7)]]; unfold add; [tauto|tauto|]. assert (b' = b) by (apply (uniq_leaf' mcs T sh); auto). subst b'. left. right. exists c. auto.
Qed.

(** ** reorder_leaf *)
Definition out4 (idx : Z) (a : arr) (x : Z) : Prop := exists b, In b L /\ ni b = nj b /\ ni b = idx /\ ((x = nB b /\ (a = Aux \/ a = Parents \/ a = Levels)) \/ (x = idx /\ a = LInds)).
Definition need4 (D : arr -> Z -> Prop) : Prop := need3 D /\ (forall x, 0 <= x < n -> D PInds x) /\ (forall c, In c L -> ni c < nj c -> D TDst (nlab c)).
Lemma parent b : In b L -> b <> root -> exists c, In c L /\ ni c < nj c /\ npar b = nlab c /\ nppos b = nB c.
Proof. intros H N. destruct (L_kid mcs T sh b H) as [->|(c & C1 & C2 & C3 & C4 & _)]; [congruence|]. exists c. auto. Qed.
Lemma k4_ok idx (D : arr -> Z -> Prop) m : 0 <= idx < n -> need4 D -> St D P3 m -> runs (reorder_leaf mcs idx) m (fun _ m' => St (fun a x => D a x \/ out4 idx a x) P3 m').
Proof.
  intros Hi ((N1 & N2 & N3) & N4 & N5) HS. destruct (has_leaf mcs T sh idx Hi) as (b & Hb & B1 & B2). assert (Lb : ni b = nj b) by lia. subst idx. unfold reorder_leaf.
  apply runs_bind. apply (runs_rd _ _ _ _ _ (off (ni b + 1)) _ HS); [discriminate|discriminate|apply N1; lia|split; [lia|reflexivity]|]. rewrite (off_leaf b Hb Lb). replace (nB b + 1 - 1) with (nB b) by lia. cbv zeta.
  assert (E : exists v, at_ inds (ni b) = Some v).
  { unfold at_. replace (ni b <? 0) with false by lia. apply nth_error_lt_some. rewrite leni. unfold BvhModel.n in Hi. lia. }
  destruct E as [v E]. destruct (parent b Hb) as (c & C1 & C2 & C3 & C4); [intros ->; cbn in Lb; lia|].
  apply runs_bind. apply (runs_rd _ _ _ _ _ v _ HS); [discriminate|discriminate|apply N4; lia|split; [lia|exact E]|].
  apply runs_bind. apply (runs_wr _ _ _ _ _ _ _ HS); [discriminate|exists b; auto 6|apply P3_ext|]. clear m HS. intros m HS.
  apply runs_bind. apply (runs_rd _ _ _ _ _ (npar b) _ HS); [discriminate|discriminate|left; apply N2; lia|exists b; repeat split; auto; lia|].
  apply runs_bind. apply (runs_rd _ _ _ _ _ (nB c) _ HS); [discriminate|discriminate|left; rewrite C3; apply N5; auto|exists c; auto|].
  apply runs_bind. apply (runs_wr _ _ _ _ _ _ _ HS); [discriminate|exists b; auto|apply P3_ext|]. clear m HS. intros m HS.
  apply runs_bind. apply (runs_wr _ _ _ _ _ _ _ HS); [discriminate|exists b; rewrite (L_leaf mcs T sh b Hb Lb); auto|apply P3_ext|]. clear m HS. intros m HS.
  apply (runs_wr _ _ _ _ _ _ _ HS); [discriminate|exists b; auto|apply P3_ext|]. clear m HS. intros m HS. eapply St_mono; [exact HS| |auto].
  intros a x [X|(b' & X1 & X2 & X3 & X4)]; unfold add; [tauto|]. assert (b' = b) by (apply (uniq_leaf' mcs T sh); auto). subst b'. tauto.
Qed.

(** ** reorder_trunk *)
Definition out5 (idx : Z) (a : arr) (x : Z) : Prop := exists b, In b L /\ ni b < nj b /\ nlab b = idx /\ x = nB b /\ (a = Aux \/ a = Parents).
Definition need5 (D : arr -> Z -> Prop) : Prop := need4 D /\ (forall x, 0 <= x < n -> D LLcas x) /\ (forall c, In c L -> ni c < nj c -> D TRs (nlab c)).
Lemma top_ok b : In b L -> ni b = nj b -> (nch b = [] /\ top b = ni b + (n - 1) /\ nB b = off (ni b)) \/ exists c, In c L /\ ni c < nj c /\ top b = nlab c /\ nB c = off (ni b).
Proof.
  intros Hb Lb. destruct (nch b) as [|p q] eqn:E.
  - left. unfold top. rewrite (L_pos mcs T sh b Hb), E. cbn [last length]. repeat split; lia.
  - right. destruct (L_chain mcs T sh b Hb) as [_ X]. destruct (X (length (nch b) - 1)%nat (top b)) as (c & C1 & C2 & C3 & C4 & _).
    + unfold top. apply last_nth. rewrite E. discriminate.
    + exists c. split; [exact C1|]. split; [exact C2|]. split; [congruence|]. rewrite C4, (L_pos mcs T sh b Hb), E. cbn [length]. lia.
Qed.
Lemma k5_ok idx (D : arr -> Z -> Prop) m : 0 <= idx < n - 1 -> need5 D -> St D P3 m -> runs (reorder_trunk mcs idx) m (fun _ m' => St (fun a x => D a x \/ out5 idx a x) P3 m').
Proof.
  intros Hi (((N1 & N2 & N3) & N4 & N5) & N6 & N7) HS. destruct (has_trunk mcs T sh idx Hi) as (b & Hb & Tb & Eb). subst idx. pose proof (L_in mcs T sh b Hb) as (_ & R1 & R2 & R3 & _). destruct (L_esc mcs T sh b Hb) as [E1 E2]. unfold reorder_trunk.
  apply runs_bind. apply (runs_rd _ _ _ _ _ (nB b) _ HS); [discriminate|discriminate|apply N5; auto|exists b; auto|].
  apply runs_bind. apply (runs_rd _ _ _ _ _ (nj b) _ HS); [discriminate|discriminate|apply N7; auto|exists b; auto|].
  apply runs_bind. unfold numTrunk. eapply (runs_mono _ _ (fun _ m' => St (add D Aux (nB b)) P3 m')).
  { destruct (Z.eqb_spec (nj b) (n - 1)) as [e|e]; cbn [negb].
    - apply (runs_wr _ _ _ _ _ _ _ HS); [discriminate|exists b; rewrite E2 by exact e; auto|apply P3_ext|]. auto.
    - assert (H1 : 0 <= nj b + 1 < n) by lia. destruct (has_leaf mcs T sh _ H1) as (c & Hc & C1 & C2). assert (Lc : ni c = nj c) by lia.
      apply runs_bind. apply (runs_rd _ _ _ _ _ (top c) _ HS); [discriminate|discriminate|apply N6; auto|exists c; auto|]. apply runs_bind.
      eapply (runs_mono _ _ (fun v m' => v = off (nj b + 1) /\ St D P3 m')).
      + destruct (top_ok c Hc Lc) as [(_ & X1 & X2)|(d & X1 & X2 & X3 & X4)].
        * replace (top c <? n - 1) with false by lia. apply (runs_rd _ _ _ _ _ (off (nj b + 1)) _ HS); [discriminate|discriminate|apply N1; lia|split; [lia|reflexivity]|]. auto.
        * destruct (L_lab mcs big T sh d X1 X2) as [X5 _]. rewrite X3. replace (nlab d <? n - 1) with true by lia. apply (runs_rd _ _ _ _ _ (nB d) _ HS); [discriminate|discriminate|apply N5; auto|exists d; auto|]. split; [congruence|exact HS].
      + intros v m' [-> HS']. apply (runs_wr _ _ _ _ _ _ _ HS'); [discriminate|exists b; rewrite <- E1 by lia; auto|apply P3_ext|]. auto. }
  clear m HS. intros u m HS. cbv beta in HS.
  assert (Fin : forall m', St (add (add D Aux (nB b)) Parents (nB b)) P3 m' -> St (fun a x => D a x \/ out5 (nlab b) a x) P3 m').
  { intros m' HS'. eapply St_mono; [exact HS'| |auto]. intros a x [X|(b' & X1 & X2 & X3 & X4 & X5)]; unfold add; [tauto|]. assert (b' = b) by (apply (uniq_lab' mcs T sh); auto). subst b'. tauto. }
  destruct (Z.eqb_spec (nlab b) 0) as [e|e]; cbn [negb].
  - assert (X : b = root) by (apply (proj2 (L_lab mcs big T sh b Hb Tb)); exact e).
    apply (runs_wr _ _ _ _ _ _ _ HS); [discriminate|exists b; split; [exact Hb|]; split; [reflexivity|rewrite X; reflexivity]|apply P3_ext|exact Fin].
  - destruct (parent b Hb) as (c & C1 & C2 & C3 & C4); [intros ->; apply e; reflexivity|].
    apply runs_bind. apply (runs_rd _ _ _ _ _ (npar b) _ HS); [discriminate|discriminate|left; apply N3; auto|exists b; auto|].
    apply runs_bind. apply (runs_rd _ _ _ _ _ (nB c) _ HS); [discriminate|discriminate|left; rewrite C3; apply N5; auto|exists c; auto|].
    apply (runs_wr _ _ _ _ _ _ _ HS); [discriminate|exists b; auto|apply P3_ext|exact Fin].
Qed.
End Build.
