From Verif Require Import Prelude SortModel RadixModel CountModel CountProofs SpmModel SpmSpec SpmProofs SpmBuildModel.

Lemma combine_app {A B} (a a' : list A) (b b' : list B) : length a = length b -> combine (a ++ a') (b ++ b') = combine a b ++ combine a' b'.
Proof. revert b. induction a as [|x a IH]; intros [|y b] L; cbn in *; try discriminate; [reflexivity|]. f_equal. apply IH. lia. Qed.

Section L.
Context {E : Type}.
Variable seg : E -> nat.
Notation off ord d := (offsets (fun i => cnt seg i ord) d).
Lemma layout_ok n ord : (forall x, In x ord -> seg x < n) ->
  exists ps ws, layout seg n ord = Some (ps, ws) /\ length ps = S n /\ (forall d, d <= n -> nth d ps 0 = off ord d) /\ map snd ws = ord /\
    (forall p e, In (p, e) ws -> nth_error (bins seg n ord) p = Some e) /\ (forall p, p < length ord -> In p (map fst ws)) /\
    length (bins seg n ord) = length ord /\ nth n ps 0 = length ord.
Proof.
  intro H. assert (HS : forall x, In x ord -> seg x < S n) by (intros x Hx; specialize (H x Hx); lia).
  destruct (count_sort_ok seg (S n) ord HS) as (cs & ts & ws & Et & Lc & _ & Es & Tg & Ms & Ag & Cv).
  assert (EB : bins seg (S n) ord = bins seg n ord).
  { unfold bins. replace (S n) with (n + 1) by lia. rewrite seq_app, flat_map_app. cbn [seq flat_map Nat.add]. rewrite app_nil_r.
    rewrite (SortProofs.filter_none (fun e => seg e =? n) ord); [apply app_nil_r|]. intros x Hx. apply Nat.eqb_neq. specialize (H x Hx). lia. }
  rewrite EB in Ag.
  assert (N : forall d, d <= n -> nth d (escan 0 cs) 0 = off ord d) by (intros d Hd; apply nth_error_nth; apply Es; lia).
  exists (escan 0 cs), ws. unfold layout. rewrite Et. cbn [bind]. rewrite Tg. cbn [bind]. split; [reflexivity|]. split; [rewrite escan_length; exact Lc|]. split; [exact N|]. split; [exact Ms|]. split; [exact Ag|]. split; [exact Cv|].
  split; [symmetry; apply Permutation_length; apply bins_perm; exact H|]. rewrite N by lia. apply offsets_total. exact H.
Qed.
Lemma offsets_step f d : offsets f (S d) = offsets f d + f d.
Proof. reflexivity. Qed.
Lemma bins_at n ord d t x : d < n -> nth_error (filter (fun e => seg e =? d) ord) t = Some x -> nth_error (bins seg n ord) (off ord d + t) = Some x.
Proof.
  intros Hd Hx. destruct (bins_split seg n d ord Hd) as (post & E'). rewrite E'. rewrite <- bins_length. rewrite nth_error_app2 by lia.
  replace (length (bins seg d ord) + t - length (bins seg d ord)) with t by lia. rewrite nth_error_app1; [exact Hx|]. eapply nth_error_some_lt; eauto.
Qed.
Lemma bins_S d ord : bins seg (S d) ord = bins seg d ord ++ filter (fun e => seg e =? d) ord.
Proof. unfold bins. replace (S d) with (d + 1) by lia. rewrite seq_app, flat_map_app. cbn [seq flat_map Nat.add]. rewrite app_nil_r. reflexivity. Qed.
(** the cells of a matrix whose index array is the image of the bins *)
Lemma cells_of_bins {V} (m : @csr V) n ord (g : E -> nat) : (forall x, In x ord -> seg x < n) -> outer m = n -> inds m = map g (bins seg n ord) ->
  length (ptrs m) = S n -> (forall d, d <= n -> nth d (ptrs m) 0 = off ord d) ->
  cells m = combine (map (fun x => coord m (seg x) (g x)) (bins seg n ord)) (seq 0 (length ord)).
Proof.
  intros H Ho Hi Lp Hp. unfold cells. rewrite Ho.
  assert (G : forall d, d <= n -> flat_map (fun o => map (fun k => (coord m o (nth k (inds m) 0), k)) (seq (nth o (ptrs m) 0) (nth (S o) (ptrs m) 0 - nth o (ptrs m) 0))) (seq 0 d)
     = combine (map (fun x => coord m (seg x) (g x)) (bins seg d ord)) (seq 0 (length (bins seg d ord)))).
  { induction d as [|d IH]; intros Hd; [reflexivity|]. replace (S d) with (d + 1) at 1 by lia. rewrite seq_app, flat_map_app, IH by lia. cbn [seq flat_map Nat.add]. rewrite app_nil_r.
    rewrite bins_S.
    rewrite app_length, seq_app, map_app. rewrite combine_app by (rewrite map_length, seq_length; reflexivity). f_equal.
    rewrite !Hp, offsets_step by lia. rewrite Nat.add_comm with (n := off ord d). rewrite Nat.add_sub. cbn [Nat.add]. rewrite <- bins_length. unfold cnt.
    assert (K : forall l s, (forall t x, nth_error l t = Some x -> nth_error (bins seg n ord) (s + t) = Some x /\ seg x = d) ->
      map (fun k => (coord m d (nth k (inds m) 0), k)) (seq s (length l)) = combine (map (fun x => coord m (seg x) (g x)) l) (seq s (length l))).
    { clear - Hi. induction l as [|x l IH]; intros s Hl; cbn; [reflexivity|]. destruct (Hl 0 x eq_refl) as [A B]. rewrite Nat.add_0_r in A. f_equal.
      - f_equal. rewrite B. f_equal. rewrite Hi. apply nth_error_nth. apply map_nth_error. exact A.
      - apply IH. intros t y Hy. specialize (Hl (S t) y Hy). rewrite Nat.add_succ_r in Hl. exact Hl. }
    apply K. intros t x Hx. split.
    - rewrite bins_length. apply bins_at; [lia|exact Hx].
    - apply nth_error_In in Hx. apply filter_In in Hx. destruct Hx as [_ Hx]. apply Nat.eqb_eq in Hx. exact Hx. }
  rewrite G by lia. rewrite (Permutation_length (bins_perm seg n ord H)). reflexivity.
Qed.
Lemma wf_of_bins {V} (m : @csr V) n ord (g : E -> nat) : (forall x, In x ord -> seg x < n) -> (forall x, In x ord -> g x < inner m) -> outer m = n -> inds m = map g (bins seg n ord) ->
  length (ptrs m) = S n -> (forall d, d <= n -> nth d (ptrs m) 0 = off ord d) -> wf_topo m.
Proof.
  intros H Hg Ho Hi Lp Hp. pose proof (bins_perm seg n ord H) as PB. repeat split.
  - lia.
  - rewrite Hp by lia. reflexivity.
  - intros o Hoo. rewrite !Hp, offsets_step by lia. lia.
  - rewrite Ho, Hp, Hi, map_length by lia. rewrite offsets_total by exact H. apply Permutation_length. exact PB.
  - intros k Hk. rewrite Hi in *. rewrite map_length in Hk. destruct (nth_error_lt_some _ k Hk) as [x Hx].
    rewrite (nth_error_nth _ _ 0 (map_nth_error g _ _ Hx)). apply Hg. eapply Permutation_in; [symmetry; exact PB|]. eapply nth_error_In; eauto.
Qed.
Lemma in_combine_seq {A} (l : list A) : forall s x k, In (x, k) (combine l (seq s (length l))) <-> s <= k /\ nth_error l (k - s) = Some x.
Proof.
  induction l as [|a l IH]; intros s x k; cbn [length seq combine In].
  - split; [intros []|]. intros [_ H]. destruct (k - s); discriminate.
  - rewrite IH. split.
    + intros [H|[H1 H2]]; [inversion H; subst; rewrite Nat.sub_diag; auto|]. split; [lia|]. replace (k - s) with (S (k - S s)) by lia. exact H2.
    + intros [H1 H2]. destruct (Nat.eq_dec k s) as [->|Ne]; [rewrite Nat.sub_diag in H2; inversion H2; auto|]. right. split; [lia|]. replace (k - s) with (S (k - S s)) in H2 by lia. exact H2.
Qed.
Lemma stored_bins {V} (m : @csr V) n ord (g : E -> nat) : (forall x, In x ord -> seg x < n) -> outer m = n -> inds m = map g (bins seg n ord) ->
  length (ptrs m) = S n -> (forall d, d <= n -> nth d (ptrs m) 0 = off ord d) ->
  forall i j k, stored m i j k <-> exists x, nth_error (bins seg n ord) k = Some x /\ coord m (seg x) (g x) = (i, j).
Proof.
  intros H Ho Hi Lp Hp i j k. unfold stored. rewrite (cells_of_bins m n ord g) by assumption.
  replace (length ord) with (length (map (fun x => coord m (seg x) (g x)) (bins seg n ord))) by (rewrite map_length; symmetry; apply Permutation_length; apply bins_perm; exact H).
  rewrite in_combine_seq. rewrite Nat.sub_0_r, nth_error_map. split.
  - intros [_ A]. destruct (nth_error (bins seg n ord) k) as [x|] eqn:Ex; [|discriminate]. inversion A. eauto.
  - intros (x & A & B). rewrite A. cbn. rewrite B. split; [lia|reflexivity].
Qed.
Lemma cells_coords {V} (m : @csr V) n ord (g : E -> nat) : (forall x, In x ord -> seg x < n) -> outer m = n -> inds m = map g (bins seg n ord) ->
  length (ptrs m) = S n -> (forall d, d <= n -> nth d (ptrs m) 0 = off ord d) -> Permutation (map fst (cells m)) (map (fun x => coord m (seg x) (g x)) ord).
Proof.
  intros H Ho Hi Lp Hp. rewrite (cells_of_bins m n ord g) by assumption. pose proof (bins_perm seg n ord H) as PB.
  assert (G : forall (A B : Type) (a : list A) (b : list B), length a = length b -> map fst (combine a b) = a).
  { clear. induction a as [|x a IH]; intros [|y b] L; cbn in *; try discriminate; [reflexivity|]. f_equal. apply IH. lia. }
  rewrite G by (rewrite map_length, seq_length; symmetry; apply Permutation_length; exact PB). apply Permutation_map. symmetry. exact PB.
Qed.
End L.

Lemma ceq_spec a b : ceq a b = true <-> a = b.
Proof. destruct a, b. unfold ceq. cbn. rewrite andb_true_iff, !Nat.eqb_eq. split; [intros []; congruence|intro E; inversion E; auto]. Qed.
Lemma ceq_refl a : ceq a a = true.
Proof. apply ceq_spec. reflexivity. Qed.

Section B.
Context {V : Type}.
Variable rmaj : bool.
Notation csr := (@csr V).
Variables nr nc : nat.
Notation n := (nsegs rmaj nr nc).
Definition inside (c : coord_t) : Prop := fst c < nr /\ snd c < nc.
Lemma inside_seg c : inside c -> oc rmaj c < n /\ ic rmaj c < (if rmaj then nc else nr).
Proof. unfold inside, oc, ic, nsegs. destruct rmaj; lia. Qed.
Lemma coord_oc (m : csr) c : rm m = rmaj -> coord m (oc rmaj c) (ic rmaj c) = c.
Proof. intros E. unfold coord, oc, ic. rewrite E. destruct c, rmaj; reflexivity. Qed.

(** topology from an order of distinct or repeated coordinates *)
Definition mk ps is vs : csr := {| rm := rmaj; nrows := nr; ncols := nc; ptrs := ps; inds := is; vals := vs |}.
Lemma outer_mk ps is vs : outer (mk ps is vs) = n.
Proof. unfold outer, nsegs. cbn. reflexivity. Qed.
Lemma topo_common ord ps ws vs : (forall c, In c ord -> inside c) -> layout (oc rmaj) n ord = Some (ps, ws) ->
  let m := mk ps (map (ic rmaj) (bins (oc rmaj) n ord)) vs in
  wf_topo m /\ Permutation (map fst (cells m)) ord /\ (forall i j k, stored m i j k <-> nth_error (bins (oc rmaj) n ord) k = Some (i, j)) /\
  (forall a st, length a = nth n ps 0 -> Permutation st (map (fun w => (fst w, ic rmaj (snd w))) ws) -> run_stores a st = Some (inds m)).
Proof.
  intros H E m. assert (Hs : forall x, In x ord -> oc rmaj x < n) by (intros x Hx; apply inside_seg; apply H; exact Hx).
  destruct (layout_ok (oc rmaj) n ord Hs) as (ps' & ws' & E' & Lp & Np & Ms & Ag & Cv & LB & Tot). rewrite E in E'. inversion E'; subst ps' ws'. clear E'.
  assert (Hg : forall x, In x ord -> ic rmaj x < inner m) by (intros x Hx; apply inside_seg; apply H; exact Hx).
  split; [|split; [|split]].
  - apply (wf_of_bins (oc rmaj) m n ord (ic rmaj)); auto.
  - rewrite (cells_coords (oc rmaj) m n ord (ic rmaj)); auto. erewrite map_ext; [rewrite map_id; reflexivity|]. intro c. apply coord_oc. reflexivity.
  - intros i j k. rewrite (stored_bins (oc rmaj) m n ord (ic rmaj)); auto. split.
    + intros (x & A & B). rewrite coord_oc in B by reflexivity. rewrite A. f_equal. exact B.
    + intros A. exists (i, j). split; [exact A|]. apply coord_oc. reflexivity.
  - intros a st La P. cbn [inds m mk]. rewrite (stores_map (ic rmaj) (bins (oc rmaj) n ord) ws st a); [|lia|exact Ag|rewrite LB; exact Cv|exact P].
    rewrite skipn_all2 by lia. rewrite app_nil_r. reflexivity.
Qed.
Lemma layout_total ord : (forall c, In c ord -> inside c) -> exists ps ws, layout (oc rmaj) n ord = Some (ps, ws).
Proof.
  intro H. destruct (layout_ok (oc rmaj) n ord) as (ps & ws & E & _); [intros x Hx; apply inside_seg; apply H; exact Hx|]. eauto.
Qed.

(** *** fastBuild *)
Lemma fast_ok mirror cs r : (forall c, In c (flat_map (expand mirror) cs) -> inside c) -> fast_run (V := V) rmaj mirror nr nc cs r ->
  exists m, r = Some m /\ rm m = rmaj /\ nrows m = nr /\ ncols m = nc /\ wf_topo m /\ Permutation (map fst (cells m)) (flat_map (expand mirror) cs).
Proof.
  intros H (ord & P & R). assert (H' : forall c, In c ord -> inside c) by (intros c Hc; apply H; eapply Permutation_in; eauto).
  destruct (layout_total ord H') as (ps & ws & E). rewrite E in R. destruct R as (a & st & La & Ps & ->).
  destruct (topo_common ord ps ws [] H' E) as (W & PC & _ & RS). rewrite (RS a st La Ps). cbn [bind]. eexists. split; [reflexivity|].
  repeat (split; [reflexivity|]). split; [exact W|]. etransitivity; [exact PC|exact P].
Qed.
Lemma fast_total mirror cs : (forall c, In c (flat_map (expand mirror) cs) -> inside c) -> exists r, fast_run (V := V) rmaj mirror nr nc cs r.
Proof.
  intro H. destruct (layout_total _ H) as (ps & ws & E). eexists. exists (flat_map (expand mirror) cs). split; [reflexivity|]. rewrite E.
  exists (repeat 0 (nth n ps 0)). eexists. split; [apply repeat_length|]. split; reflexivity.
Qed.

(** *** topology with the table *)
Definition closed (mirror : bool) (cs : list coord_t) (c : coord_t) : Prop := In c cs \/ (mirror = true /\ In (swap c) cs).
Record hinv (mirror : bool) (cs : list coord_t) (s : list task * list coord_t) : Prop := {
  h_nd : NoDup (snd s);
  h_in : forall c, In c (snd s) -> closed mirror cs c;
  h_task : forall c b, In (c, b) (fst s) -> closed mirror cs c;
  h_all : forall c, In c cs -> In c (snd s) \/ In (c, true) (fst s);
  h_sym : mirror = true -> forall c, In c (snd s) -> In (swap c) (snd s) \/ In (swap c, false) (fst s);
  h_prim : forall c, In (c, true) (fst s) -> In c cs;
  h_mir : forall c, In (c, false) (fst s) -> In (swap c) (snd s) }.
Lemma swap_swap c : swap (swap c) = c.
Proof. destruct c; reflexivity. Qed.
Lemma hstep_inv mirror cs s s' : hinv mirror cs s -> hash_step mirror s s' -> hinv mirror cs s'.
Proof.
  intros H St. destruct St as [p1 p2 c b tab Hni|p1 p2 c b tab Hin]; destruct H as [A B T C D Pr Mi]; cbn [fst snd] in *.
  - assert (Cc : closed mirror cs c) by (apply (T c b); apply in_or_app; right; left; reflexivity).
    set (sp := if b && mirror && negb (fst c =? snd c) then [(swap c, false)] else []) in *.
    assert (Old : forall x, In x (p1 ++ (c, b) :: p2) -> x = (c, b) \/ In x (p1 ++ sp ++ p2)).
    { intros x Hx. apply in_app_or in Hx. cbn in Hx. rewrite !in_app_iff. intuition. }
    assert (New : forall x, In x (p1 ++ sp ++ p2) -> In x (p1 ++ (c, b) :: p2) \/ (In x sp)).
    { intros x Hx. rewrite !in_app_iff in Hx. rewrite in_app_iff. cbn. intuition. }
    assert (Sp : forall x, In x sp -> x = (swap c, false) /\ b = true /\ mirror = true).
    { unfold sp. destruct b, mirror; cbn; try tauto. destruct (fst c =? snd c); cbn; intuition. }
    constructor; cbn [fst snd].
    + apply (Permutation_NoDup (Permutation_cons_append tab c)). constructor; assumption.
    + intros x Hx. apply in_app_or in Hx as [Hx|[<-|[]]]; auto.
    + intros x b' Hx. apply New in Hx as [Hx|Hx]; [eauto|]. apply Sp in Hx as (E & Eb & Em). inversion E; subst. unfold closed in *. rewrite swap_swap. destruct Cc as [|[_ Cc]]; [right; auto|left; exact Cc].
    + intros x Hx. destruct (C x Hx) as [Hc|Hc]; [left; apply in_or_app; auto|]. apply Old in Hc as [Hc|Hc]; [inversion Hc; subst; left; apply in_or_app; right; left; reflexivity|right; exact Hc].
    + intros Em x Hx. apply in_app_or in Hx as [Hx|[<-|[]]].
      * destruct (D Em x Hx) as [Hs|Hs]; [left; apply in_or_app; auto|]. apply Old in Hs as [Hs|Hs]; [inversion Hs; subst; left; apply in_or_app; right; left; reflexivity|right; exact Hs].
      * destruct b.
        -- destruct (Nat.eqb_spec (fst c) (snd c)) as [Q|Q].
           ++ left. apply in_or_app. right. left. destruct c; cbn in *; unfold swap; cbn; congruence.
           ++ right. rewrite !in_app_iff. right. left. unfold sp. rewrite Em. destruct (Nat.eqb_spec (fst c) (snd c)); [contradiction|]. left. reflexivity.
        -- left. apply in_or_app. left. apply (Mi c). apply in_or_app. right. left. reflexivity.
    + intros x Hx. apply New in Hx as [Hx|Hx]; [auto|]. apply Sp in Hx as (E & _). discriminate.
    + intros x Hx. apply in_or_app. apply New in Hx as [Hx|Hx]; [left; auto|]. apply Sp in Hx as (E & _). inversion E; subst. rewrite swap_swap. right. left. reflexivity.
  - assert (Old : forall x, In x (p1 ++ (c, b) :: p2) -> x = (c, b) \/ In x (p1 ++ p2)).
    { intros x Hx. apply in_app_or in Hx. cbn in Hx. rewrite in_app_iff. intuition. }
    assert (New : forall x, In x (p1 ++ p2) -> In x (p1 ++ (c, b) :: p2)).
    { intros x Hx. rewrite in_app_iff in *. cbn. intuition. }
    constructor; cbn [fst snd]; eauto.
    + intros x Hx. destruct (C x Hx) as [Hc|Hc]; [auto|]. apply Old in Hc as [Hc|Hc]; [inversion Hc; subst; auto|auto].
    + intros Em x Hx. destruct (D Em x Hx) as [Hs|Hs]; [auto|]. apply Old in Hs as [Hs|Hs]; [inversion Hs; subst; auto|auto].
Qed.
Lemma hrun_inv mirror cs s s' : hinv mirror cs s -> hash_run mirror s s' -> hinv mirror cs s'.
Proof. intros H R. induction R as [s|s1 s2 s3 R IH St]; [exact H|]. exact (hstep_inv _ _ _ _ (IH H) St). Qed.
Lemma hash_tab mirror cs tab : hash_run mirror (map (fun c => (c, true)) cs, []) ([], tab) -> NoDup tab /\ forall c, In c tab <-> closed mirror cs c.
Proof.
  intros R. assert (H : hinv mirror cs ([], tab)).
  { eapply hrun_inv; [|exact R]. assert (IM : forall c b, In (c, b) (map (fun c => (c, true)) cs) -> b = true /\ In c cs) by (intros c b Hc; apply in_map_iff in Hc as (x & E & Hx); inversion E; subst; auto).
    constructor; cbn [fst snd]; try (intros; contradiction); [constructor| | | |].
    - intros c b Hc. apply IM in Hc. left. apply Hc.
    - intros c Hc. right. apply in_map_iff. eauto.
    - intros c Hc. apply IM in Hc. apply Hc.
    - intros c Hc. apply IM in Hc. destruct Hc. discriminate. }
  destruct H as [A B T C D Pr Mi]. cbn [fst snd] in *. split; [exact A|]. intro c. split; [apply B|]. intros [Hc|[Em Hc]].
  - destruct (C c Hc) as [|[]]; assumption.
  - destruct (C _ Hc) as [Hs|[]]. destruct (D Em _ Hs) as [Hx|[]]. rewrite swap_swap in Hx. exact Hx.
Qed.
Lemma coord_dec (a b : coord_t) : {a = b} + {a <> b}.
Proof. decide equality; apply Nat.eq_dec. Qed.
Lemma hash_total mirror : forall fuel pool tab, length pool + length (filter (fun t => snd t) pool) <= fuel -> exists tab', hash_run mirror (pool, tab) ([], tab').
Proof.
  induction fuel as [|f IH]; intros pool tab Hf; (destruct pool as [|[c b] pool]; [exists tab; constructor|]); cbn [length] in Hf; [lia|].
  assert (Tr : forall s1 s2 s3, hash_step mirror s1 s2 -> hash_run mirror s2 s3 -> hash_run mirror s1 s3).
  { intros s1 s2 s3 St R. induction R as [s|a b' c' R IHR St']; [eapply HR_step; [constructor|exact St]|]. eapply HR_step; [apply IHR; exact St|exact St']. }
  cbn [filter snd] in Hf. destruct (in_dec coord_dec c tab) as [I|I].
  - destruct (IH pool tab) as (tab' & R); [destruct b; cbn in Hf; lia|]. exists tab'. eapply Tr; [apply (HS_old mirror [] pool c b tab I)|exact R].
  - destruct (IH ((if b && mirror && negb (fst c =? snd c) then [(swap c, false)] else []) ++ pool) (tab ++ [c])) as (tab' & R).
    { destruct b, mirror; cbn in *; try lia. destruct (fst c =? snd c); cbn in *; lia. }
    exists tab'. eapply Tr; [apply (HS_new mirror [] pool c b tab I)|exact R].
Qed.
Lemma topo_total mirror cs : (forall c, closed mirror cs c -> inside c) -> exists r, topo_run (V := V) rmaj mirror nr nc cs r.
Proof.
  intro H. destruct (hash_total mirror _ (map (fun c => (c, true)) cs) [] (Nat.le_refl _)) as (tab & R). destruct (hash_tab _ _ _ R) as [_ T].
  assert (H' : forall c, In c tab -> inside c) by (intros c Hc; apply H; apply T; exact Hc).
  destruct (layout_total tab H') as (ps & ws & E). eexists. exists tab, tab. split; [exact R|]. split; [reflexivity|]. rewrite E.
  exists (repeat 0 (nth n ps 0)). eexists. split; [apply repeat_length|]. split; reflexivity.
Qed.
Lemma nodup_nth {A} (l : list A) i j x : NoDup l -> nth_error l i = Some x -> nth_error l j = Some x -> i = j.
Proof. intros N Hi Hj. rewrite NoDup_nth_error in N. apply N; [eapply nth_error_some_lt; eauto|congruence]. Qed.
Lemma topo_ok mirror cs r : (forall c, closed mirror cs c -> inside c) -> topo_run (V := V) rmaj mirror nr nc cs r ->
  exists m, r = Some m /\ rm m = rmaj /\ nrows m = nr /\ ncols m = nc /\ wf_topo m /\ unique m /\
    forall i j, (exists k, stored m i j k) <-> closed mirror cs (i, j).
Proof.
  intros H (tab & ord & Hr & P & R). destruct (hash_tab _ _ _ Hr) as [ND T].
  assert (H' : forall c, In c ord -> inside c) by (intros c Hc; apply H; apply T; eapply Permutation_in; eauto).
  destruct (layout_total ord H') as (ps & ws & E). rewrite E in R. destruct R as (a & st & La & Ps & ->).
  destruct (topo_common ord ps ws [] H' E) as (W & PC & SB & RS). rewrite (RS a st La Ps). cbn [bind]. eexists. split; [reflexivity|].
  repeat (split; [reflexivity|]). split; [exact W|].
  pose proof (bins_perm (oc rmaj) n ord (fun x Hx => proj1 (inside_seg x (H' x Hx)))) as PB.
  split.
  - intros i j k k' A B. apply SB in A. apply SB in B. eapply nodup_nth; [|exact A|exact B]. eapply Permutation_NoDup; [exact PB|]. eapply Permutation_NoDup; [symmetry; exact P|exact ND].
  - intros i j. rewrite <- T. split.
    + intros (k & A). apply SB in A. apply nth_error_In in A. eapply Permutation_in; [exact P|]. eapply Permutation_in; [symmetry; exact PB|exact A].
    + intros A. apply (Permutation_in _ (Permutation_sym P)), (Permutation_in _ PB), In_nth_error in A as [k A]. exists k. apply SB. exact A.
Qed.

(** *** build with values *)
Variable add : V -> V -> V.
Variable zero : V.
Hypothesis add_comm : forall a b, add a b = add b a.
Hypothesis add_assoc : forall a b c, add a (add b c) = add (add a b) c.
Hypothesis add_zero : forall a, add zero a = a.
Definition total_at (trip : list (coord_t * V)) (c : coord_t) : V := fold_right add zero (map snd (filter (fun t => ceq (fst t) c) trip)).
Lemma total_perm t1 t2 c : Permutation t1 t2 -> total_at t1 c = total_at t2 c.
Proof.
  unfold total_at. induction 1 as [|x l l' P IH|x y l|l1 l2 l3 P1 IH1 P2 IH2]; cbn; auto.
  - destruct (ceq (fst x) c); cbn; congruence.
  - destruct (ceq (fst x) c), (ceq (fst y) c); cbn; auto. rewrite !add_assoc. f_equal. apply add_comm.
  - congruence.
Qed.
Lemma total_snoc t c v c' : total_at (t ++ [(c, v)]) c' = if ceq c c' then add (total_at t c') v else total_at t c'.
Proof.
  rewrite (total_perm (t ++ [(c, v)]) ((c, v) :: t)) by (symmetry; apply Permutation_cons_append). unfold total_at. cbn. destruct (ceq c c'); cbn; [apply add_comm|reflexivity].
Qed.
Lemma dst_ok ws B c : (forall p e, In (p, e) ws -> nth_error B p = Some e) -> In c (map snd ws) -> exists d, dst_of ws c = Some d /\ nth_error B d = Some c.
Proof.
  intros Ag Hin. unfold dst_of. destruct (find (fun w => ceq c (snd w)) ws) as [[d c']|] eqn:F.
  - apply find_some in F as [Hw Ec]. apply ceq_spec in Ec. cbn in Ec. subst c'. exists d. split; [reflexivity|]. apply Ag. exact Hw.
  - exfalso. apply in_map_iff in Hin as ([d c'] & Ec & Hw). cbn in Ec. subst c'. pose proof (find_none _ _ F _ Hw) as Q. cbn in Q. rewrite ceq_refl in Q. discriminate.
Qed.
Lemma add_values_ok ws B : NoDup B -> (forall p e, In (p, e) ws -> nth_error B p = Some e) -> forall order done, (forall t, In t order -> In (fst t) (map snd ws)) ->
  add_values add ws (map (total_at done) B) order = Some (map (total_at (done ++ order)) B).
Proof.
  intros ND Ag. induction order as [|[c v] r IH]; intros done H; cbn [add_values]; [rewrite app_nil_r; reflexivity|].
  destruct (dst_ok ws B c Ag (H _ (or_introl eq_refl))) as (d & Ed & Hd). rewrite Ed. cbn [bind]. rewrite (map_nth_error _ _ _ Hd). cbn [bind].
  assert (U : upd (map (total_at done) B) d (add (total_at done c) v) = Some (map (total_at (done ++ [(c, v)])) B)).
  { destruct (upd_some (map (total_at done) B) d (add (total_at done c) v)) as [l' U]; [rewrite map_length; eapply nth_error_some_lt; eauto|]. rewrite U. f_equal. apply nth_error_ext. intro p.
    destruct (Nat.eq_dec p d) as [->|Np].
    - rewrite (upd_nth_eq _ _ _ _ U). rewrite (map_nth_error _ _ _ Hd). rewrite total_snoc, ceq_refl. reflexivity.
    - rewrite (upd_nth_neq _ _ _ _ _ U) by auto. rewrite !nth_error_map. destruct (nth_error B p) as [c'|] eqn:Ep; [|reflexivity]. cbn. f_equal. rewrite total_snoc.
      destruct (ceq c c') eqn:Q; [|reflexivity]. apply ceq_spec in Q. subst c'. exfalso. apply Np. eapply nodup_nth; eauto. }
  rewrite U. cbn [bind]. rewrite IH by (intros t Ht; apply H; right; exact Ht). rewrite <- app_assoc. reflexivity.
Qed.
Lemma index_stores_ok ws B : (forall p e, In (p, e) ws -> nth_error B p = Some e) -> forall order : list (coord_t * V), (forall t, In t order -> In (fst t) (map snd ws)) ->
  exists st, index_stores rmaj ws order = Some st /\ (forall p x, In (p, x) st -> nth_error (map (ic rmaj) B) p = Some x) /\
    (forall c, In c (map fst order) -> exists p, In p (map fst st) /\ nth_error B p = Some c).
Proof.
  intros Ag. induction order as [|[c v] r IH]; intros H; cbn [index_stores].
  - exists []. split; [reflexivity|]. split; [intros p x []|intros c []].
  - destruct (dst_ok ws B c Ag (H _ (or_introl eq_refl))) as (d & Ed & Hd). rewrite Ed. cbn [bind].
    destruct IH as (st & E & A & C); [intros t Ht; apply H; right; exact Ht|]. rewrite E. cbn [bind]. eexists. split; [reflexivity|]. split.
    + intros p x [Q|Q]; [inversion Q; subst; apply map_nth_error; exact Hd|apply A; exact Q].
    + intros c' [<-|Hc]; [exists d; split; [left; reflexivity|exact Hd]|]. destruct (C c' Hc) as (p & Hp & Hq). exists p. split; [right; exact Hp|exact Hq].
Qed.
Lemma build_ok trip r : (forall t, In t trip -> inside (fst t)) -> build_run rmaj add zero nr nc trip r ->
  exists m, r = Some m /\ rm m = rmaj /\ nrows m = nr /\ ncols m = nc /\ wf m /\ unique m /\
    (forall i j, (exists k, stored m i j k) <-> In (i, j) (map fst trip)) /\
    (forall i j k, stored m i j k -> nth_error (vals m) k = Some (total_at trip (i, j))).
Proof.
  intros H (tab & ord & o1 & o2 & ND & T & P & P1 & P2 & R).
  assert (Hord : forall c, In c ord <-> In c (map fst trip)) by (intro c; rewrite <- T; split; apply Permutation_in; [|symmetry]; exact P).
  assert (H' : forall c, In c ord -> inside c) by (intros c Hc; apply Hord, in_map_iff in Hc as (t & <- & Ht); apply H; exact Ht).
  assert (Hs : forall x, In x ord -> oc rmaj x < n) by (intros x Hx; apply inside_seg; apply H'; exact Hx).
  destruct (layout_ok (oc rmaj) n ord Hs) as (ps & ws & E & Lp & Np & Ms & Ag & Cv & LB & Tot). rewrite E in R. destruct R as (a & La & ->).
  pose proof (bins_perm (oc rmaj) n ord Hs) as PB. set (B := bins (oc rmaj) n ord) in *.
  assert (NB : NoDup B) by (eapply Permutation_NoDup; [exact PB|]; eapply Permutation_NoDup; [symmetry; exact P|exact ND]).
  assert (HB : forall c, In c B <-> In c (map fst trip)) by (intro c; rewrite <- Hord; split; apply Permutation_in; [symmetry|]; exact PB).
  assert (In1 : forall t, In t o1 -> In (fst t) (map snd ws)) by (intros t Ht; rewrite Ms; apply Hord; apply in_map; eapply Permutation_in; [exact P1|exact Ht]).
  assert (In2 : forall t, In t o2 -> In (fst t) (map snd ws)) by (intros t Ht; rewrite Ms; apply Hord; apply in_map; eapply Permutation_in; [exact P2|exact Ht]).
  destruct (index_stores_ok ws B Ag o1 In1) as (st & Est & Ast & Cst). rewrite Est. cbn [bind].
  rewrite (stores_cover (map (ic rmaj) B) st a).
  2: { rewrite map_length. lia. }
  2: { exact Ast. }
  2: { intros p Hp. rewrite map_length in Hp. destruct (nth_error_lt_some B p Hp) as [c Hc]. destruct (Cst c) as (q & Hq & Hqc).
       - eapply Permutation_in; [apply Permutation_map; symmetry; exact P1|]. apply HB. eapply nth_error_In; eauto.
       - assert (p = q) by (eapply nodup_nth; eauto). subst q. exact Hq. }
  cbn [bind]. rewrite skipn_all2 by (rewrite map_length; lia). rewrite app_nil_r.
  assert (Z0 : repeat zero (nth n ps 0) = map (total_at []) B).
  { rewrite Tot, <- LB. clear. induction B; cbn; [reflexivity|]. f_equal. exact IHB. }
  rewrite Z0. rewrite (add_values_ok ws B NB Ag o2 []) by exact In2. cbn [bind app].
  destruct (topo_common ord ps ws (map (total_at o2) B) H' E) as (W & PC & SB & _). eexists. split; [reflexivity|]. repeat (split; [reflexivity|]).
  split; [split; [exact W|cbn [vals inds]; rewrite !map_length; reflexivity]|].
  split; [intros i j k k' A A'; apply SB in A; apply SB in A'; eapply nodup_nth; eauto|]. split.
  - intros i j. rewrite <- HB. split; [intros (k & A); apply SB in A; eapply nth_error_In; eauto|]. intros A. apply In_nth_error in A as [k A]. exists k. apply SB. exact A.
  - intros i j k A. apply SB in A. cbn [vals]. rewrite (map_nth_error _ _ _ A). f_equal. apply total_perm. exact P2.
Qed.
Lemma build_total trip : (forall t, In t trip -> inside (fst t)) -> exists r, build_run rmaj add zero nr nc trip r.
Proof.
  intro H. set (tab := nodup coord_dec (map fst trip)). assert (T : forall c, In c tab <-> In c (map fst trip)) by (intro c; apply nodup_In).
  destruct (layout_total tab) as (ps & ws & E). { intros c Hc. apply T, in_map_iff in Hc as (t & <- & Ht). apply H. exact Ht. }
  eexists. exists tab, tab, trip, trip. split; [apply NoDup_nodup|]. split; [exact T|]. repeat (split; [reflexivity|]). rewrite E. exists (repeat 0 (nth n ps 0)). split; [apply repeat_length|reflexivity].
Qed.
End B.
