From Coq Require Import Sorted.
From Verif Require Import Prelude UptrModel UptrProofs SortModel SortSpec SortProofs RadixModel RadixSpec.

Lemma flat_map_ext' {A B} (f g : A -> list B) l : (forall x, In x l -> f x = g x) -> flat_map f l = flat_map g l.
Proof. induction l as [|a l IH]; intro H; cbn; [reflexivity|]. rewrite H by (left; reflexivity). f_equal. apply IH. intros; apply H; right; assumption. Qed.

Section C.
Context {V : Type}.
Notation E := (Z * V)%type.
Variable dig : E -> nat.
Definition cnt (d : nat) (l : list E) : nat := length (filter (fun e => dig e =? d) l).
Definition bins (bc : nat) (l : list E) : list E := flat_map (fun d => filter (fun e => dig e =? d) l) (seq 0 bc).
Lemma cnt_app d l r : cnt d (l ++ r) = cnt d l + cnt d r.
Proof. unfold cnt. rewrite filter_app, app_length. reflexivity. Qed.
Lemma cnt_one d e : cnt d [e] = if dig e =? d then 1 else 0.
Proof. unfold cnt. cbn. destruct (dig e =? d); reflexivity. Qed.

Lemma histogram_ok bc l : (forall e, In e l -> dig e < bc) -> exists h, histogram bc dig l = Some h /\ forall d, h d = cnt d l.
Proof.
  intro H. unfold histogram.
  assert (G : forall f, exists h, fold_left (count1 bc dig) l (Some f) = Some h /\ forall d, h d = f d + cnt d l).
  { induction l as [|e l IH]; intro f.
    - exists f. split; [reflexivity|]. intro d. unfold cnt; cbn. lia.
    - cbn [fold_left]. unfold count1 at 2. cbn [bind]. destruct (Nat.ltb_spec (dig e) bc) as [Q|Q]; [|specialize (H e (or_introl eq_refl)); lia].
      destruct (IH (fun x Hx => H x (or_intror Hx)) (fset f (dig e) (S (f (dig e))))) as (h & E & K). exists h. split; [exact E|].
      intro d. rewrite K. change (e :: l) with ([e] ++ l). rewrite cnt_app, cnt_one. unfold fset. destruct (Nat.eqb_spec d (dig e)) as [->|Ne].
      + rewrite Nat.eqb_refl. lia.
      + destruct (Nat.eqb_spec (dig e) d); [congruence|]. lia. }
  destruct (G (fun _ => 0)) as (h & E & K). exists h. split; [exact E|]. intro d. rewrite K. reflexivity.
Qed.

(** where each element goes, given the first free slot of each bin *)
Fixpoint places (base : nat -> nat) (l : list E) : list (nat * E) :=
  match l with [] => [] | e :: r => (base (dig e), e) :: places (fset base (dig e) (S (base (dig e)))) r end.
Lemma places_ext l : forall b b', (forall d, b d = b' d) -> places b l = places b' l.
Proof.
  induction l as [|e l IH]; intros b b' H; cbn; [reflexivity|]. rewrite H. f_equal. apply IH. intro d. unfold fset. destruct (d =? dig e); [reflexivity|apply H].
Qed.
Lemma places_app l r : forall b, places b (l ++ r) = places b l ++ places (fun d => b d + cnt d l) r.
Proof.
  induction l as [|e l IH]; intro b; cbn [app places].
  - apply places_ext. intro d. unfold cnt; cbn. lia.
  - cbn [app]. f_equal. rewrite IH. f_equal. apply places_ext. intro d. change (e :: l) with ([e] ++ l). rewrite cnt_app, cnt_one. unfold fset.
    destruct (Nat.eqb_spec d (dig e)) as [->|Ne]; [rewrite Nat.eqb_refl; lia|]. destruct (Nat.eqb_spec (dig e) d); [congruence|]. lia.
Qed.
Lemma scatter_ext l : forall b b', (forall d, b d = b' d) -> scatter_writes dig l b = scatter_writes dig l b'.
Proof.
  induction l as [|e l IH]; intros b b' H; cbn; [reflexivity|]. rewrite <- H. destruct (b (dig e)); [reflexivity|].
  erewrite IH; [reflexivity|]. intro d. unfold fset. destruct (d =? dig e); [reflexivity|apply H].
Qed.
Lemma scatter_ok l base : forall ends, (forall d, ends d = base d + cnt d l) -> scatter_writes dig (rev l) ends = Some (rev (places base l)).
Proof.
  induction l as [|e l IH] using rev_ind; intros ends H; [reflexivity|].
  rewrite rev_app_distr. cbn [rev app scatter_writes].
  assert (K : ends (dig e) = S (base (dig e) + cnt (dig e) l)) by (rewrite H, cnt_app, cnt_one, Nat.eqb_refl; lia). rewrite K.
  rewrite (IH (fset ends (dig e) (base (dig e) + cnt (dig e) l))).
  - cbn [bind]. rewrite places_app. cbn [places]. rewrite rev_app_distr. reflexivity.
  - intro d. unfold fset. destruct (Nat.eqb_spec d (dig e)) as [->|Ne]; [reflexivity|]. rewrite H, cnt_app, cnt_one.
    destruct (Nat.eqb_spec (dig e) d); [congruence|]. lia.
Qed.
Lemma in_places l p e : forall base, In (p, e) (places base l) <-> exists pre post, l = pre ++ e :: post /\ p = base (dig e) + cnt (dig e) pre.
Proof.
  intro base. split.
  - revert base. induction l as [|x l IH]; intros base H; [destruct H|]. cbn in H. destruct H as [H|H].
    + injection H as <- <-. exists [], l. unfold cnt; cbn. split; [reflexivity|lia].
    + apply IH in H as (pre & post & -> & ->). exists (x :: pre), post. split; [reflexivity|]. change (x :: pre) with ([x] ++ pre). rewrite cnt_app, cnt_one. unfold fset.
      destruct (Nat.eqb_spec (dig e) (dig x)) as [Q|Q]; [rewrite <- Q, Nat.eqb_refl; lia|]. destruct (Nat.eqb_spec (dig x) (dig e)); [congruence|]. lia.
  - intros (pre & post & -> & ->). rewrite places_app. apply in_app_iff. right. left. reflexivity.
Qed.

(** the bins list *)
Lemma bins_split bc d l : d < bc -> exists post, bins bc l = bins d l ++ filter (fun e => dig e =? d) l ++ post.
Proof.
  intro H. unfold bins. exists (flat_map (fun d => filter (fun e => dig e =? d) l) (seq (S d) (bc - S d))).
  replace (seq 0 bc) with (seq 0 d ++ [d] ++ seq (S d) (bc - S d)).
  - rewrite !flat_map_app. cbn [flat_map]. rewrite app_nil_r. reflexivity.
  - cbn [app]. replace bc with (d + S (bc - S d)) at 2 by lia. rewrite seq_app. reflexivity.
Qed.
Lemma bins_length d l : length (bins d l) = offsets (fun i => cnt i l) d.
Proof.
  induction d as [|d IH]; [reflexivity|]. unfold bins in *. replace (S d) with (d + 1) by lia. rewrite seq_app, flat_map_app, app_length, IH. cbn [seq flat_map].
  rewrite app_nil_r. rewrite Nat.add_1_r. reflexivity.
Qed.
Lemma bins_nth bc l pre e post : (forall x, In x l -> dig x < bc) -> l = pre ++ e :: post ->
  nth_error (bins bc l) (offsets (fun i => cnt i l) (dig e) + cnt (dig e) pre) = Some e.
Proof.
  intros H El. assert (Hd : dig e < bc) by (apply H; rewrite El; apply in_app_iff; right; left; reflexivity).
  destruct (bins_split bc (dig e) l Hd) as [q ->]. rewrite nth_error_app2 by (rewrite bins_length; lia). rewrite bins_length.
  replace (_ + cnt (dig e) pre - _) with (cnt (dig e) pre) by lia. rewrite El, filter_app. cbn [filter]. rewrite Nat.eqb_refl. rewrite <- app_assoc. unfold cnt.
  rewrite nth_error_app2 by lia. rewrite Nat.sub_diag. reflexivity.
Qed.
Lemma bins_perm bc l : (forall x, In x l -> dig x < bc) -> Permutation l (bins bc l).
Proof.
  induction l as [|e l IH]; intro H.
  - unfold bins. induction (seq 0 bc); [constructor|exact IHl].
  - apply Permutation_trans with (e :: bins bc l); [constructor; apply IH; intros; apply H; right; assumption|].
    assert (Hd : dig e < bc) by (apply H; left; reflexivity).
    assert (B : bins bc (e :: l) = bins (dig e) l ++ (e :: filter (fun x => dig x =? dig e) l) ++ flat_map (fun d => filter (fun x => dig x =? d) l) (seq (S (dig e)) (bc - S (dig e)))).
    { unfold bins. replace (seq 0 bc) with (seq 0 (dig e) ++ [dig e] ++ seq (S (dig e)) (bc - S (dig e))).
      - rewrite !flat_map_app. f_equal; [|f_equal].
        + apply flat_map_ext'. intros d Hd'. apply in_seq in Hd'. cbn [filter]. destruct (Nat.eqb_spec (dig e) d); [lia|reflexivity].
        + cbn [flat_map filter]. rewrite Nat.eqb_refl, app_nil_r. reflexivity.
        + apply flat_map_ext'. intros d Hd'. apply in_seq in Hd'. cbn [filter]. destruct (Nat.eqb_spec (dig e) d); [lia|reflexivity].
      - cbn [app]. replace bc with (dig e + S (bc - S (dig e))) at 2 by lia. rewrite seq_app. reflexivity. }
    rewrite B. assert (B' : bins bc l = bins (dig e) l ++ filter (fun x => dig x =? dig e) l ++ flat_map (fun d => filter (fun x => dig x =? d) l) (seq (S (dig e)) (bc - S (dig e)))).
    { unfold bins. replace (seq 0 bc) with (seq 0 (dig e) ++ [dig e] ++ seq (S (dig e)) (bc - S (dig e))).
      - rewrite !flat_map_app. cbn [flat_map]. rewrite app_nil_r. reflexivity.
      - cbn [app]. replace bc with (dig e + S (bc - S (dig e))) at 2 by lia. rewrite seq_app. reflexivity. }
    rewrite B'. cbn [app]. apply Permutation_middle.
Qed.

(** any order of writes that all agree with a target list and cover it *)
Lemma run_agree (T : list E) ws : forall next, length next = length T -> (forall p e, In (p, e) ws -> nth_error T p = Some e) ->
  exists next', run_writes next ws = Some next' /\ length next' = length T /\
    forall p, (nth_error next p = nth_error T p \/ In p (map fst ws)) -> nth_error next' p = nth_error T p.
Proof.
  unfold run_writes. induction ws as [|[p e] ws IH]; intros next Ln H.
  - exists next. split; [reflexivity|]. split; [exact Ln|]. intros p [Q|[]]; exact Q.
  - cbn [fold_left]. unfold store1 at 2. cbn [bind fst snd]. pose proof (H p e (or_introl eq_refl)) as Hp.
    assert (Lp : p < length next) by (rewrite Ln; eapply nth_error_some_lt; exact Hp).
    destruct (upd_some next p e Lp) as [n1 E1]. rewrite E1. pose proof (upd_length _ _ _ _ E1) as L1.
    destruct (IH n1) as (n' & E' & L' & V'); [lia|intros; apply H; right; assumption|]. exists n'. split; [exact E'|]. split; [exact L'|].
    intros q Hq. apply V'. destruct (Nat.eq_dec q p) as [->|Ne]; [left; rewrite (upd_nth_eq _ _ _ _ E1); auto|].
    destruct Hq as [Hq|[Hq|Hq]]; [left|cbn in Hq; congruence|right; exact Hq]. rewrite (upd_nth_neq _ _ _ _ _ E1) by auto. exact Hq.
Qed.
Lemma offset_find f : forall bc p, p < offsets f bc -> exists d, d < bc /\ offsets f d <= p < offsets f d + f d.
Proof.
  induction bc as [|bc IH]; intros p H; cbn in H; [lia|]. destruct (Nat.lt_ge_cases p (offsets f bc)) as [L|L].
  - destruct (IH p L) as (d & Hd & R). exists d. split; [lia|exact R].
  - exists bc. split; [lia|lia].
Qed.
Lemma nth_occ d l : forall k, k < cnt d l -> exists pre e post, l = pre ++ e :: post /\ dig e = d /\ cnt d pre = k.
Proof.
  induction l as [|x l IH]; intros k H; [unfold cnt in H; cbn in H; lia|]. change (x :: l) with ([x] ++ l) in H. rewrite cnt_app, cnt_one in H.
  destruct (Nat.eqb_spec (dig x) d) as [Q|Q].
  - destruct k as [|k]; [exists [], x, l; auto|]. destruct (IH k ltac:(lia)) as (pre & e & post & -> & Ed & Ec). exists (x :: pre), e, post. split; [reflexivity|]. split; [exact Ed|].
    change (x :: pre) with ([x] ++ pre). rewrite cnt_app, cnt_one, Ec. destruct (Nat.eqb_spec (dig x) d); [lia|contradiction].
  - destruct (IH k ltac:(lia)) as (pre & e & post & -> & Ed & Ec). exists (x :: pre), e, post. split; [reflexivity|]. split; [exact Ed|].
    change (x :: pre) with ([x] ++ pre). rewrite cnt_app, cnt_one, Ec. destruct (Nat.eqb_spec (dig x) d); [contradiction|lia].
Qed.
Lemma run_places bc l next order : (forall x, In x l -> dig x < bc) -> length next = length l ->
  Permutation order (places (offsets (fun i => cnt i l)) l) -> exists next', run_writes next order = Some next' /\ next' = bins bc l.
Proof.
  intros H Ln P. pose proof (Permutation_length (bins_perm bc l H)) as LB.
  destruct (run_agree (bins bc l) order next) as (n' & E' & L' & V'); [lia| |].
  - intros p e Hp. apply (Permutation_in _ P) in Hp. apply in_places in Hp as (pre & post & El & ->). eapply bins_nth; eassumption.
  - exists n'. split; [exact E'|]. apply nth_error_ext. intro p. destruct (Nat.lt_ge_cases p (length (bins bc l))) as [Lp|Lp].
    2: { rewrite !(proj2 (nth_error_None _ _)) by lia. reflexivity. }
    apply V'. right. apply (Permutation_in _ (Permutation_map fst (Permutation_sym P))).
    rewrite bins_length in Lp. destruct (offset_find (fun i => cnt i l) bc p Lp) as (d & Hd & R).
    destruct (nth_occ d l (p - offsets (fun i => cnt i l) d)) as (pre & e & post & El & Ed & Ec); [lia|].
    apply in_map_iff. exists (p, e). split; [reflexivity|]. apply in_places. exists pre, post. split; [exact El|]. rewrite Ed, Ec. lia.
Qed.

(** a pass: skipping or scattering both give the bins *)
Lemma filter_le {B} (f : B -> bool) l : length (filter f l) <= length l.
Proof. induction l; cbn; [lia|]. destruct (f a); cbn; lia. Qed.
Lemma bins_one bc l d : d < bc -> cnt d l = length l -> bins bc l = l.
Proof.
  intros Hd H. assert (Al : forall e, In e l -> dig e = d).
  { revert H. unfold cnt. induction l as [|x l IH]; intros H e He; [destruct He|]. cbn [filter] in H.
    pose proof (filter_le (fun e => dig e =? d) l). destruct (Nat.eqb_spec (dig x) d).
    - cbn [length] in H. destruct He as [<-|He]; [assumption|]. apply IH; [lia|exact He].
    - cbn [length] in H. lia. }
  assert (Fd : filter (fun e => dig e =? d) l = l).
  { clear H. induction l as [|x l IH]; [reflexivity|]. cbn [filter]. rewrite (Al x) by (left; reflexivity). rewrite Nat.eqb_refl. f_equal. apply IH. intros; apply Al; right; assumption. }
  assert (Fn : forall k, k <> d -> filter (fun e => dig e =? k) l = []).
  { intros k Hk. apply filter_none. intros y Hy. rewrite (Al y Hy). apply Nat.eqb_neq. auto. }
  unfold bins. replace (seq 0 bc) with (seq 0 d ++ [d] ++ seq (S d) (bc - S d)).
  - rewrite !flat_map_app. cbn [flat_map]. rewrite Fd, app_nil_r.
    assert (Z : forall ks, (forall k, In k ks -> k <> d) -> flat_map (fun k => filter (fun e => dig e =? k) l) ks = []).
    { induction ks as [|k ks IH]; intro Hk; cbn; [reflexivity|]. rewrite Fn by (apply Hk; left; reflexivity). apply IH. intros; apply Hk; right; assumption. }
    rewrite !Z; [cbn; apply app_nil_r| |]; intros k Hk; apply in_seq in Hk; lia.
  - cbn [app]. replace bc with (d + S (bc - S d)) at 2 by lia. rewrite seq_app. reflexivity.
Qed.
Lemma offsets_ext f g d : (forall i, f i = g i) -> offsets f d = offsets g d.
Proof. intro H. induction d; cbn; [reflexivity|]. rewrite IHd, H. reflexivity. Qed.
Lemma pass1_ok bc cur next : (forall x, In x cur -> dig x < bc) -> length next = length cur ->
  exists next', pass1 bc dig cur next = Some (bins bc cur, next') /\ length next' = length cur.
Proof.
  intros H Ln. unfold pass1. destruct (histogram_ok bc cur H) as (h & Eh & Hh). rewrite Eh. cbn [bind].
  destruct (existsb _ (seq 0 bc)) eqn:Ex.
  - apply existsb_exists in Ex as (d & Hd & Q). apply in_seq in Hd. apply Nat.eqb_eq in Q. rewrite Hh in Q. rewrite (bins_one bc cur d) by (lia || assumption).
    exists next. auto.
  - rewrite (scatter_ok cur (offsets (fun i => cnt i cur))) by (intro d; rewrite Hh, (offsets_ext h (fun i => cnt i cur)) by exact Hh; lia). cbn [bind].
    destruct (run_places bc cur next (rev (places (offsets (fun i => cnt i cur)) cur))) as (n' & En & ->); [exact H|exact Ln|symmetry; apply Permutation_rev|].
    rewrite En. cbn [bind]. exists cur. auto.
Qed.

Variable nths : nat.
Hypothesis N0 : 0 < nths.
Lemma chunk_slice (l : list E) t : chunk nths l t = slice l (nwork nths (length l) * t) (Nat.min (nwork nths (length l) * t + nwork nths (length l)) (length l)).
Proof. reflexivity. Qed.
Lemma chunk_in (l : list E) t x : In x (chunk nths l t) -> In x l.
Proof. unfold chunk. intro H. rewrite <- (firstn_skipn (nwork nths (length l) * t) l). apply in_app_iff. right.
  rewrite <- (firstn_skipn (Nat.min (nwork nths (length l) * t + nwork nths (length l)) (length l) - nwork nths (length l) * t) (skipn _ l)). apply in_app_iff. left. exact H.
Qed.
Lemma chunks_upto (l : list E) k : concat (map (chunk nths l) (seq 0 k)) = slice l 0 (Nat.min (nwork nths (length l) * k) (length l)).
Proof.
  set (n := nwork nths (length l)). induction k as [|k IH].
  - cbn [seq map concat]. rewrite slice_nil by lia. reflexivity.
  - rewrite seq_S, map_app, concat_app, IH. cbn [map concat Nat.add]. rewrite app_nil_r, chunk_slice. fold n. replace (n * S k) with (n * k + n) by lia.
    destruct (Nat.le_gt_cases (n * k) (length l)).
    + replace (Nat.min (n * k) (length l)) with (n * k) by lia. symmetry. apply slice_app. lia.
    + rewrite (slice_nil l (n * k)) by lia. rewrite app_nil_r. f_equal. lia.
Qed.
Lemma chunks_all (l : list E) : concat (map (chunk nths l) (seq 0 nths)) = l.
Proof.
  rewrite chunks_upto. assert (length l <= nwork nths (length l) * nths).
  { unfold nwork. pose proof (Nat.div_mod (length l + nths - 1) nths ltac:(lia)). pose proof (Nat.mod_upper_bound (length l + nths - 1) nths ltac:(lia)). lia. }
  replace (Nat.min _ _) with (length l) by lia. apply slice_all.
Qed.
Lemma histograms_ok bc l ts : (forall x, In x l -> dig x < bc) ->
  exists hs, histograms nths bc dig l ts = Some hs /\ Forall2 (fun t h => forall d, h d = cnt d (chunk nths l t)) ts hs.
Proof.
  intro H. induction ts as [|t ts IH]; cbn [histograms]; [exists []; auto|].
  destruct (histogram_ok bc (chunk nths l t)) as (h & Eh & Hh); [intros x Hx; apply H; eapply chunk_in; exact Hx|]. rewrite Eh. cbn [bind].
  destruct IH as (hs & -> & F). cbn [bind]. exists (h :: hs). auto.
Qed.
Lemma total_ok l ts hs : Forall2 (fun t h => forall d, h d = cnt d (chunk nths l t)) ts hs -> forall d, total hs d = cnt d (concat (map (chunk nths l) ts)).
Proof.
  intros F d. unfold total. assert (G : forall a, fold_left (fun a (h : nat -> nat) => a + h d) hs a = a + cnt d (concat (map (chunk nths l) ts))).
  { induction F as [|t h ts hs Hh F IH]; intro a; cbn [fold_left map concat]; [unfold cnt; cbn; lia|]. rewrite IH, cnt_app, Hh. lia. }
  apply G.
Qed.
Lemma all_writes_ok l ts hs : Forall2 (fun t h => forall d, h d = cnt d (chunk nths l t)) ts hs -> forall base,
  exists wss, all_writes nths dig l ts hs base = Some wss /\ Permutation (concat wss) (places base (concat (map (chunk nths l) ts))).
Proof.
  induction 1 as [|t h ts hs Hh F IH]; intro base; cbn [all_writes map concat].
  - exists []. split; [reflexivity|]. constructor.
  - rewrite (scatter_ok (chunk nths l t) base) by (intro d; rewrite Hh; lia). cbn [bind].
    destruct (IH (fun i => h i + base i)) as (wss & -> & P). cbn [bind]. eexists. split; [reflexivity|]. cbn [concat]. rewrite places_app.
    apply Permutation_app; [symmetry; apply Permutation_rev|]. rewrite P. erewrite places_ext; [reflexivity|]. intro d. cbn. rewrite Hh. lia.
Qed.
Lemma omp_pass_ok bc cur next r : (forall x, In x cur -> dig x < bc) -> length next = length cur -> omp_pass nths bc dig cur next r ->
  exists next', r = Some (bins bc cur, next') /\ length next' = length cur.
Proof.
  intros H Ln O. destruct (histograms_ok bc cur (seq 0 nths) H) as (hs0 & E0 & F0).
  pose proof (total_ok cur _ _ F0) as T0. rewrite chunks_all in T0.
  destruct (all_writes_ok cur _ _ F0 (offsets (total hs0))) as (w0 & EW & PW). rewrite chunks_all in PW.
  assert (PW' : Permutation (concat w0) (places (offsets (fun i => cnt i cur)) cur)).
  { rewrite PW. erewrite places_ext; [reflexivity|]. intro d. apply offsets_ext. exact T0. }
  destruct O as [Hf|hs Hh Ex|hs Hh Ex Hw|hs wss order Hh Ex Hw P].
  - congruence.
  - rewrite E0 in Hh. injection Hh as <-. apply existsb_exists in Ex as (d & Hd & Q). apply in_seq in Hd. apply Nat.eqb_eq in Q. rewrite T0 in Q.
    rewrite (bins_one bc cur d) by (lia || assumption). exists next. auto.
  - rewrite E0 in Hh. injection Hh as <-. congruence.
  - rewrite E0 in Hh. injection Hh as <-. rewrite EW in Hw. injection Hw as <-.
    destruct (run_places bc cur next order) as (n' & En & ->); [exact H|exact Ln|rewrite P; exact PW'|]. rewrite En. cbn [bind]. exists cur. auto.
Qed.
Lemma omp_pass_total bc cur next : exists r, omp_pass nths bc dig cur next r.
Proof.
  destruct (histograms nths bc dig cur (seq 0 nths)) as [hs|] eqn:E; [|eexists; apply OP_fail_hist; exact E].
  destruct (existsb (fun i => total hs i =? length cur) (seq 0 bc)) eqn:X; [eexists; eapply OP_skip; eassumption|].
  destruct (all_writes nths dig cur (seq 0 nths) hs (offsets (total hs))) as [w|] eqn:W; [|eexists; eapply OP_fail_writes; eassumption].
  eexists. eapply OP_run; try eassumption. apply Permutation_refl.
Qed.

(** least significant digit first: stable on the low part, then bins by the digit *)
Variable low : E -> Z.
Variable M : Z.
Hypothesis lowM : forall e, (0 <= low e < M)%Z.
Let key e := (low e + M * Z.of_nat (dig e))%Z.
Lemma key_lt x y : (key x <? key y)%Z = (dig x <? dig y) || ((dig x =? dig y) && (low x <? low y)%Z).
Proof.
  clear N0 nths. unfold key. pose proof (lowM x). pose proof (lowM y). destruct (Nat.ltb_spec (dig x) (dig y)) as [L|L]; cbn [orb].
  - apply Z.ltb_lt. assert (M * Z.of_nat (dig x) + M <= M * Z.of_nat (dig y))%Z by (replace (M * Z.of_nat (dig x) + M)%Z with (M * (Z.of_nat (dig x) + 1))%Z by ring; apply Z.mul_le_mono_nonneg_l; lia). lia.
  - destruct (Nat.eqb_spec (dig x) (dig y)) as [->|Ne]; cbn [andb].
    + destruct (Z.ltb_spec (low x) (low y)); [apply Z.ltb_lt; lia|apply Z.ltb_ge; lia].
    + apply Z.ltb_ge. assert (M * Z.of_nat (dig y) + M <= M * Z.of_nat (dig x))%Z by (replace (M * Z.of_nat (dig y) + M)%Z with (M * (Z.of_nat (dig y) + 1))%Z by ring; apply Z.mul_le_mono_nonneg_l; lia). lia.
Qed.
Lemma sorted_filter {B} (R : B -> B -> Prop) f l : StronglySorted R l -> StronglySorted R (filter f l).
Proof.
  induction 1 as [|a l S IH F]; cbn; [constructor|]. destruct (f a); [|exact IH]. constructor; [exact IH|].
  rewrite Forall_forall in *. intros x Hx. apply filter_In in Hx. apply F. apply Hx.
Qed.
Lemma filter_filter {B} (f g : B -> bool) l : filter f (filter g l) = filter (fun x => g x && f x) l.
Proof. induction l as [|a l IH]; cbn; [reflexivity|]. destruct (g a); cbn; [destruct (f a); rewrite IH; reflexivity|exact IH]. Qed.
Lemma lsd bc inp cur : (forall x, In x cur -> dig x < bc) -> stable_sort_of (fun x y => (low x <? low y)%Z) inp cur ->
  stable_sort_of (fun x y => (key x <? key y)%Z) inp (bins bc cur).
Proof.
  clear N0 nths. intros H (P & S & F). split; [|split].
  - rewrite P. apply bins_perm. exact H.
  - unfold bins. assert (G : forall k s, StronglySorted (fun x y => (key y <? key x)%Z = false) (flat_map (fun d => filter (fun e => dig e =? d) cur) (seq s k))); [|apply G].
    induction k as [|k IH]; intro s; [constructor|]. cbn [seq flat_map]. apply ss_app_iff. split; [|split; [apply IH|]].
    + assert (K : forall l, (forall x, In x l -> dig x = s) -> StronglySorted (fun x y => (low y <? low x)%Z = false) l -> StronglySorted (fun x y => (key y <? key x)%Z = false) l).
      { induction l as [|a l IHl]; intros Hl Sl; [constructor|]. inversion Sl; subst. constructor; [apply IHl; [intros; apply Hl; right; assumption|assumption]|].
        rewrite Forall_forall in *. intros y Hy. rewrite key_lt. rewrite (Hl a (or_introl eq_refl)), (Hl y (or_intror Hy)). rewrite Nat.ltb_irrefl, Nat.eqb_refl. cbn. auto. }
      apply K; [intros x Hx; apply filter_In in Hx as [_ Q]; apply Nat.eqb_eq in Q; exact Q|]. apply sorted_filter. exact S.
    + intros x y Hx Hy. apply filter_In in Hx as [_ Q]. apply Nat.eqb_eq in Q. apply in_flat_map in Hy as (d & Hd & Hy). apply in_seq in Hd.
      apply filter_In in Hy as [_ Q']. apply Nat.eqb_eq in Q'. rewrite key_lt. destruct (Nat.ltb_spec (dig y) (dig x)); [lia|]. destruct (Nat.eqb_spec (dig y) (dig x)); [lia|reflexivity].
  - intro z. set (comp := fun x y => (key x <? key y)%Z). set (lc := fun x y => (low x <? low y)%Z) in *.
    assert (Eq : forall x, equiv comp z x = (dig z =? dig x) && equiv lc z x).
    { intro x. unfold equiv, comp, lc. rewrite !key_lt. rewrite (Nat.eqb_sym (dig x) (dig z)).
      destruct (Nat.ltb_spec (dig z) (dig x)), (Nat.ltb_spec (dig x) (dig z)), (Nat.eqb_spec (dig z) (dig x)); try lia; cbn; reflexivity. }
    assert (Fe : forall l, filter (equiv comp z) l = filter (fun x => (dig z =? dig x) && equiv lc z x) l) by (intro l; apply filter_ext; exact Eq).
    rewrite (Fe inp). transitivity (filter (fun x => dig z =? dig x) (filter (equiv lc z) cur)).
    2: { rewrite F, filter_filter. apply filter_ext. intro x. apply andb_comm. }
    transitivity (filter (equiv comp z) cur); [|rewrite Fe, filter_filter; apply filter_ext; intro; apply andb_comm].
    unfold bins. destruct (Nat.lt_ge_cases (dig z) bc) as [Hz|Hz].
    + replace (seq 0 bc) with (seq 0 (dig z) ++ [dig z] ++ seq (Datatypes.S (dig z)) (bc - Datatypes.S (dig z))).
      * rewrite !flat_map_app, !filter_app. cbn [flat_map]. rewrite app_nil_r.
        assert (Z : forall ks, (forall k, In k ks -> k <> dig z) -> filter (equiv comp z) (flat_map (fun k => filter (fun e => dig e =? k) cur) ks) = []).
        { intros ks Hk. apply filter_none. intros y Hy. apply in_flat_map in Hy as (k & Hk' & Hy). apply filter_In in Hy as [_ Q]. apply Nat.eqb_eq in Q.
          rewrite Eq. destruct (Nat.eqb_spec (dig z) (dig y)); [|reflexivity]. exfalso. apply (Hk k Hk'). congruence. }
        rewrite !Z; [|intros k Hk; apply in_seq in Hk; lia|intros k Hk; apply in_seq in Hk; lia]. cbn [app]. rewrite app_nil_r, filter_filter. rewrite Fe. apply filter_ext. intro x.
        rewrite Eq, (Nat.eqb_sym (dig x)). destruct (dig z =? dig x); reflexivity.
      * cbn [app]. replace bc with (dig z + Datatypes.S (bc - Datatypes.S (dig z))) at 2 by lia. rewrite seq_app. reflexivity.
    + rewrite !filter_none; [reflexivity| |].
      * intros y Hy. rewrite Eq. specialize (H y Hy). destruct (Nat.eqb_spec (dig z) (dig y)); [lia|reflexivity].
      * intros y Hy. apply in_flat_map in Hy as (k & Hk & Hy). apply filter_In in Hy as [Hy _]. rewrite Eq. specialize (H y Hy). destruct (Nat.eqb_spec (dig z) (dig y)); [lia|reflexivity].
Qed.
End C.

Lemma stable_ext {A} (c c' : A -> A -> bool) i o : (forall x y, c x y = c' x y) -> stable_sort_of c i o -> stable_sort_of c' i o.
Proof.
  intros H (P & S & F). split; [exact P|]. split.
  - clear P F. unfold ascending in *. induction S as [|a l S IH Fa]; constructor; [exact IH|]. rewrite Forall_forall in *. intros x Hx. rewrite <- H. auto.
  - intro x. assert (K : forall l, filter (equiv c' x) l = filter (equiv c x) l) by (intro l; apply filter_ext; intro y; unfold equiv; rewrite !H; reflexivity).
    rewrite !K. apply F.
Qed.
(** as [stable_ext], comparing only elements of the list *)
Lemma stable_ext_in {A} (c c' : A -> A -> bool) (Q : A -> Prop) i o : (forall x y, Q x -> Q y -> c x y = c' x y) -> (forall x, In x i -> Q x) ->
  stable_sort_of c i o -> (forall x, In x i -> filter (equiv c' x) o = filter (equiv c' x) i) /\ ascending c' o.
Proof.
  intros H Hi (P & S & F). assert (Ho : forall x, In x o -> Q x) by (intros x Hx; apply Hi; eapply Permutation_in; [symmetry; exact P|exact Hx]). split.
  - intros x Hx. assert (K : forall l, (forall y, In y l -> Q y) -> filter (equiv c' x) l = filter (equiv c x) l).
    { intros l Hl. apply filter_ext_in. intros y Hy. unfold equiv. rewrite !H; auto. }
    rewrite !K by assumption. apply F.
  - clear P F. unfold ascending in *. induction S as [|a l S IH Fa]; constructor.
    + apply IH. intros; apply Ho; right; assumption.
    + rewrite Forall_forall in *. intros x Hx. rewrite <- H; [auto| |]; apply Ho; [right; exact Hx|left; reflexivity].
Qed.

Section T.
Local Open Scope Z_scope.
Lemma pow_pos n : 0 < 2 ^ Z.of_nat n. Proof. apply Z.pow_pos_nonneg; lia. Qed.
Lemma pow_add a b : 2 ^ Z.of_nat (a + b) = 2 ^ Z.of_nat a * 2 ^ Z.of_nat b.
Proof. rewrite Nat2Z.inj_add. apply Z.pow_add_r; lia. Qed.
Lemma bits_digit s st b u : (s <= st)%nat -> bits_at s (st + b) u = bits_at s st u + 2 ^ Z.of_nat (st - s) * ((u / 2 ^ Z.of_nat st) mod 2 ^ Z.of_nat b).
Proof.
  intro H. unfold bits_at. replace (st + b - s)%nat with ((st - s) + b)%nat by lia. rewrite pow_add.
  pose proof (pow_pos (st - s)). pose proof (pow_pos b). pose proof (pow_pos s). rewrite Z.rem_mul_r by lia. f_equal. f_equal. f_equal. rewrite Z.div_div by lia. f_equal. rewrite <- pow_add. f_equal. lia.
Qed.
Lemma bits_range s e u : 0 <= bits_at s e u < 2 ^ Z.of_nat (e - s).
Proof. apply Z.mod_pos_bound. apply pow_pos. Qed.
Lemma digit_val {V} w st b (e : Z * V) : (st + b <= w)%nat -> Z.of_nat (digit st (2 ^ Z.of_nat b - 1) e) = ((fst e mod 2 ^ Z.of_nat w) / 2 ^ Z.of_nat st) mod 2 ^ Z.of_nat b.
Proof.
  intro H. unfold digit. replace (2 ^ Z.of_nat b - 1) with (Z.ones (Z.of_nat b)) by (rewrite Z.ones_equiv; lia). rewrite Z.land_ones, Z.shiftr_div_pow2 by lia.
  set (c := fst e). pose proof (pow_pos b) as Pb. pose proof (pow_pos st) as Ps. rewrite Z2Nat.id by (apply Z.mod_pos_bound; lia).
  pose proof (pow_pos (w - st - b)) as Pr. assert (Ew : 2 ^ Z.of_nat w = 2 ^ Z.of_nat st * (2 ^ Z.of_nat b * 2 ^ Z.of_nat (w - st - b))) by (rewrite <- !pow_add; f_equal; lia).
  rewrite Ew. rewrite (Z.rem_mul_r c) by lia. rewrite Z.mul_comm with (n := 2 ^ Z.of_nat st), Z.div_add by lia. rewrite (Z.div_small (c mod _)) by (apply Z.mod_pos_bound; lia).
  rewrite Z.add_0_l. rewrite Z.rem_mul_r by lia. rewrite Z.mul_comm with (n := 2 ^ Z.of_nat b), Z.mod_add by lia. rewrite Z.mod_mod by lia. reflexivity.
Qed.
Lemma digit_lt {V} st b (e : Z * V) : (digit st (2 ^ Z.of_nat b - 1) e < 2 ^ b)%nat.
Proof.
  unfold digit. replace (2 ^ Z.of_nat b - 1) with (Z.ones (Z.of_nat b)) by (rewrite Z.ones_equiv; lia). rewrite Z.land_ones by lia.
  pose proof (pow_pos b). pose proof (Z.mod_pos_bound (Z.shiftr (fst e) (Z.of_nat st)) (2 ^ Z.of_nat b) ltac:(lia)). apply Nat2Z.inj_lt. rewrite Z2Nat.id by lia. rewrite Nat2Z.inj_pow. change (Z.of_nat 2) with 2. lia.
Qed.
Lemma pass_mask_val st ebit : (st < ebit)%nat -> pass_mask st ebit 255 = 2 ^ Z.of_nat (Nat.min 8 (ebit - st)) - 1.
Proof.
  intro H. unfold pass_mask. destruct (Nat.ltb_spec ebit (st + 8)).
  - replace (Nat.min 8 (ebit - st)) with (ebit - st)%nat by lia.
    assert (K : forall k, (k = 1 \/ k = 2 \/ k = 3 \/ k = 4 \/ k = 5 \/ k = 6 \/ k = 7)%nat -> Z.shiftr 255 (Z.of_nat (8 - k)) = 2 ^ Z.of_nat k - 1) by (intros k Hk; repeat destruct Hk as [->|Hk]; try rewrite Hk; reflexivity).
    replace (st + 8 - ebit)%nat with (8 - (ebit - st))%nat by lia. apply K. lia.
  - replace (Nat.min 8 (ebit - st)) with 8%nat by lia. reflexivity.
Qed.
Lemma pass_bins_val st ebit : (st < ebit)%nat -> pass_bins st ebit 256 = (2 ^ Nat.min 8 (ebit - st))%nat.
Proof.
  intro H. unfold pass_bins. destruct (Nat.ltb_spec ebit (st + 8)).
  - replace (Nat.min 8 (ebit - st)) with (ebit - st)%nat by lia. replace (st + 8 - ebit)%nat with (8 - (ebit - st))%nat by lia.
    change 256%nat with (2 ^ 8)%nat. replace (2 ^ 8)%nat with (2 ^ (ebit - st) * 2 ^ (8 - (ebit - st)))%nat by (rewrite <- Nat.pow_add_r; f_equal; lia).
    apply Nat.div_mul. apply Nat.pow_nonzero. lia.
  - replace (Nat.min 8 (ebit - st)) with 8%nat by lia. reflexivity.
Qed.

(** the sign flip *)
Lemma flip_invol k m : Z.lxor (Z.lxor k m) m = k.
Proof. rewrite Z.lxor_assoc, Z.lxor_nilpotent, Z.lxor_0_r. reflexivity. Qed.
Lemma flip_pos k m : (0 <= m) -> 0 <= k < 2 ^ m -> Z.lxor k (- 2 ^ m) = k - 2 ^ m.
Proof.
  intros Hm H. assert (Z.land k (- 2 ^ m) = 0).
  { apply Z.bits_inj'. intros i Hi. rewrite Z.land_spec, Z.bits_0. destruct (Z.lt_ge_cases i m).
    - rewrite (Z.bits_opp (2 ^ m)) by lia. replace (Z.pred (2 ^ m)) with (Z.ones m) by (rewrite Z.ones_equiv; reflexivity). rewrite Z.ones_spec_low by lia. apply andb_false_r.
    - destruct (Z.eq_dec k 0) as [->|]; [rewrite Z.bits_0; reflexivity|]. rewrite Z.bits_above_log2; [reflexivity|lia|]. apply Z.lt_le_trans with m; [apply Z.log2_lt_pow2; lia|lia]. }
  rewrite <- Z.add_nocarry_lxor by assumption. lia.
Qed.
Lemma flip_val w k : (0 < w)%nat -> key_ok w true k -> Z.lxor k (- 2 ^ (Z.of_nat w - 1)) mod 2 ^ Z.of_nat w = k + 2 ^ (Z.of_nat w - 1).
Proof.
  intros Hw H. cbn in H. set (m := Z.of_nat w - 1) in *. assert (Ew : 2 ^ Z.of_nat w = 2 * 2 ^ m) by (replace (Z.of_nat w) with (1 + m) by lia; rewrite Z.pow_add_r by lia; reflexivity).
  rewrite Ew. assert (0 < 2 ^ m) by (apply Z.pow_pos_nonneg; lia). destruct (Z.lt_ge_cases k 0).
  - assert (Q : Z.lxor k (- 2 ^ m) = k + 2 ^ m).
    { replace (k + 2 ^ m) with (Z.lxor (Z.lxor (k + 2 ^ m) (- 2 ^ m)) (- 2 ^ m)) by apply flip_invol. f_equal. rewrite flip_pos by lia. lia. }
    rewrite Q. apply Z.mod_small. lia.
  - rewrite flip_pos by lia. replace (k - 2 ^ m) with ((k + 2 ^ m) + (-1) * (2 * 2 ^ m)) by lia. rewrite Z.mod_add by lia. apply Z.mod_small. lia.
Qed.
Lemma tr_val {V} w sgn (e : Z * V) : (0 < w)%nat -> key_ok w sgn (fst e) -> fst (tr w sgn e) mod 2 ^ Z.of_nat w = biased w sgn (fst e).
Proof. intros Hw H. unfold tr, biased. cbn [fst]. destruct sgn; [apply flip_val; assumption|]. apply Z.mod_small. exact H. Qed.
Lemma tr_invol {V} w sgn (e : Z * V) : tr w sgn (tr w sgn e) = e.
Proof. destruct e as [k v]. unfold tr. cbn [fst snd]. destruct sgn; [rewrite flip_invol|]; reflexivity. Qed.

Definition byU {V} w s e (x y : Z * V) : bool := bits_at s e (fst x mod 2 ^ Z.of_nat w) <? bits_at s e (fst y mod 2 ^ Z.of_nat w).
Lemma step_ok {V} w s st ebit (inp cur : list (Z * V)) : (s <= st < ebit)%nat -> (ebit <= w)%nat -> stable_sort_of (byU w s st) inp cur ->
  stable_sort_of (byU w s (Nat.min (st + 8) ebit)) inp (bins (digit st (pass_mask st ebit 255)) (pass_bins st ebit 256) cur).
Proof.
  intros H He S. rewrite pass_mask_val, pass_bins_val by lia. set (b := Nat.min 8 (ebit - st)). replace (Nat.min (st + 8) ebit) with (st + b)%nat by lia.
  eapply stable_ext; [|apply (lsd (digit st (2 ^ Z.of_nat b - 1)) (fun e : Z * V => bits_at s st (fst e mod 2 ^ Z.of_nat w)) (2 ^ Z.of_nat (st - s)))].
  - intros x y. cbn beta. unfold byU. rewrite !(bits_digit s st b), <- !digit_val by lia. reflexivity.
  - intro e. apply bits_range.
  - intros x _. apply digit_lt.
  - exact S.
Qed.
Lemma pass_next st ebit : (st + 8 < ebit)%nat -> pass_mask st ebit 255 = 255 /\ pass_bins st ebit 256 = 256%nat.
Proof. intro H. rewrite pass_mask_val, pass_bins_val by lia. replace (Nat.min 8 (ebit - st)) with 8%nat by lia. split; reflexivity. Qed.
Lemma dig_bound {V} st ebit (x : Z * V) : (st < ebit)%nat -> (digit st (pass_mask st ebit 255) x < pass_bins st ebit 256)%nat.
Proof. intro H. rewrite pass_mask_val, pass_bins_val by lia. apply digit_lt. Qed.
Lemma perm_len {A} (c : A -> A -> bool) i o : stable_sort_of c i o -> length o = length i.
Proof. intros [P _]. symmetry. apply Permutation_length. exact P. Qed.
Lemma radix_loop_ok {V} w s ebit (inp : list (Z * V)) : (ebit <= w)%nat -> forall fuel st mask bc cur next,
  (s <= st)%nat -> (ebit - st <= fuel)%nat -> ((st < ebit)%nat -> mask = 255 /\ bc = 256%nat) -> length next = length cur ->
  stable_sort_of (byU w s (Nat.min st ebit)) inp cur ->
  exists out, radix_loop fuel st ebit mask bc cur next = Some out /\ stable_sort_of (byU w s ebit) inp out.
Proof.
  intro He. induction fuel as [|f IH]; intros st mask bc cur next Hs Hf Hm Ln S; cbn [radix_loop]; destruct (Nat.ltb_spec st ebit) as [L|L]; try lia.
  - exists cur. replace (Nat.min st ebit) with ebit in S by lia. auto.
  - destruct (Hm L) as [-> ->]. cbv zeta.
    destruct (pass1_ok (digit st (pass_mask st ebit 255)) (pass_bins st ebit 256) cur next) as (n' & -> & Ln'); [intros x _; apply dig_bound; exact L|exact Ln|]. cbn [bind fst snd].
    replace (Nat.min st ebit) with st in S by lia. pose proof (step_ok w s st ebit inp cur ltac:(lia) He S) as S'. apply IH; [lia|lia| |rewrite (perm_len _ _ _ S'); rewrite Ln'; apply (perm_len _ _ _ S)|exact S'].
    intro L'. apply pass_next. exact L'.
  - exists cur. replace (Nat.min st ebit) with ebit in S by lia. auto.
Qed.
Lemma omp_loop_ok {V} nths w s ebit (inp : list (Z * V)) : (0 < nths)%nat -> (ebit <= w)%nat -> forall st mask bc cur next r, omp_loop nths ebit st mask bc cur next r ->
  (s <= st)%nat -> ((st < ebit)%nat -> mask = 255 /\ bc = 256%nat) -> length next = length cur ->
  stable_sort_of (byU w s (Nat.min st ebit)) inp cur -> exists out, r = Some out /\ stable_sort_of (byU w s ebit) inp out.
Proof.
  intros Hn He. induction 1 as [st mask bc cur next L|st mask bc cur next L O|st mask bc cur next cur' next' r L O Lo IH]; intros Hs Hm Ln S.
  - exists cur. replace (Nat.min st ebit) with ebit in S by lia. auto.
  - destruct (Hm L) as [-> ->]. destruct (omp_pass_ok _ nths Hn _ _ _ _ (fun x _ => dig_bound st ebit x L) Ln O) as (n' & Q & _). discriminate.
  - destruct (Hm L) as [-> ->]. destruct (omp_pass_ok _ nths Hn _ _ _ _ (fun x _ => dig_bound st ebit x L) Ln O) as (n' & Q & Ln'). injection Q as -> ->.
    replace (Nat.min st ebit) with st in S by lia. pose proof (step_ok w s st ebit inp cur ltac:(lia) He S) as S'. apply IH; [lia| |rewrite (perm_len _ _ _ S'); rewrite Ln'; apply (perm_len _ _ _ S)|exact S'].
    intro L'. apply pass_next. exact L'.
Qed.
Lemma omp_loop_total {V} nths ebit : forall fuel st mask bc (cur next : list (Z * V)), (ebit - st <= fuel)%nat -> exists r, omp_loop nths ebit st mask bc cur next r.
Proof.
  induction fuel as [|f IH]; intros st mask bc cur next H; destruct (Nat.lt_ge_cases st ebit) as [L|L]; try lia; try (eexists; apply OL_done; exact L).
  destruct (omp_pass_total (digit st (pass_mask st ebit mask)) nths (pass_bins st ebit bc) cur next) as [[[c n]|] O].
  - destruct (IH (st + 8)%nat (pass_mask st ebit mask) (pass_bins st ebit bc) c n ltac:(lia)) as [r R]. exists r. eapply OL_step; eassumption.
  - exists None. apply OL_fail; assumption.
Qed.

Lemma start_ok {V} w s (l : list (Z * V)) : stable_sort_of (byU w s s) l l.
Proof.
  assert (Z0 : forall x y : Z * V, byU w s s x y = false).
  { intros x y. unfold byU, bits_at. rewrite Nat.sub_diag. change (2 ^ Z.of_nat 0) with 1. rewrite !Z.mod_1_r. reflexivity. }
  split; [apply Permutation_refl|]. split; [|reflexivity]. unfold ascending. induction l as [|a l IH]; constructor; [exact IH|]. rewrite Forall_forall. intros x _. apply Z0.
Qed.

(** back to the original keys *)
Lemma filter_map' {A B} (g : A -> B) f l : filter f (map g l) = map g (filter (fun x => f (g x)) l).
Proof. induction l as [|a l IH]; cbn; [reflexivity|]. destruct (f (g a)); cbn; rewrite IH; reflexivity. Qed.
Lemma untr {V} w sgn s e (inp out : list (Z * V)) : (0 < w)%nat -> (forall x, In x inp -> key_ok w sgn (fst x)) -> stable_sort_of (byU w s e) (map (tr w sgn) inp) out ->
  stable_sort_of (fun x y => byU w s e (tr w sgn x) (tr w sgn y)) inp (map (tr w sgn) out).
Proof.
  intros Hw Hk (P & S & F). assert (Inv : forall l : list (Z * V), map (tr w sgn) (map (tr w sgn) l) = l).
  { intro l. rewrite map_map. rewrite <- (map_id l) at 2. apply map_ext. apply tr_invol. }
  split; [|split].
  - rewrite <- (Inv inp). apply Permutation_map. exact P.
  - clear P F. unfold ascending in *. induction S as [|a l S IH Fa]; cbn [map]; constructor; [exact IH|]. rewrite Forall_forall in *. intros x Hx. apply in_map_iff in Hx as (y & <- & Hy).
    rewrite !tr_invol. auto.
  - intro x. specialize (F (tr w sgn x)). rewrite filter_map'. rewrite filter_map' in F.
    transitivity (map (tr w sgn) (filter (equiv (byU w s e) (tr w sgn x)) out)).
    + f_equal. apply filter_ext. intro y. unfold equiv. rewrite tr_invol. reflexivity.
    + rewrite F, Inv. apply filter_ext. intro y. reflexivity.
Qed.
End T.

Lemma stable_in {A} (f : A -> Z) (i o : list A) : let c := fun x y => (f x <? f y)%Z in
  Permutation i o -> ascending c o -> (forall x, In x i -> filter (equiv c x) o = filter (equiv c x) i) -> stable_sort_of c i o.
Proof.
  intros c P S F. split; [exact P|]. split; [exact S|]. intro x.
  destruct (existsb (equiv c x) i) eqn:Ex.
  - apply existsb_exists in Ex as (y & Hy & Q). assert (K : forall z, equiv c x z = equiv c y z).
    { intro z. unfold equiv, c in *. destruct (Z.ltb_spec (f x) (f y)), (Z.ltb_spec (f y) (f x)); try discriminate. replace (f y) with (f x) by lia. reflexivity. }
    rewrite (filter_ext _ _ K o), (filter_ext _ _ K i). apply F. exact Hy.
  - assert (K : forall z, In z i -> equiv c x z = false).
    { intros z Hz. destruct (equiv c x z) eqn:Q; [|reflexivity]. assert (existsb (equiv c x) i = true) by (apply existsb_exists; eauto). congruence. }
    rewrite !filter_none; [reflexivity|exact K|]. intros z Hz. apply K. eapply Permutation_in; [symmetry; exact P|exact Hz].
Qed.
Lemma untr_bits {V} w sgn s e (inp out : list (Z * V)) : (0 < w)%nat -> (forall x, In x inp -> key_ok w sgn (fst x)) -> stable_sort_of (byU w s e) (map (tr w sgn) inp) out ->
  stable_sort_of (by_bits w sgn s e) inp (map (tr w sgn) out).
Proof.
  intros Hw Hk S. apply untr in S; [|exact Hw|exact Hk].
  destruct (stable_ext_in (fun x y => byU w s e (tr w sgn x) (tr w sgn y)) (by_bits w sgn s e) (fun x => key_ok w sgn (fst x)) _ _ ltac:(intros x y Hx Hy; unfold byU, by_bits; rewrite !tr_val by assumption; reflexivity) Hk S) as [F As].
  apply (stable_in (fun x : Z * V => bits_at s e (biased w sgn (fst x)))); [apply S|exact As|exact F].
Qed.
Theorem radix_sort_ok {V} w sgn s e (inp tmp : list (Z * V)) : 0 < w -> s <= e <= w -> length tmp = length inp -> (forall x, In x inp -> key_ok w sgn (fst x)) ->
  exists out, radix_sort w sgn s e inp tmp = Some out /\ stable_sort_of (by_bits w sgn s e) inp out.
Proof.
  intros Hw He Lt Hk. unfold radix_sort.
  destruct (radix_loop_ok w s e (map (tr w sgn) inp) ltac:(lia) (e - s) s 255%Z 256 (map (tr w sgn) inp) tmp) as (out & -> & S).
  - lia.
  - lia.
  - auto.
  - rewrite map_length. exact Lt.
  - replace (Nat.min s e) with s by lia. apply start_ok.
  - cbn [bind]. exists (map (tr w sgn) out). split; [reflexivity|]. apply untr_bits; assumption.
Qed.
Theorem omp_radix_sort_ok {V} nths w sgn s e (inp tmp : list (Z * V)) res : 0 < nths -> 0 < w -> s <= e <= w -> length tmp = length inp -> (forall x, In x inp -> key_ok w sgn (fst x)) ->
  omp_radix_sort w sgn nths s e inp tmp res -> exists out, res = Some out /\ stable_sort_of (by_bits w sgn s e) inp out.
Proof.
  intros Hn Hw He Lt Hk (r & O & ->).
  destruct (omp_loop_ok nths w s e (map (tr w sgn) inp) Hn ltac:(lia) _ _ _ _ _ _ O) as (out & -> & S).
  - lia.
  - auto.
  - rewrite map_length. exact Lt.
  - replace (Nat.min s e) with s by lia. apply start_ok.
  - cbn [option_map]. exists (map (tr w sgn) out). split; [reflexivity|]. apply untr_bits; assumption.
Qed.
Theorem omp_radix_sort_total {V} nths w sgn s e (inp tmp : list (Z * V)) : exists res, omp_radix_sort w sgn nths s e inp tmp res.
Proof. destruct (omp_loop_total nths e (e - s) s 255%Z 256 (map (tr w sgn) inp) tmp ltac:(lia)) as [r O]. exists (option_map (map (tr w sgn)) r), r. auto. Qed.
Lemma by_bits_full {V} w sgn (inp out : list (Z * V)) : 0 < w -> (forall x, In x inp -> key_ok w sgn (fst x)) -> stable_sort_of (by_bits w sgn 0 w) inp out -> stable_sort_of by_key inp out.
Proof.
  intros Hw Hk S.
  destruct (stable_ext_in (by_bits w sgn 0 w) by_key (fun x : Z * V => key_ok w sgn (fst x)) _ _ ltac:(intros x y Hx Hy; unfold by_bits, by_key, bits_at; cbn [Z.of_nat]; rewrite Z.pow_0_r, !Z.div_1_r, Nat.sub_0_r;
    unfold biased, key_ok in *; assert (Ew : (2 ^ Z.of_nat w = 2 * 2 ^ (Z.of_nat w - 1))%Z) by (rewrite <- Z.pow_succ_r by lia; f_equal; lia);
    destruct sgn; rewrite !Z.mod_small by lia; [destruct (Z.ltb_spec (fst x) (fst y)); [apply Z.ltb_lt|apply Z.ltb_ge]; lia|reflexivity]) Hk S) as [F As].
  apply (stable_in (fun x : Z * V => fst x)); [apply S|exact As|exact F].
Qed.
