From Verif Require Import Prelude CollapseModel CollapseSpec.
From Coq Require Import Sorted.
Local Open Scope Z_scope.

Definition zeros (ms : list Z) : list Z := map (fun _ => 0) ms.

(** structural increment with carry-out *)
Fixpoint sinc (ms xs : list Z) : bool * list Z :=
  match ms, xs with
  | m :: ms', x :: xs' =>
    let (c, r) := sinc ms' xs' in
    if c then (if x + 1 >=? m then (true, 0 :: r) else (false, (x + 1) :: r)) else (false, x :: r)
  | _, _ => (true, [])
  end.

Definition stop (ns it : list Z) : list Z :=
  match ns, it with
  | _ :: ms, x :: xs => let (c, r) := sinc ms xs in if c then (x + 1) :: r else x :: r
  | _, _ => []
  end.

Lemma sinc_snoc ms m xs x : length ms = length xs ->
  sinc (ms ++ [m]) (xs ++ [x]) =
  if x + 1 >=? m then (let (c, r) := sinc ms xs in (c, r ++ [0])) else (false, xs ++ [x + 1]).
Proof.
  revert xs; induction ms as [|m' ms IH]; intros [|x' xs] H; try discriminate H.
  - cbn. destruct (x + 1 >=? m); reflexivity.
  - cbn [app sinc]. rewrite IH by (cbn in H; lia).
    destruct (x + 1 >=? m).
    + destruct (sinc ms xs) as [[|] r]; [destruct (x' + 1 >=? m')|]; reflexivity.
    + reflexivity.
Qed.

Lemma stop_snoc n0 ms m x0 xs x : length ms = length xs ->
  stop (n0 :: ms ++ [m]) (x0 :: xs ++ [x]) =
  if x + 1 >=? m then stop (n0 :: ms) (x0 :: xs) ++ [0] else x0 :: xs ++ [x + 1].
Proof.
  intro H. cbn [stop]. rewrite sinc_snoc by exact H.
  destruct (x + 1 >=? m); [|reflexivity].
  destruct (sinc ms xs) as [[|] r]; reflexivity.
Qed.

Lemma upd_app1 {A} (p q : list A) i x : (i < length p)%nat ->
  upd (p ++ q) i x = option_map (fun p' => p' ++ q) (upd p i x).
Proof.
  revert i; induction p as [|h p IH]; intros i H; cbn in *; [lia|].
  destruct i; [reflexivity|]. cbn. rewrite IH by lia. destruct (upd p i x); reflexivity.
Qed.
Lemma upd_last {A} (p : list A) y x q : upd (p ++ y :: q) (length p) x = Some (p ++ x :: q).
Proof. induction p as [|h p IH]; cbn; [reflexivity|]. rewrite IH. reflexivity. Qed.
Lemma nth_last {A} (p : list A) y q : nth_error (p ++ y :: q) (length p) = Some y.
Proof. rewrite nth_error_app2 by lia. rewrite Nat.sub_diag. reflexivity. Qed.

(** the index-recursive code equals the structural version *)
Lemma inc_impl_stop : forall ms xs n0 x0 nr tr, length ms = length xs ->
  inc_impl (length ms) ((n0 :: ms) ++ nr) ((x0 :: xs) ++ tr) = Some (stop (n0 :: ms) (x0 :: xs) ++ tr).
Proof.
  intros ms. induction ms as [|m ms IH] using rev_ind; intros xs n0 x0 nr tr H.
  - destruct xs; [|discriminate]. reflexivity.
  - destruct (exists_last (l:=xs)) as (xs' & x & ->).
    { intros ->. rewrite app_length in H. cbn in H. lia. }
    rewrite !app_length in H. cbn in H. assert (Hl : length ms = length xs') by lia.
    rewrite stop_snoc by exact Hl.
    replace (length (ms ++ [m])) with (S (length ms)) by (rewrite app_length; cbn; lia).
    assert (E1 : nth_error ((x0 :: xs' ++ [x]) ++ tr) (S (length ms)) = Some x).
    { cbn. rewrite <- app_assoc. cbn. rewrite Hl. apply nth_last. }
    assert (E2 : nth_error ((n0 :: ms ++ [m]) ++ nr) (S (length ms)) = Some m).
    { cbn. rewrite <- app_assoc. cbn. apply nth_last. }
    assert (E3 : forall y, upd ((x0 :: xs' ++ [x]) ++ tr) (S (length ms)) y = Some ((x0 :: xs' ++ [y]) ++ tr)).
    { intro y. cbn [app]. rewrite <- !app_assoc. cbn [app upd].
      rewrite Hl, upd_last. reflexivity. }
    cbn [inc_impl]. rewrite E1, E2. rewrite !E3.
    destruct (x + 1 >=? m); [|reflexivity].
    replace ((n0 :: ms ++ [m]) ++ nr) with ((n0 :: ms) ++ (m :: nr)) by (cbn; rewrite <- app_assoc; reflexivity).
    replace ((x0 :: xs' ++ [0]) ++ tr) with ((x0 :: xs') ++ (0 :: tr)) by (cbn; rewrite <- app_assoc; reflexivity).
    rewrite IH by exact Hl. rewrite <- app_assoc. reflexivity.
Qed.

Lemma increment_stop n0 ms x0 xs : length ms = length xs ->
  increment (n0 :: ms) (x0 :: xs) = Some (stop (n0 :: ms) (x0 :: xs)).
Proof.
  intro H. unfold increment. cbn [length]. replace (S (length ms) - 1)%nat with (length ms) by lia.
  pose proof (inc_impl_stop ms xs n0 x0 [] [] H) as E. rewrite !app_nil_r in E. exact E.
Qed.

(** lexicographic product *)
Definition zrange (a : Z) (k : nat) : list Z := map (fun i => a + Z.of_nat i) (seq 0 k).
Lemma zrange_S a k : zrange a (S k) = a :: zrange (a + 1) k.
Proof.
  unfold zrange. cbn [seq map]. f_equal; [lia|]. rewrite <- seq_shift, map_map.
  apply map_ext. intro; lia.
Qed.
Fixpoint lexprod (ns : list Z) : list (list Z) :=
  match ns with
  | [] => [[]]
  | n :: r => flat_map (fun i => map (cons i) (lexprod r)) (zrange 0 (Z.to_nat n))
  end.

(** walking with carry *)
Inductive Walk (ms : list Z) : list (list Z) -> Prop :=
| W1 a : sinc ms a = (true, zeros ms) -> Walk ms [a]
| Wc a b l : sinc ms a = (false, b) -> Walk ms (b :: l) -> Walk ms (a :: b :: l).

Lemma walk_block m ms i L rest : Walk ms L -> i + 1 < m ->
  Walk (m :: ms) (((i + 1) :: zeros ms) :: rest) ->
  Walk (m :: ms) (map (cons i) L ++ ((i + 1) :: zeros ms) :: rest).
Proof.
  intros HW Hi HR. induction HW as [a E|a b l E HW IH]; cbn [map app].
  - apply Wc; [|exact HR]. cbn. rewrite E. destruct (Z.geb_spec (i + 1) m); [lia|reflexivity].
  - apply Wc; [|exact IH]. cbn. rewrite E. reflexivity.
Qed.

Lemma walk_last m ms i L : Walk ms L -> i + 1 >= m -> Walk (m :: ms) (map (cons i) L).
Proof.
  intros HW Hi. induction HW as [a E|a b l E HW IH]; cbn [map].
  - apply W1. cbn. rewrite E. destruct (Z.geb_spec (i + 1) m); [reflexivity|lia].
  - apply Wc; [|exact IH]. cbn. rewrite E. reflexivity.
Qed.

Lemma walk_lexprod ms : Forall (fun m => 1 <= m) ms ->
  Walk ms (lexprod ms) /\ exists l, lexprod ms = zeros ms :: l.
Proof.
  induction 1 as [|m ms Hm Hms [IHW [l IHl]]].
  - cbn. split; [apply W1; reflexivity|eauto].
  - cbn [lexprod].
    assert (G : forall k i, i + Z.of_nat k = m -> (1 <= k)%nat ->
      Walk (m :: ms) (flat_map (fun i => map (cons i) (lexprod ms)) (zrange i k)) /\
      exists l, flat_map (fun i => map (cons i) (lexprod ms)) (zrange i k) = (i :: zeros ms) :: l).
    { induction k as [|k IHk]; intros i Hi Hk; [lia|].
      rewrite zrange_S. cbn [flat_map]. destruct k as [|k].
      - cbn [zrange seq map flat_map]. rewrite app_nil_r. split.
        + apply walk_last; [exact IHW|lia].
        + rewrite IHl. cbn. eauto.
      - destruct (IHk (i + 1)) as [HW [l' El]]; [lia|lia|].
        rewrite El in *. split.
        + apply walk_block; [exact IHW|lia|exact HW].
        + rewrite IHl. cbn. eauto. }
    destruct (G (Z.to_nat m) 0) as [HW HL]; [lia|lia|]. split; [exact HW|exact HL].
Qed.

Lemma lexprod_in ns t : In t (lexprod ns) <-> in_box ns t.
Proof.
  revert t; induction ns as [|n ns IH]; intro t; cbn [lexprod].
  - split.
    + intros [<-|[]]. constructor.
    + intro H. inversion H. left; reflexivity.
  - rewrite in_flat_map. split.
    + intros (i & Hi & Ht). apply in_map_iff in Ht. destruct Ht as (t' & <- & Ht').
      unfold zrange in Hi. apply in_map_iff in Hi. destruct Hi as (j & <- & Hj). apply in_seq in Hj.
      constructor; [lia|]. apply IH; exact Ht'.
    + intro H. inversion H as [|? x ? xs Hx Hxs]; subst. exists x. split.
      * unfold zrange. apply in_map_iff. exists (Z.to_nat x). split; [lia|]. apply in_seq. lia.
      * apply in_map. apply IH. exact Hxs.
Qed.

Lemma ss_app {A} (R : A -> A -> Prop) l1 l2 : StronglySorted R l1 -> StronglySorted R l2 ->
  (forall x y, In x l1 -> In y l2 -> R x y) -> StronglySorted R (l1 ++ l2).
Proof.
  induction 1 as [|a l Hs IH Hf]; intros H2 H; cbn; [exact H2|].
  constructor; [apply IH; auto; intros; apply H; auto; right; auto|].
  apply Forall_app. split; [exact Hf|]. apply Forall_forall. intros y Hy. apply H; [left; auto|exact Hy].
Qed.

Lemma lexprod_sorted ns : StronglySorted lexlt (lexprod ns).
Proof.
  induction ns as [|n ns IH]; cbn [lexprod]; [repeat constructor|].
  generalize (Z.to_nat n) as k. intro k. generalize 0 as a.
  induction k as [|k IHk]; intro a; [constructor|].
  rewrite zrange_S. cbn [flat_map]. apply ss_app; [|apply IHk|].
  - clear -IH. induction IH as [|x l Hs IHl Hf]; cbn; constructor; auto.
    apply Forall_map. eapply Forall_impl; [|exact Hf]. cbn. auto.
  - intros x y Hx Hy. apply in_map_iff in Hx. destruct Hx as (x' & <- & _).
    apply in_flat_map in Hy. destruct Hy as (i & Hi & Hy). apply in_map_iff in Hy. destruct Hy as (y' & <- & _).
    unfold zrange in Hi. apply in_map_iff in Hi. destruct Hi as (j & <- & Hj). cbn. lia.
Qed.

Lemma sinc_false_length ms : forall a b, sinc ms a = (false, b) -> length a = length ms -> length b = length ms.
Proof.
  assert (G : forall ms a c b, sinc ms a = (c, b) -> length a = length ms -> length b = length ms).
  { clear ms. induction ms as [|m ms IH]; intros [|x a] c b E H; cbn in *; try lia.
    - injection E as <- <-. reflexivity.
    - destruct (sinc ms a) as [c' r] eqn:E'. specialize (IH _ _ _ E' ltac:(lia)).
      destruct c'; [destruct (x + 1 >=? m)|]; injection E as <- <-; cbn; lia. }
  intros a b E H. eapply G; eauto.
Qed.

Lemma col_eqb_spec a : forall b, col_eqb a b = true <-> a = b.
Proof.
  induction a as [|x a IH]; intros [|y b]; cbn; split; intro H; try discriminate; auto.
  - apply andb_true_iff in H. destruct H as [H1 H2]. apply Z.eqb_eq in H1. apply IH in H2. congruence.
  - injection H as -> ->. rewrite Z.eqb_refl. cbn. apply IH. reflexivity.
Qed.

Lemma visits_end f ns : (1 <= f)%nat -> visits f ns (col_end ns) = Some [].
Proof.
  intro H. destruct f; [lia|]. cbn [visits].
  replace (col_eqb (col_end ns) (col_end ns)) with true; [reflexivity|]. symmetry. apply col_eqb_spec. reflexivity.
Qed.

(** one block of constant leading index *)
Lemma visits_block n0 ms i L fuel k rest : Walk ms L -> Forall (fun a => length a = length ms) L -> i < n0 ->
  (forall f, (k <= f)%nat -> visits f (n0 :: ms) ((i + 1) :: zeros ms) = Some rest) ->
  (k + length L <= fuel)%nat ->
  visits fuel (n0 :: ms) (hd [] (map (cons i) L)) = Some (map (cons i) L ++ rest).
Proof.
  intros HW. revert fuel. induction HW as [a E|a b l E HW IH]; intros fuel HL Hi HR Hf; cbn [map hd app].
  - destruct fuel as [|fuel]; [cbn in Hf; lia|]. cbn [visits].
    destruct (col_eqb (i :: a) (col_end (n0 :: ms))) eqn:Ec.
    { apply col_eqb_spec in Ec. cbn in Ec. injection Ec as Ei _. lia. }
    rewrite increment_stop by (inversion HL; congruence).
    cbn [stop]. rewrite E. rewrite HR; [reflexivity|]. cbn in Hf. lia.
  - destruct fuel as [|fuel]; [cbn in Hf; lia|]. cbn [visits].
    destruct (col_eqb (i :: a) (col_end (n0 :: ms))) eqn:Ec.
    { apply col_eqb_spec in Ec. cbn in Ec. injection Ec as Ei _. lia. }
    rewrite increment_stop by (inversion HL; congruence).
    cbn [stop]. rewrite E. cbn [map hd] in IH. rewrite IH; auto.
    + inversion HL; auto.
    + cbn in *. lia.
Qed.

Lemma visits_all n0 ms : Forall (fun m => 1 <= m) ms -> forall k i, i + Z.of_nat k = n0 ->
  let l := flat_map (fun i => map (cons i) (lexprod ms)) (zrange i k) in
  forall fuel, (length l < fuel)%nat -> visits fuel (n0 :: ms) (i :: zeros ms) = Some l.
Proof.
  intros Hms. destruct (walk_lexprod ms Hms) as [HW [l0 El]].
  assert (HL : Forall (fun a => length a = length ms) (lexprod ms)).
  { apply Forall_forall. intros a Ha. apply lexprod_in in Ha. clear -Ha. induction Ha; cbn; congruence. }
  induction k as [|k IH]; intros i Hi; cbn zeta.
  - cbn. intros fuel Hf. assert (i = n0) by lia. subst i.
    apply (visits_end fuel (n0 :: ms)). lia.
  - rewrite zrange_S. cbn [flat_map]. rewrite app_length, map_length. intros fuel Hf.
    specialize (IH (i + 1) ltac:(lia)). cbn zeta in IH.
    set (rest := flat_map (fun i0 : Z => map (cons i0) (lexprod ms)) (zrange (i + 1) k)) in *.
    pose proof (visits_block n0 ms i (lexprod ms) fuel (S (length rest)) rest HW HL ltac:(lia)) as G.
    replace (i :: zeros ms) with (hd [] (map (cons i) (lexprod ms))) by (rewrite El; reflexivity). apply G.
    + intros f Hf'. apply IH. lia.
    + lia.
Qed.

Lemma collapse_ok ns n0 ms : ns = n0 :: ms -> 0 <= n0 -> Forall (fun m => 1 <= m) ms ->
  exists l N, (forall fuel, (N <= fuel)%nat -> visits fuel ns (col_begin ns) = Some l) /\
    (forall t, In t l <-> in_box ns t) /\ StronglySorted lexlt l.
Proof.
  intros -> Hn Hms. exists (lexprod (n0 :: ms)), (S (length (lexprod (n0 :: ms)))).
  split; [|split; [intro; apply lexprod_in|apply lexprod_sorted]].
  intros fuel Hf. apply (visits_all n0 ms Hms (Z.to_nat n0) 0); [lia|]. exact Hf.
Qed.

Lemma lexlt_irrefl a : ~ lexlt a a.
Proof. induction a; cbn; [tauto|]. intros [H|[_ H]]; [lia|auto]. Qed.
Lemma lexsorted_nodup l : StronglySorted lexlt l -> NoDup l.
Proof.
  induction 1 as [|a l Hs IH Hf]; constructor; auto. intro Hin.
  rewrite Forall_forall in Hf. apply Hf in Hin. eapply lexlt_irrefl; eauto.
Qed.

Lemma collapse_zero_inner : exists l, visits 10 [2; 0] (col_begin [2; 0]) = Some l /\
  exists t, In t l /\ ~ in_box [2; 0] t.
Proof.
  exists [[0;0];[1;0]]. split; [vm_compute; reflexivity|]. exists [0;0]. split; [left; reflexivity|].
  intro H. inversion H as [|? ? ? ? _ H2]; subst. inversion H2; subst. lia.
Qed.
