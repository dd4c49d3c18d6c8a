From Verif Require Import Prelude UfModel UfSpec.

(** chasing in a function with f x <= x *)
Fixpoint chase (fuel : nat) (f : nat -> nat) (x : nat) : nat :=
  match fuel with O => x | S k => if f x =? x then x else chase k f (f x) end.
Definition root (f : nat -> nat) (x : nat) : nat := chase (S x) f x.
Definition down (f : nat -> nat) : Prop := forall x, f x <= x.

Lemma chase_enough f : down f -> forall x k k', x < k -> x < k' -> chase k f x = chase k' f x.
Proof.
  intro D. induction x as [x IH] using lt_wf_ind. intros k k' Hk Hk'. destruct k as [|k]; [lia|]. destruct k' as [|k']; [lia|]. cbn [chase].
  destruct (f x =? x) eqn:E; [reflexivity|]. apply Nat.eqb_neq in E. pose proof (D x). apply IH; lia.
Qed.
Lemma root_step f x : down f -> root f x = root f (f x).
Proof.
  intro D. pose proof (D x). destruct (Nat.eq_dec (f x) x) as [E|N]; [rewrite E; reflexivity|]. unfold root at 1. cbn [chase].
  apply Nat.eqb_neq in N. rewrite N. apply Nat.eqb_neq in N. unfold root. apply chase_enough; [exact D|lia|lia].
Qed.
Lemma root_self f x : f x = x -> root f x = x.
Proof. intro E. unfold root. cbn [chase]. rewrite (proj2 (Nat.eqb_eq _ _) E). reflexivity. Qed.
Lemma root_fix f x : down f -> f (root f x) = root f x.
Proof.
  intro D. induction x as [x IH] using lt_wf_ind. pose proof (D x). destruct (Nat.eq_dec (f x) x) as [E|N]; [rewrite (root_self f x E); exact E|].
  rewrite (root_step f x D). apply IH. lia.
Qed.
Lemma root_le f x : down f -> root f x <= x.
Proof.
  intro D. induction x as [x IH] using lt_wf_ind. pose proof (D x). destruct (Nat.eq_dec (f x) x) as [E|N]; [rewrite (root_self f x E); lia|].
  rewrite (root_step f x D). specialize (IH (f x) ltac:(lia)). lia.
Qed.
Definition put (f : nat -> nat) (p q : nat) : nat -> nat := fun y => if y =? p then q else f y.
Lemma put_eq f p q : put f p q p = q. Proof. unfold put. rewrite Nat.eqb_refl. reflexivity. Qed.
Lemma put_neq f p q y : y <> p -> put f p q y = f y. Proof. intro H. unfold put. apply Nat.eqb_neq in H. rewrite H. reflexivity. Qed.
Lemma put_down f p q : down f -> q <= p -> down (put f p q).
Proof. intros D H y. unfold put. destruct (y =? p) eqn:E; [apply Nat.eqb_eq in E; lia|apply D]. Qed.
(** storing an ancestor-equivalent smaller pointer keeps all roots *)
Lemma root_halve f p q : down f -> q < p -> root f q = root f p -> forall x, root (put f p q) x = root f x.
Proof.
  intros D Hq Hr. pose proof (put_down f p q D ltac:(lia)) as D'. induction x as [x IH] using lt_wf_ind.
  rewrite (root_step (put f p q) x D'). destruct (Nat.eq_dec x p) as [->|N].
  - rewrite put_eq. rewrite IH by lia. exact Hr.
  - rewrite put_neq by exact N. pose proof (D x). destruct (Nat.eq_dec (f x) x) as [E|Nx].
    + rewrite E. rewrite (root_self f x E). apply root_self. rewrite put_neq by exact N. exact E.
    + rewrite IH by lia. symmetry. apply root_step. exact D.
Qed.
(** hooking a root under a smaller vertex *)
Lemma root_hook f r q : down f -> f r = r -> q < r -> forall x, root (put f r q) x = if root f x =? r then root f q else root f x.
Proof.
  intros D Hr Hq. pose proof (put_down f r q D ltac:(lia)) as D'. induction x as [x IH] using lt_wf_ind.
  rewrite (root_step (put f r q) x D'). destruct (Nat.eq_dec x r) as [->|N].
  - rewrite put_eq. rewrite (root_self f r Hr), Nat.eqb_refl. rewrite IH by lia. pose proof (root_le f q D).
    replace (root f q =? r) with false by (symmetry; apply Nat.eqb_neq; lia). reflexivity.
  - rewrite put_neq by exact N. pose proof (D x). destruct (Nat.eq_dec (f x) x) as [E|Nx].
    + rewrite E. rewrite (root_self f x E). replace (x =? r) with false by (symmetry; apply Nat.eqb_neq; exact N).
      apply root_self. rewrite put_neq by exact N. exact E.
    + rewrite IH by lia. rewrite <- (root_step f x D). reflexivity.
Qed.

(** memory as a function *)
Definition fn (fas : list nat) : nat -> nat := fun x => nth x fas x.
Lemma fn_some fas x y : nth_error fas x = Some y -> fn fas x = y.
Proof. intro H. unfold fn. apply nth_error_nth. exact H. Qed.
Lemma fn_upd fas p q fas' : upd fas p q = Some fas' -> forall x, fn fas' x = put (fn fas) p q x.
Proof.
  intros H x. unfold fn, put. pose proof (upd_length _ _ _ _ H) as L. destruct (x =? p) eqn:E.
  - apply Nat.eqb_eq in E. subst. apply nth_error_nth. exact (upd_nth_eq _ _ _ _ H).
  - apply Nat.eqb_neq in E. pose proof (upd_nth_neq _ _ _ x _ H ltac:(lia)) as Q.
    destruct (nth_error fas x) as [y|] eqn:Ey.
    + rewrite (nth_error_nth _ _ _ Q), (nth_error_nth _ _ _ Ey). reflexivity.
    + apply nth_error_None in Q. apply nth_error_None in Ey. rewrite !nth_overflow by lia. reflexivity.
Qed.
Lemma chase_ext f g : (forall x, f x = g x) -> forall k x, chase k f x = chase k g x.
Proof. intro E. induction k as [|k IH]; intro x; [reflexivity|]. cbn [chase]. rewrite E. destruct (g x =? x); [reflexivity|apply IH]. Qed.
Lemma root_ext f g x : (forall x, f x = g x) -> root f x = root g x.
Proof. intro E. apply chase_ext. exact E. Qed.

Section Inv.
Variables (n : nat) (adj : nat -> list nat).
Hypothesis Hrange : forall v u, v < n -> In u (adj v) -> u < n.
Hypothesis Hsym : forall v u, v < n -> In u (adj v) -> In v (adj u).
Definition edge (v u : nat) : Prop := v < n /\ In u (adj v).
Notation conn := (connected edge).
Definition prog (v : nat) : list nat := filter (fun u => u <? v) (adj v).

Lemma edge_sym v u : edge v u -> edge u v.
Proof. intros [H1 H2]. split; [eapply Hrange; eassumption|apply Hsym; assumption]. Qed.
Lemma conn_trans x y z : conn x y -> conn y z -> conn x z.
Proof. intros H1 H2. induction H2 as [|u v w H IH Ed]; [exact H1|]. apply conn_step with v; auto. Qed.
Lemma conn_sym x y : conn x y -> conn y x.
Proof.
  induction 1 as [|u v w H IH E]; [constructor|]. apply conn_trans with v; [|exact IH]. apply conn_step with w; [constructor|apply edge_sym; exact E].
Qed.

Definition same (f : list nat) (x y : nat) : Prop := root (fn f) x = root (fn f) y.
Definition MI (f : list nat) : Prop := length f = n /\ down (fn f) /\ forall x, x < n -> conn x (fn f x).
Lemma conn_root f x : MI f -> x < n -> conn x (root (fn f) x).
Proof.
  intros (L & D & Cn). induction x as [x IH] using lt_wf_ind. intro Hx. pose proof (D x). destruct (Nat.eq_dec (fn f x) x) as [E|N].
  - rewrite (root_self _ _ E). constructor.
  - rewrite (root_step _ _ D). apply conn_trans with (fn f x); [apply Cn; exact Hx|apply IH; lia].
Qed.
Lemma same_conn f x y : MI f -> x < n -> y < n -> same f x y -> conn x y.
Proof.
  intros M Hx Hy E. apply conn_trans with (root (fn f) x); [apply conn_root; assumption|]. rewrite E. apply conn_sym. apply conn_root; assumption.
Qed.

Definition joined (f : list nat) (v : nat) (l : list nat) : Prop := forall u, In u l -> same f v u.
Definition K (f : list nat) (v : nat) (k : cont) (base : nat) : Prop :=
  match k with
  | Own rest => base = v /\ rest = prog v
  | Other vs rest => vs < n /\ same f v vs /\ exists done, prog v = done ++ base :: rest /\ joined f v done
  end.
Definition TI (f : list nat) (v : nat) (p : pc) : Prop :=
  match p with
  | Rep k idx => K f v k idx /\ idx < n
  | Walk k prev curr => exists base, K f v k base /\ same f base prev /\ same f base curr /\ curr < prev < n
  | Halve k prev curr nx => exists base, K f v k base /\ same f base prev /\ same f base curr /\ same f base nx /\ nx < curr < prev /\ prev < n
  | Cas vs os rest => vs < n /\ os < n /\ same f v vs /\ exists done u, prog v = done ++ u :: rest /\ joined f v done /\ same f u os
  | Done => joined f v (prog v)
  end.

Definition mono (f f' : list nat) : Prop := forall x y, same f x y -> same f' x y.
Lemma mono_refl f : mono f f. Proof. intros x y H; exact H. Qed.
Lemma joined_mono f f' v l : mono f f' -> joined f v l -> joined f' v l.
Proof. intros M J u Hu. apply M. apply J. exact Hu. Qed.
Lemma K_mono f f' v k b : mono f f' -> K f v k b -> K f' v k b.
Proof.
  intro M. destruct k; cbn [K]; [auto|]. intros (H1 & H2 & d & H3 & H4). split; [exact H1|]. split; [apply M; exact H2|]. exists d. split; [exact H3|]. apply (joined_mono f); assumption.
Qed.
Lemma TI_mono f f' v p : mono f f' -> TI f v p -> TI f' v p.
Proof.
  intro M. destruct p; cbn [TI].
  - intros [H1 H2]. split; [apply (K_mono f); assumption|exact H2].
  - intros (b & H1 & H2 & H3 & H4). exists b. split; [apply (K_mono f); assumption|]. split; [apply M; exact H2|]. split; [apply M; exact H3|exact H4].
  - intros (b & H1 & H2 & H3 & H4 & H5). exists b. split; [apply (K_mono f); assumption|]. split; [apply M; exact H2|]. split; [apply M; exact H3|]. split; [apply M; exact H4|exact H5].
  - intros (H1 & H2 & H3 & d & u & H4 & H5 & H6). split; [exact H1|]. split; [exact H2|]. split; [apply M; exact H3|]. exists d, u.
    split; [exact H4|]. split; [apply (joined_mono f); assumption|apply M; exact H6].
  - apply joined_mono. exact M.
Qed.

Lemma prog_lt v u : In u (prog v) -> u < v /\ In u (adj v).
Proof. unfold prog. rewrite filter_In. intros [H1 H2]. apply Nat.ltb_lt in H2. auto. Qed.

Lemma next_edge_TI f v s l done : v < n -> s < n -> same f v s -> prog v = done ++ l -> joined f v done -> TI f v (next_edge s l).
Proof.
  intros Hv Hs Sm Hp J. destruct l as [|u r]; cbn [next_edge TI K].
  - rewrite Hp, app_nil_r. exact J.
  - split; [|].
    + split; [exact Hs|]. split; [exact Sm|]. exists done. auto.
    + assert (In u (prog v)) as Hin by (rewrite Hp; apply in_or_app; right; left; reflexivity). apply prog_lt in Hin. lia.
Qed.
Lemma return_TI f v k base r : v < n -> r < n -> K f v k base -> same f base r -> TI f v (return_ k r).
Proof.
  intros Hv Hr HK Sm. destruct k as [rest|vs rest]; cbn [return_ K] in *.
  - destruct HK as [-> ->]. apply (next_edge_TI f v r (prog v) []); auto. intros u [].
  - destruct HK as (H1 & H2 & d & H3 & H4). cbn [TI]. split; [exact H1|]. split; [exact Hr|]. split; [exact H2|]. exists d, base. auto.
Qed.
Lemma K_base f v k b : v < n -> K f v k b -> b < n.
Proof.
  intros Hv. destruct k as [rest|vs rest]; cbn [K]; [intros [-> _]; exact Hv|]. intros (_ & _ & d & E & _).
  assert (In b (prog v)) as Hin by (rewrite E; apply in_or_app; right; left; reflexivity). apply prog_lt in Hin. lia.
Qed.

Lemma same_step f x y : MI f -> nth_error f x = Some y -> same f x y.
Proof. intros (L & D & Cn) E. unfold same. rewrite (root_step (fn f) x D). rewrite (fn_some _ _ _ E). reflexivity. Qed.
Lemma mem_le f x y : MI f -> nth_error f x = Some y -> y <= x.
Proof. intros (L & D & Cn) E. rewrite <- (fn_some _ _ _ E). apply D. Qed.

Lemma halve_ok f p q f' : MI f -> upd f p q = Some f' -> q < p -> same f q p -> MI f' /\ mono f f'.
Proof.
  intros M U Hq Sm. pose proof M as (L & D & Cn). pose proof (fn_upd _ _ _ _ U) as E. pose proof (upd_range _ _ _ _ U) as Hp.
  assert (R : forall x, root (fn f') x = root (fn f) x) by (intro x; rewrite (root_ext _ _ x E); apply root_halve; assumption).
  split; [|intros x y H; unfold same; rewrite !R; exact H].
  split; [rewrite (upd_length _ _ _ _ U); exact L|]. split; [intro x; rewrite E; apply put_down; [exact D|lia]|].
  intros x Hx. rewrite E. destruct (Nat.eq_dec x p) as [->|N]; [rewrite put_eq; apply (same_conn f); [exact M|exact Hx|lia|symmetry; exact Sm]|].
  rewrite put_neq by exact N. apply Cn. exact Hx.
Qed.
Lemma hook_ok f r q f' : MI f -> nth_error f r = Some r -> upd f r q = Some f' -> q < r -> conn r q -> MI f' /\ mono f f' /\ same f' r q.
Proof.
  intros M Hr U Hq Hc. pose proof M as (L & D & Cn). pose proof (fn_upd _ _ _ _ U) as E. pose proof (fn_some _ _ _ Hr) as Fr.
  assert (R : forall x, root (fn f') x = if root (fn f) x =? r then root (fn f) q else root (fn f) x) by (intro x; rewrite (root_ext _ _ x E); apply root_hook; assumption).
  split; [|split].
  - split; [rewrite (upd_length _ _ _ _ U); exact L|]. split; [intro x; rewrite E; apply put_down; [exact D|lia]|].
    intros x Hx. rewrite E. destruct (Nat.eq_dec x r) as [->|N]; [rewrite put_eq; exact Hc|]. rewrite put_neq by exact N. apply Cn. exact Hx.
  - intros x y H. unfold same in *. rewrite !R, H. reflexivity.
  - unfold same. rewrite !R. rewrite (root_self _ _ Fr), Nat.eqb_refl. destruct (root (fn f) q =? r); reflexivity.
Qed.

Lemma joined_snoc f v d u : joined f v d -> same f v u -> joined f v (d ++ [u]).
Proof. intros J E x Hx. apply in_app_or in Hx. destruct Hx as [Hx|[<-|[]]]; [apply J; exact Hx|exact E]. Qed.

Lemma tstep_ok f p f' p' v : v < n -> MI f -> TI f v p -> tstep f p f' p' -> MI f' /\ mono f f' /\ TI f' v p'.
Proof.
  intros Hv M T St. inversion St as [f0 k idx c E|f0 k prev curr nx E|f0 k prev curr nx f1 U|f0 s rest|f0 vs os rest f1 Hl E U|f0 vs os rest x Hl E N|f0 vs os rest f1 Hl E U|f0 vs os rest x Hl E N]; subst; cbn [TI] in T.
  - split; [exact M|]. split; [apply mono_refl|]. destruct T as [HK Hi]. pose proof (same_step _ _ _ M E) as Sm. pose proof (mem_le _ _ _ M E) as Le.
    destruct (c =? idx) eqn:Ec; [apply (return_TI f' v k idx); auto; apply Nat.eqb_eq in Ec; lia|]. apply Nat.eqb_neq in Ec.
    cbn [TI]. exists idx. split; [exact HK|]. split; [reflexivity|]. split; [exact Sm|lia].
  - split; [exact M|]. split; [apply mono_refl|]. destruct T as (b & HK & S1 & S2 & Hlt). pose proof (same_step _ _ _ M E) as Sm. pose proof (mem_le _ _ _ M E) as Le.
    destruct (nx <? curr) eqn:Ec.
    + apply Nat.ltb_lt in Ec. cbn [TI]. exists b. split; [exact HK|]. split; [exact S1|]. split; [exact S2|]. split; [unfold same in *; congruence|lia].
    + apply (return_TI f' v k b); auto. lia.
  - destruct T as (b & HK & S1 & S2 & S3 & Hlt & Hp). destruct (halve_ok f prev nx f' M U ltac:(lia) ltac:(unfold same in *; congruence)) as [M' Mo].
    split; [exact M'|]. split; [exact Mo|]. cbn [TI]. exists b. split; [apply (K_mono f); assumption|]. split; [apply Mo; exact S2|]. split; [apply Mo; exact S3|lia].
  - split; [exact M|]. split; [apply mono_refl|]. destruct T as (H1 & H2 & S1 & d & u & Ep & J & S2).
    apply (next_edge_TI f' v s rest (d ++ [u])); auto; [rewrite <- app_assoc; exact Ep|]. apply joined_snoc; [exact J|unfold same in *; congruence].
  - destruct T as (H1 & H2 & S1 & d & u & Ep & J & S2).
    assert (Hu : In u (prog v)) by (rewrite Ep; apply in_or_app; right; left; reflexivity). apply prog_lt in Hu. destruct Hu as [Hu1 Hu2].
    assert (Cn : conn os vs).
    { apply conn_trans with u; [apply (same_conn f); [exact M|lia|lia|symmetry; exact S2]|]. apply conn_trans with v.
      - apply conn_sym. apply conn_step with v; [constructor|]. split; assumption.
      - apply (same_conn f); [exact M|lia|lia|exact S1]. }
    destruct (hook_ok f os vs f' M E U Hl Cn) as (M' & Mo & Sm). split; [exact M'|]. split; [exact Mo|].
    apply (next_edge_TI f' v vs rest (d ++ [u])); auto; [rewrite <- app_assoc; exact Ep|].
    apply joined_snoc; [apply (joined_mono f); assumption|]. apply Mo in S1. apply Mo in S2. unfold same in *. congruence.
  - split; [exact M|]. split; [apply mono_refl|]. destruct T as (H1 & H2 & S1 & d & u & Ep & J & S2). pose proof (same_step _ _ _ M E) as Sm. pose proof (mem_le _ _ _ M E) as Le.
    cbn [TI]. split; [exact H1|]. split; [lia|]. split; [exact S1|]. exists d, u. split; [exact Ep|]. split; [exact J|]. unfold same in *; congruence.
  - destruct T as (H1 & H2 & S1 & d & u & Ep & J & S2).
    assert (Hu : In u (prog v)) by (rewrite Ep; apply in_or_app; right; left; reflexivity). apply prog_lt in Hu. destruct Hu as [Hu1 Hu2].
    assert (Cn : conn vs os).
    { apply conn_trans with v; [apply (same_conn f); [exact M|lia|lia|symmetry; exact S1]|]. apply conn_trans with u.
      - apply conn_step with v; [constructor|]. split; assumption.
      - apply (same_conn f); [exact M|lia|lia|exact S2]. }
    destruct (hook_ok f vs os f' M E U Hl Cn) as (M' & Mo & Sm). split; [exact M'|]. split; [exact Mo|].
    apply (next_edge_TI f' v vs rest (d ++ [u])); auto; [rewrite <- app_assoc; exact Ep|].
    apply joined_snoc; [apply (joined_mono f); assumption|]. apply Mo in S1. apply Mo in S2. unfold same in *. congruence.
  - split; [exact M|]. split; [apply mono_refl|]. destruct T as (H1 & H2 & S1 & d & u & Ep & J & S2). pose proof (same_step _ _ _ M E) as Sm. pose proof (mem_le _ _ _ M E) as Le.
    cbn [TI]. split; [lia|]. split; [exact H2|]. split; [unfold same in *; congruence|]. exists d, u. auto.
Qed.

(** whole state *)
Definition Inv (s : state) : Prop := MI (fst s) /\ length (snd s) = n /\ forall v p, nth_error (snd s) v = Some p -> TI (fst s) v p.
Lemma step_inv s s' : Inv s -> step s s' -> Inv s'.
Proof.
  intros (M & L & T) St. inversion St as [f f' ps t p p' ps' Ep Ts U]; subst. cbn [fst snd] in *.
  assert (Ht : t < n) by (rewrite <- L; apply nth_error_Some; congruence).
  destruct (tstep_ok f p f' p' t Ht M (T t p Ep) Ts) as (M' & Mo & T'). split; [exact M'|]. split; [cbn [snd]; rewrite (upd_length _ _ _ _ U); exact L|].
  cbn [fst snd]. intros v q Hq. destruct (Nat.eq_dec v t) as [->|N].
  - rewrite (upd_nth_eq _ _ _ _ U) in Hq. injection Hq as <-. exact T'.
  - rewrite (upd_nth_neq _ _ _ v _ U) in Hq by lia. apply (TI_mono f); [exact Mo|]. apply T. exact Hq.
Qed.
Lemma steps_inv k s s' : steps k s s' -> Inv s -> Inv s'.
Proof. intros R H. induction R as [s|k s s1 s2 R IH St]; [exact H|]. exact (step_inv _ _ (IH H) St). Qed.

(** progress *)
Lemma tstep_total f v p : v < n -> MI f -> TI f v p -> p <> Done -> exists f' p', tstep f p f' p'.
Proof.
  intros Hv (L & D & Cn) T Np. assert (Ld : forall x, x < n -> exists y, nth_error f x = Some y) by (intros x Hx; destruct (nth_error f x) eqn:E; [eauto|apply nth_error_None in E; lia]).
  assert (Stt : forall x y, x < n -> exists f', upd f x y = Some f') by (intros x y Hx; apply upd_some; lia).
  destruct p as [k idx|k prev curr|k prev curr nx|vs os rest|]; cbn [TI] in T; [| | | |congruence].
  - destruct T as [_ Hi]. destruct (Ld idx Hi) as [c E]. eauto using tstep.
  - destruct T as (b & _ & _ & _ & H). destruct (Ld curr ltac:(lia)) as [c E]. eauto using tstep.
  - destruct T as (b & _ & _ & _ & _ & H1 & H2). destruct (Stt prev nx ltac:(lia)) as [f' U]. eauto using tstep.
  - destruct T as (H1 & H2 & _). destruct (Nat.lt_trichotomy vs os) as [Hl|[->|Hl]]; [|eauto using tstep|].
    + destruct (Ld os H2) as [x E]. destruct (Nat.eq_dec x os) as [->|N]; [destruct (Stt os vs H2) as [f' U]; eauto using tstep|eauto using tstep].
    + destruct (Ld vs H1) as [x E]. destruct (Nat.eq_dec x vs) as [->|N]; [destruct (Stt vs os H1) as [f' U]; eauto using tstep|eauto using tstep].
Qed.
Lemma pc_dec (p : pc) : {p = Done} + {p <> Done}.
Proof. destruct p; try (right; discriminate). left; reflexivity. Qed.
Lemma progress s : Inv s -> ~ final s -> exists s', step s s'.
Proof.
  intros (M & L & T) Nf. destruct s as [f ps]. cbn [fst snd] in *.
  assert (Ex : exists v p, nth_error ps v = Some p /\ p <> Done).
  { clear - Nf. unfold final in Nf. cbn [snd] in Nf. induction ps as [|p ps IH].
    - exfalso. apply Nf. intros p [].
    - destruct (pc_dec p) as [->|N]; [|exists 0, p; auto]. destruct IH as (v & q & H1 & H2); [|exists (S v), q; auto].
      intro H. apply Nf. intros q [<-|Hq]; [reflexivity|auto]. }
  destruct Ex as (v & p & Ep & Np). assert (Hv : v < n) by (rewrite <- L; apply nth_error_Some; congruence).
  destruct (tstep_total f v p Hv M (T v p Ep) Np) as (f' & p' & St). destruct (upd_some ps v p' ltac:(lia)) as [ps' U]. exists (f', ps'). econstructor; eassumption.
Qed.

(** each thread takes boundedly many steps *)
Definition E : nat := 4 * n + 8.
Definition kc (k : cont) : nat := match k with Own rest => length rest * E + 1 | Other _ rest => length rest * E + (2 * n + 3) end.
Definition mu (p : pc) : nat :=
  match p with
  | Rep k idx => kc k + 2 * idx + 2
  | Walk k _ curr => kc k + 2 * curr + 1
  | Halve k _ _ nx => kc k + 2 * nx + 2
  | Cas vs os rest => length rest * E + vs + os + 1
  | Done => 0
  end.
Lemma mu_next v s rest d : v < n -> prog v = d ++ rest -> mu (next_edge s rest) < length rest * E + 1.
Proof.
  intros Hv Hp. destruct rest as [|u r]; cbn [next_edge mu kc length]; [lia|].
  assert (In u (prog v)) as Hin by (rewrite Hp; apply in_or_app; right; left; reflexivity). apply prog_lt in Hin.
  cbn [Nat.mul]. set (x := length r * E). clearbody x. unfold E. lia.
Qed.
Lemma mu_return f v k b r : v < n -> r < n -> K f v k b -> mu (return_ k r) < kc k.
Proof.
  intros Hv Hr HK. destruct k as [rest|vs rest]; cbn [return_ K kc] in *.
  - destruct HK as [-> ->]. apply (mu_next v r (prog v) []); auto.
  - destruct HK as (H1 & _). cbn [mu]. lia.
Qed.
Lemma tstep_mu f p f' p' v : v < n -> MI f -> TI f v p -> tstep f p f' p' -> mu p' < mu p.
Proof.
  intros Hv M T St. inversion St as [f0 k idx c Ex|f0 k prev curr nx Ex|f0 k prev curr nx f1 U|f0 s rest|f0 vs os rest f1 Hl Ex U|f0 vs os rest x Hl Ex N|f0 vs os rest f1 Hl Ex U|f0 vs os rest x Hl Ex N]; subst; cbn [TI] in T.
  - destruct T as [HK Hi]. pose proof (mem_le _ _ _ M Ex). destruct (c =? idx) eqn:Ec.
    + pose proof (mu_return f' v k idx c Hv ltac:(lia) HK). cbn [mu]. lia.
    + cbn [mu]. lia.
  - destruct T as (b & HK & _ & _ & Hlt). destruct (nx <? curr) eqn:Ec.
    + apply Nat.ltb_lt in Ec. cbn [mu]. lia.
    + pose proof (mu_return f' v k b curr Hv ltac:(lia) HK). cbn [mu]. lia.
  - cbn [mu]. lia.
  - destruct T as (_ & _ & _ & d & u & Ep & _). pose proof (mu_next v s rest (d ++ [u]) Hv ltac:(rewrite <- app_assoc; exact Ep)). cbn [mu]. lia.
  - destruct T as (_ & _ & _ & d & u & Ep & _). pose proof (mu_next v vs rest (d ++ [u]) Hv ltac:(rewrite <- app_assoc; exact Ep)). cbn [mu]. lia.
  - pose proof (mem_le _ _ _ M Ex). cbn [mu]. lia.
  - destruct T as (_ & _ & _ & d & u & Ep & _). pose proof (mu_next v vs rest (d ++ [u]) Hv ltac:(rewrite <- app_assoc; exact Ep)). cbn [mu]. lia.
  - pose proof (mem_le _ _ _ M Ex). cbn [mu]. lia.
Qed.
Definition total (ps : list pc) : nat := list_sum (map mu ps).
Lemma total_upd ps t p p' ps' : nth_error ps t = Some p -> upd ps t p' = Some ps' -> total ps' + mu p = total ps + mu p'.
Proof.
  revert t ps'. induction ps as [|q ps IH]; intros [|t] ps' H U; cbn in H, U; try discriminate.
  - injection H as ->. injection U as <-. unfold total. cbn [map list_sum fold_right]. lia.
  - destruct (upd ps t p') as [r|] eqn:Er; [|discriminate]. injection U as <-. specialize (IH t r H Er). unfold total in *. cbn [map list_sum fold_right]. unfold list_sum in IH. lia.
Qed.
Lemma steps_bound k s s' : steps k s s' -> Inv s -> k + total (snd s') <= total (snd s).
Proof.
  intros R H. induction R as [s|k s s1 s2 R IH St]; [lia|]. specialize (IH H). pose proof (steps_inv _ _ _ R H) as (M & L & T).
  inversion St as [f f' ps t p p' ps' Ep Ts U]; subst. cbn [fst snd] in *.
  assert (Ht : t < n) by (rewrite <- L; apply nth_error_Some; congruence).
  pose proof (tstep_mu f p f' p' t Ht M (T t p Ep) Ts). pose proof (total_upd _ _ _ _ _ Ep U). lia.
Qed.
End Inv.
