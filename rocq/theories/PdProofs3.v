(* Runs of the sampler in the plane, for any test that accepts separated points only. *)
From Coq Require Import Reals Lra Psatz.
From Verif Require Import Prelude PdModel PdSpec PdProofs PdProofs2.
Local Open Scope R_scope.

Lemma nth_snoc {A} (l : list A) p k q : nth_error (l ++ [p]) k = Some q ->
  nth_error l k = Some q \/ k = length l /\ q = p.
Proof.
  intros H. destruct (Nat.lt_ge_cases k (length l)).
  - rewrite nth_error_app1 in H by assumption. now left.
  - rewrite nth_error_app2 in H by assumption. right.
    destruct (k - length l)%nat eqn:E; cbn in H; [|destruct n; discriminate]. injection H as <-. split; [lia|reflexivity].
Qed.
Lemma dist_sym p q : dist p q = dist q p.
Proof. unfold dist. f_equal. ring. Qed.

Section Run.
Variables (r : R) (lo hi : pt) (maxAttempts : nat) (per : bool) (feasible : pt -> bool) (n m : Z).
Notation cell := (cell r lo).
Notation holds := (records r lo).
(* what the test ensures, and where candidates lie *)
Variables (sep near : pt -> pt -> Prop).
Hypothesis sep_sym : forall p q, sep p q -> sep q p.
Hypothesis check_true : forall g l p, holds n m g l -> check_distance r lo hi per p g l = Some true ->
  in_domain [fst (cell p); snd (cell p)] [n; m] /\ get g [fst (cell p); snd (cell p)] = Some (-1)%Z /\ forall q, In q l -> sep p q.
Hypothesis check_defined : forall g l p, holds n m g l -> roomy n m g -> exists b, check_distance r lo hi per p g l = Some b.
Hypothesis candidate_near : forall c v, 1/4 <= fst v * fst v + snd v * snd v <= 1 -> near (candidate r lo hi per c v) c.

Definition reached (l : list pt) : Prop := forall k q, nth_error l (S k) = Some q ->
  exists k' q', (k' < S k)%nat /\ nth_error l k' = Some q' /\ near q q'.
Definition pairwise (l : list pt) : Prop := forall i j p q, i <> j -> nth_error l i = Some p -> nth_error l j = Some q -> sep p q.
Definition inv (s : state) : Prop :=
  holds n m (grid s) (samples s) /\ pairwise (samples s) /\ Forall (fun q => feasible q = true) (samples s) /\
  Forall (fun a => (a < length (samples s))%nat) (active s).

Lemma holds_push g l p g' : holds n m g l ->
  in_domain [fst (cell p); snd (cell p)] [n; m] -> get g [fst (cell p); snd (cell p)] = Some (-1)%Z ->
  set g [fst (cell p); snd (cell p)] (Z.of_nat (length l)) = Some g' -> holds n m g' (l ++ [p]).
Proof.
  intros (W & Hs & Hv) D G E. pose proof (proj1 (dom2 _ _ _ _) D) as [D1 D2].
  destruct (get_set n m g _ _ _ g' W D1 D2 E) as (W' & _ & Gs & Go). split; [exact W'|]. split.
  - intros k q N. apply nth_snoc in N as [N|[-> ->]]; [|split; [exact D|exact Gs]].
    destruct (Hs k q N) as [Dq Gq]. split; [exact Dq|].
    apply dom2 in Dq as [Dq1 Dq2]. rewrite Go; [exact Gq|exact Dq1|exact Dq2|].
    intros C. apply pair_equal_spec in C as [C1 C2]. rewrite C1, C2, G in Gq. injection Gq as Gq. lia.
  - intros i j c Dij Gij. pose proof (proj1 (dom2 _ _ _ _) Dij) as [Di Dj].
    destruct (Z.eq_dec i (fst (cell p))) as [->|Ni]; [destruct (Z.eq_dec j (snd (cell p))) as [->|Nj]|].
    + rewrite Gs in Gij. injection Gij as <-. right. exists (length l), p. split; [reflexivity|]. split.
      * rewrite nth_error_app2 by lia. now rewrite Nat.sub_diag.
      * now destruct (cell p).
    + rewrite Go in Gij; [|exact Di|exact Dj|congruence]. destruct (Hv _ _ _ Dij Gij) as [|(k & q & ? & N & ?)]; [now left|].
      right. exists k, q. rewrite nth_error_app1; [tauto|]. eapply nth_error_some_lt; eauto.
    + rewrite Go in Gij; [|exact Di|exact Dj|congruence]. destruct (Hv _ _ _ Dij Gij) as [|(k & q & ? & N & ?)]; [now left|].
      right. exists k, q. rewrite nth_error_app1; [tauto|]. eapply nth_error_some_lt; eauto.
Qed.
Lemma apart_push l p : pairwise l -> (forall q, In q l -> sep p q) -> pairwise (l ++ [p]).
Proof.
  intros H N i j a b Hij Ha Hb. apply nth_snoc in Ha, Hb.
  destruct Ha as [Ha|[-> ->]], Hb as [Hb|[-> ->]].
  - exact (H i j a b Hij Ha Hb).
  - apply sep_sym, N. eapply nth_error_In; eauto.
  - apply N. eapply nth_error_In; eauto.
  - lia.
Qed.
Lemma attempt_inv center v s f s' f' : inv s ->
  attempt r lo hi per feasible center v s f = Some (s', f') ->
  inv s' /\ (length (mem (grid s')) = length (mem (grid s))) /\
  (s' = s /\ f' = f \/ f' = true /\ samples s' = samples s ++ [candidate r lo hi per center v] /\ active s' = active s ++ [length (samples s)]).
Proof.
  intros (Hh & Ha & Hf & Hact) E. unfold attempt in E. set (p := candidate r lo hi per center v) in *.
  destruct (feasible p) eqn:F; cbn [negb] in E.
  2:{ injection E as <- <-. unfold inv. tauto. }
  destruct (check_distance r lo hi per p (grid s) (samples s)) as [[|]|] eqn:C; [| |discriminate].
  2:{ injection E as <- <-. unfold inv. tauto. }
  destruct (check_true _ _ _ Hh C) as (D & G & N).
  destruct (set (grid s) _ _) as [g|] eqn:S in E; [|discriminate]. injection E as <- <-.
  unfold inv. cbn [grid samples active]. split; [split; [|split; [|split]]|split].
  - eapply holds_push; eauto.
  - now apply apart_push.
  - apply Forall_app. split; [exact Hf|]. now repeat constructor.
  - apply Forall_app. split.
    + eapply Forall_impl; [|exact Hact]. cbn. intros a La. rewrite app_length. cbn. lia.
    + repeat constructor. rewrite app_length. cbn. lia.
  - destruct Hh as (W & _). apply dom2 in D as [D1 D2]. eapply (get_set n m); eauto.
  - right. tauto.
Qed.
Lemma attempts_inv center vs s f s' f' : inv s ->
  attempts r lo hi per feasible center vs s f = Some (s', f') ->
  inv s' /\ length (mem (grid s')) = length (mem (grid s)) /\
  exists ps, samples s' = samples s ++ ps /\ length (active s') = (length (active s) + length ps)%nat /\
    (ps <> [] -> f' = true) /\ (ps = [] -> s' = s /\ f' = f) /\ (forall p, In p ps -> exists v, In v vs /\ p = candidate r lo hi per center v).
Proof.
  revert s f. induction vs as [|v vs IH]; cbn [attempts]; intros s f Hi E.
  - injection E as <- <-. split; [exact Hi|]. split; [reflexivity|]. exists []. rewrite app_nil_r. cbn. repeat split; auto; try tauto; try lia.
  - destruct (attempt _ _ _ _ _ center v s f) as [[s1 f1]|] eqn:A; [|discriminate].
    destruct (attempt_inv _ _ _ _ _ _ Hi A) as (Hi1 & L1 & H1).
    destruct (IH s1 f1 Hi1 E) as (Hi2 & L2 & ps & P1 & P2 & P3 & P4 & P5).
    split; [exact Hi2|]. split; [congruence|].
    destruct H1 as [(-> & ->)|(-> & S1 & A1)].
    + exists ps. split; [exact P1|]. split; [exact P2|]. split; [exact P3|]. split; [exact P4|].
      intros p I. destruct (P5 p I) as (w & Iw & ?). exists w. split; [now right|assumption].
    + exists (candidate r lo hi per center v :: ps). split; [rewrite P1, S1, <- app_assoc; reflexivity|].
      split; [rewrite P2, A1, app_length; cbn; lia|]. split.
      { intros _. destruct ps as [|x ps']; [exact (proj2 (P4 eq_refl))|apply P3; discriminate]. }
      split; [discriminate|].
      intros p [<-|I]; [exists v; split; [now left|reflexivity]|]. destruct (P5 p I) as (w & Iw & ?). exists w. split; [now right|assumption].
Qed.

Lemma reached_app l ps c kc : reached l -> nth_error l kc = Some c ->
  (forall p, In p ps -> near p c) -> reached (l ++ ps).
Proof.
  intros Hl Hc Hp k q N. destruct (Nat.lt_ge_cases (S k) (length l)) as [L|L].
  - rewrite nth_error_app1 in N by assumption. destruct (Hl k q N) as (k' & q' & ? & N' & ?).
    exists k', q'. rewrite nth_error_app1; [tauto|]. eapply nth_error_some_lt; eauto.
  - rewrite nth_error_app2 in N by assumption. exists kc, c. pose proof (nth_error_some_lt _ _ _ Hc).
    split; [lia|]. rewrite nth_error_app1 by assumption. split; [exact Hc|]. apply Hp. eapply nth_error_In; eauto.
Qed.

Lemma swap_last_perm k l l' : swap_last k l = Some l' -> length l' = length l /\ (forall P : nat -> Prop, Forall P l -> Forall P l').
Proof.
  unfold swap_last. destruct (nth_error l k) as [x|] eqn:N; [|discriminate].
  destruct (upd l k (last l 0%nat)) as [l1|] eqn:U1; [|discriminate]. intros U2.
  pose proof (upd_length _ _ _ _ U1). pose proof (upd_length _ _ _ _ U2). split; [congruence|].
  intros P HP. rewrite Forall_forall in *. intros y I. apply In_nth_error in I as [a I].
  assert (Px : P x) by (apply HP; eapply nth_error_In; eauto).
  assert (Pl : P (last l 0%nat)).
  { apply HP. assert (l <> []) by (intros ->; destruct k; discriminate).
    destruct (exists_last H1) as (u & z & ->). rewrite last_last. apply in_or_app. right. now left. }
  destruct (Nat.eq_dec (length l - 1) a) as [<-|Na].
  - rewrite (upd_nth_eq _ _ _ _ U2) in I. now injection I as <-.
  - rewrite (upd_nth_neq _ _ _ _ _ U2 Na) in I. destruct (Nat.eq_dec k a) as [<-|Nk].
    + rewrite (upd_nth_eq _ _ _ _ U1) in I. now injection I as <-.
    + rewrite (upd_nth_neq _ _ _ _ _ U1 Nk) in I. apply HP. eapply nth_error_In; eauto.
Qed.
Lemma removelast_length {A} (l : list A) : length (removelast l) = (length l - 1)%nat.
Proof. destruct l as [|x l]; [reflexivity|]. rewrite removelast_firstn_len, firstn_length. lia. Qed.
Lemma removelast_Forall {A} (P : A -> Prop) l : Forall P l -> Forall P (removelast l).
Proof. intros H. rewrite removelast_firstn_len. rewrite Forall_forall in *. intros x I. apply H. rewrite <- (firstn_skipn (pred (length l)) l). apply in_or_app. now left. Qed.

Lemma round_inv k vs s s' : inv s -> (forall v, In v vs -> 1/4 <= fst v * fst v + snd v * snd v <= 1) -> reached (samples s) ->
  round r lo hi per feasible k vs s = Some s' ->
  inv s' /\ length (mem (grid s')) = length (mem (grid s)) /\ reached (samples s') /\
  exists ps, samples s' = samples s ++ ps /\
  (ps = [] /\ length (active s') = (length (active s) - 1)%nat \/ ps <> [] /\ length (active s') = (length (active s) + length ps)%nat).
Proof.
  intros Hi Hv Hre E. unfold round in E.
  destruct (nth_error (active s) _) as [a|] eqn:Na; [|discriminate].
  destruct (swap_last _ _) as [act|] eqn:Sw; [|discriminate].
  destruct (nth_error (samples s) a) as [center|] eqn:Nc; [|discriminate].
  destruct (attempts _ _ _ _ _ center vs _ false) as [[s1 f1]|] eqn:A; [|discriminate].
  destruct (swap_last_perm _ _ _ Sw) as [Ls Fs].
  assert (Hi0 : inv (State (samples s) act (grid s))).
  { destruct Hi as (H1 & H2 & H3 & H4). unfold inv. cbn. auto. }
  destruct (attempts_inv _ _ _ _ _ _ Hi0 A) as (Hi1 & Lm & ps & P1 & P2 & P3 & P4 & P5). cbn [samples active grid] in *.
  assert (Hre1 : reached (samples s1)).
  { rewrite P1. eapply reached_app; eauto. intros p I. destruct (P5 p I) as (v & Iv & ->). apply candidate_near. now apply Hv. }
  destruct f1; injection E as <-.
  - split; [exact Hi1|]. split; [exact Lm|]. split; [exact Hre1|]. exists ps. split; [exact P1|].
    right. destruct ps as [|x ps]; [destruct (P4 eq_refl) as [_ F]; discriminate|]. split; [discriminate|]. rewrite P2, Ls. reflexivity.
  - cbn [samples active grid]. destruct ps as [|x ps]; [|assert (false = true) by (apply P3; discriminate); discriminate].
    split.
    { destruct Hi1 as (H1 & H2 & H3 & H4). unfold inv. cbn. split; [exact H1|]. split; [exact H2|]. split; [exact H3|]. now apply removelast_Forall. }
    split; [exact Lm|]. split; [exact Hre1|]. exists []. split; [exact P1|]. left. split; [reflexivity|].
    rewrite removelast_length, P2, Ls. cbn. lia.
Qed.
Lemma rounds_inv draw fuel : annulus draw -> forall k s l, inv s -> reached (samples s) ->
  rounds r lo hi maxAttempts per feasible draw k fuel s = Finished l ->
  exists s', inv s' /\ samples s' = l /\ reached l /\ exists ps, l = samples s ++ ps.
Proof.
  intros An. induction fuel as [|fuel IH]; intros k s l Hi Hre; cbn [rounds].
  - destruct (active s); [|discriminate]. intros E. injection E as <-. exists s. split; [exact Hi|]. split; [reflexivity|]. split; [exact Hre|]. exists []. now rewrite app_nil_r.
  - destruct (active s) eqn:EA; intros E.
    { injection E as <-. exists s. split; [exact Hi|]. split; [reflexivity|]. split; [exact Hre|]. exists []. now rewrite app_nil_r. }
    destruct (round _ _ _ _ _ _ _ s) as [s1|] eqn:Rd; [|discriminate].
    assert (Hv : forall v, In v (map (snd (draw k)) (seq 0 maxAttempts)) -> 1/4 <= fst v * fst v + snd v * snd v <= 1).
    { intros v I. apply in_map_iff in I as (i & <- & _). apply An. }
    destruct (round_inv _ _ _ _ Hi Hv Hre Rd) as (Hi1 & _ & Hre1 & ps & P & _).
    destruct (IH _ _ _ Hi1 Hre1 E) as (s2 & Hi2 & Es & Hre2 & ps2 & P2).
    exists s2. split; [exact Hi2|]. split; [exact Es|]. split; [exact Hre2|]. exists (ps ++ ps2). now rewrite P2, P, app_assoc.
Qed.

(* ---- definedness and termination ---- *)
Lemma attempts_defined center vs s f : inv s -> roomy n m (grid s) ->
  exists s' f', attempts r lo hi per feasible center vs s f = Some (s', f').
Proof.
  revert s f. induction vs as [|v vs IH]; cbn [attempts]; intros s f Hi Ro; [eauto|].
  assert (A : exists s1 f1, attempt r lo hi per feasible center v s f = Some (s1, f1)).
  { pose proof Hi as (Hh & _). unfold attempt. destruct (feasible _); cbn [negb]; [|eauto].
    destruct (check_defined (grid s) (samples s) (candidate r lo hi per center v) Hh Ro) as [b B]. rewrite B.
    destruct b; [|eauto]. destruct (check_true _ _ _ Hh B) as (D & _ & _). apply dom2 in D as [D1 D2].
    destruct (set_roomy n m (grid s) _ _ (Z.of_nat (length (samples s))) Ro D1 D2) as (g' & -> & _). eauto. }
  destruct A as (s1 & f1 & A). rewrite A. destruct (attempt_inv _ _ _ _ _ _ Hi A) as (Hi1 & L & _).
  apply IH; [exact Hi1|]. destruct Ro as [_ Ro]. split; [apply Hi1|]. now rewrite L.
Qed.
Lemma round_defined k vs s : inv s -> roomy n m (grid s) -> active s <> [] ->
  exists s', round r lo hi per feasible k vs s = Some s'.
Proof.
  intros Hi Ro Ne. unfold round. set (i := Nat.modulo k (length (active s))).
  assert (Hi' : (i < length (active s))%nat) by (apply Nat.mod_upper_bound; destruct (active s); [congruence|discriminate]).
  destruct (nth_error_lt_some _ _ Hi') as [a Na]. rewrite Na.
  unfold swap_last. rewrite Na. destruct (upd_some (active s) i (last (active s) 0%nat) Hi') as [l1 U1]. rewrite U1.
  pose proof (upd_length _ _ _ _ U1). destruct (upd_some l1 (length (active s) - 1) a ltac:(lia)) as [l2 U2]. rewrite U2.
  pose proof Hi as (_ & _ & _ & Hact). rewrite Forall_forall in Hact.
  destruct (nth_error_lt_some (samples s) a (Hact a (nth_error_In _ _ Na))) as [c Nc]. rewrite Nc.
  assert (Hi0 : inv (State (samples s) l2 (grid s))).
  { destruct Hi as (H1 & H2 & H3 & H4). unfold inv. cbn. split; [exact H1|]. split; [exact H2|]. split; [exact H3|].
    assert (Sw : swap_last i (active s) = Some l2) by (unfold swap_last; rewrite Na, U1; exact U2).
    now apply (proj2 (swap_last_perm _ _ _ Sw)). }
  destruct (attempts_defined c vs _ false Hi0 Ro) as (s' & f' & A). rewrite A. destruct f'; eauto.
Qed.
Lemma samples_bound g l : holds n m g l -> (Z.of_nat (length l) <= Z.max 0 (n * m))%Z.
Proof.
  intros (W & Hs & _).
  set (o := fun q => Z.to_nat (fst (cell q) * m + snd (cell q))).
  assert (ND : NoDup (map o l)).
  { apply NoDup_nth_error. intros i j Hi E. rewrite map_length in Hi. rewrite !nth_error_map in E.
    destruct (nth_error_lt_some l i Hi) as [a Ha]. rewrite Ha in E. cbn in E.
    destruct (nth_error l j) as [b|] eqn:Hb; [|discriminate]. cbn in E. injection E as E.
    destruct (Hs _ _ Ha) as [Da Ga]. destruct (Hs _ _ Hb) as [Db Gb].
    apply dom2 in Da as [Da1 Da2]. apply dom2 in Db as [Db1 Db2]. unfold o in E.
    assert (E' : (fst (cell a) * m + snd (cell a) = fst (cell b) * m + snd (cell b))%Z) by (apply Z2Nat.inj; [nia|nia|exact E]).
    destruct (digits m _ _ _ _ Da2 Db2 E') as [E1 E2]. rewrite E1, E2, Gb in Ga. injection Ga as Ga. lia. }
  assert (IN : incl (map o l) (seq 0 (Z.to_nat (n * m)))).
  { intros x I. apply in_map_iff in I as (q & <- & Iq). apply In_nth_error in Iq as [k N].
    destruct (Hs _ _ N) as [D _]. apply dom2 in D as [D1 D2]. apply in_seq. unfold o. assert (0 <= fst (cell q) * m)%Z by nia. assert (fst (cell q) * m + m <= n * m)%Z by nia. lia. }
  pose proof (NoDup_incl_length ND IN) as L. rewrite map_length, seq_length in L. lia.
Qed.
Lemma rounds_finish draw : annulus draw -> forall fuel k s, inv s -> roomy n m (grid s) -> reached (samples s) ->
  (2 * (Z.max 0 (n * m) - Z.of_nat (length (samples s))) + Z.of_nat (length (active s)) <= Z.of_nat fuel)%Z ->
  exists l, rounds r lo hi maxAttempts per feasible draw k fuel s = Finished l.
Proof.
  intros An. induction fuel as [|fuel IH]; intros k s Hi Ro Hre M; cbn [rounds].
  - pose proof (samples_bound _ _ (proj1 Hi)). destruct (active s); [eauto|cbn [length] in M; lia].
  - destruct (active s) as [|a act] eqn:EA; [eauto|]. rewrite <- EA in M.
    destruct (round_defined (fst (draw k)) (map (snd (draw k)) (seq 0 maxAttempts)) s Hi Ro ltac:(congruence)) as [s1 Rd]. rewrite Rd.
    assert (Hv : forall v, In v (map (snd (draw k)) (seq 0 maxAttempts)) -> 1/4 <= fst v * fst v + snd v * snd v <= 1).
    { intros v I. apply in_map_iff in I as (i & <- & _). apply An. }
    destruct (round_inv _ _ _ _ Hi Hv Hre Rd) as (Hi1 & L & Hre1 & ps & P & C).
    apply IH; auto.
    + destruct Ro as [_ Ro]. split; [apply Hi1|]. now rewrite L.
    + rewrite P, app_length. assert (length (active s) = S (length act)) by (rewrite EA; reflexivity).
      destruct C as [[-> C]|[Ne C]]; rewrite C; [cbn [length]; lia|]. destruct ps; [congruence|]. cbn [length]. lia.
Qed.
(* the state after the first point *)
Lemma start_inv alloc p g : feasible p = true -> in_domain [fst (cell p); snd (cell p)] [n; m] ->
  set (make_grid alloc [n; m] (-1)) [fst (cell p); snd (cell p)] 0 = Some g -> inv (State [p] [0%nat] g).
Proof.
  intros F D E. pose proof (proj1 (dom2 _ _ _ _) D) as [D1 D2].
  unfold inv. cbn [samples active grid]. split; [|split; [|split]].
  - destruct (get_set n m _ _ _ _ g (make_wf alloc n m (-1)) D1 D2 E) as (W' & _ & Gs & Go). split; [exact W'|]. split.
    + intros k q N. destruct k; [|destruct k; discriminate]. injection N as <-. auto.
    + intros i j c Dij Gij. pose proof (proj1 (dom2 _ _ _ _) Dij) as [Di Dj].
      destruct (Z.eq_dec i (fst (cell p))) as [->|Ni]; [destruct (Z.eq_dec j (snd (cell p))) as [->|Nj]|].
      * rewrite Gs in Gij. injection Gij as <-. right. exists 0%nat, p. split; [reflexivity|]. split; [reflexivity|]. now destruct (cell p).
      * rewrite Go in Gij; [|exact Di|exact Dj|congruence]. left. eapply get_make; eauto.
      * rewrite Go in Gij; [|exact Di|exact Dj|congruence]. left. eapply get_make; eauto.
  - intros i j a b Hij Ha Hb. destruct i as [|[|]], j as [|[|]]; try discriminate. lia.
  - now repeat constructor.
  - repeat constructor.
Qed.
End Run.

(* ---- without periodicity ---- *)
Section Plain.
Variables (r : R) (lo hi : pt).
Hypothesis Hr : 0 < r.
Lemma candidate_dist center v : 1/4 <= fst v * fst v + snd v * snd v <= 1 ->
  r <= dist (candidate r lo hi false center v) center <= 2 * r.
Proof.
  intros H. unfold dist, candidate. cbn.
  replace ((fst v * (r * 2) + fst center - fst center) * (fst v * (r * 2) + fst center - fst center) +
           (snd v * (r * 2) + snd center - snd center) * (snd v * (r * 2) + snd center - snd center))
    with ((2 * r) * (2 * r) * (fst v * fst v + snd v * snd v)) by ring.
  set (w := fst v * fst v + snd v * snd v) in *. split.
  - replace r with (sqrt (r * r)) at 1 by (apply sqrt_square; lra). apply sqrt_le_1_alt.
    assert (0 <= r * r * (4 * w - 1)) by (apply Rmult_le_pos; [apply Rle_0_sqr|lra]). lra.
  - replace (2 * r) with (sqrt ((2 * r) * (2 * r))) at 3 by (apply sqrt_square; lra). apply sqrt_le_1_alt.
    assert (0 <= 2 * r * (2 * r) * (1 - w)) by (apply Rmult_le_pos; [apply Rle_0_sqr|lra]). lra.
Qed.
Lemma plain_true n m g l p : records r lo n m g l -> check_distance r lo hi false p g l = Some true ->
  in_domain [fst (cell r lo p); snd (cell r lo p)] [n; m] /\ get g [fst (cell r lo p); snd (cell r lo p)] = Some (-1)%Z /\ forall q, In q l -> r <= dist p q.
Proof.
  intros Hh C. destruct (PdProofs2.check_true r lo hi Hr n m g l p Hh C) as (D & G & N). split; [exact D|]. split; [exact G|].
  intros q I. apply close_dist; [exact Hr|]. now apply N.
Qed.
End Plain.
