From Verif Require Import Prelude UfModel UfSpec UfProofs.

Lemma nth_error_combine {A B} (l : list A) (l' : list B) k a b : nth_error (combine l l') k = Some (a, b) <-> nth_error l k = Some a /\ nth_error l' k = Some b.
Proof.
  revert l' k. induction l as [|x l IH]; intros [|y l'] [|k]; cbn; try (split; [discriminate|intros [? ?]; discriminate]); [|apply IH].
  split; [intro H; injection H as -> ->; auto|intros [H1 H2]; congruence].
Qed.
Lemma in_slice {A} (l : list A) st ed x : In x (firstn (ed - st) (skipn st l)) <-> exists k, st <= k < ed /\ nth_error l k = Some x.
Proof.
  revert st ed. induction l as [|y l IH]; intros st ed.
  - rewrite skipn_nil, firstn_nil. split; [intros []|intros ([|k] & _ & H); discriminate].
  - destruct st as [|st].
    + cbn [skipn]. destruct ed as [|ed]; [cbn; split; [intros []|intros (k & H & _); lia]|]. cbn [Nat.sub firstn In].
      specialize (IH 0 ed). cbn [skipn] in IH. rewrite Nat.sub_0_r in IH. rewrite IH. split.
      * intros [<-|(k & Hk & E)]; [exists 0; split; [lia|reflexivity]|exists (S k); split; [lia|exact E]].
      * intros ([|k] & Hk & E); [left; cbn in E; congruence|right; exists k; split; [lia|exact E]].
    + cbn [skipn]. destruct ed as [|ed]; [cbn; split; [intros []|intros (k & H & _); lia]|]. cbn [Nat.sub]. rewrite IH. split.
      * intros (k & Hk & E). exists (S k). split; [lia|exact E].
      * intros ([|k] & Hk & E); [lia|]. exists k. split; [lia|exact E].
Qed.
Section Fin.
Context {A : Type}.
Variables (n : nat) (ptrs inds : list nat) (vals : list A) (skip : A -> bool).
Notation row := (row ptrs inds vals skip).
Notation ge := (graph_edge n ptrs inds vals skip).
Notation conn := (connected ge).
Lemma row_spec v u : In u (row v) <-> stored_edge ptrs inds vals skip v u.
Proof.
  unfold UfModel.row, stored_edge. rewrite in_map_iff. split.
  - intros ([u' x] & <- & H). apply filter_In in H. destruct H as [H1 H2]. apply in_slice in H1. destruct H1 as (k & Hk & E). apply nth_error_combine in E.
    exists k, x. cbn [fst snd] in *. destruct (skip x); [discriminate|]. tauto.
  - intros (k & x & Hk & E1 & E2 & Hs). exists (u, x). split; [reflexivity|]. apply filter_In. split; [|cbn [snd]; rewrite Hs; reflexivity].
    apply in_slice. exists k. split; [exact Hk|]. apply nth_error_combine. auto.
Qed.
Hypothesis Hu : undirected n ptrs inds vals skip.
Lemma Hrange v u : v < n -> In u (row v) -> u < n.
Proof. intros Hv Hi. apply row_spec in Hi. apply (Hu v u). split; assumption. Qed.
Lemma Hsym v u : v < n -> In u (row v) -> In v (row u).
Proof. intros Hv Hi. apply row_spec. apply row_spec in Hi. apply (Hu v u). split; assumption. Qed.
Lemma edge_ge v u : edge n row v u <-> ge v u.
Proof. unfold edge, graph_edge. rewrite row_spec. reflexivity. Qed.
Lemma conn_ge v u : connected (edge n row) v u <-> conn v u.
Proof. split; induction 1 as [|x y z H IH E]; try (apply conn_refl); apply conn_step with y; auto; apply edge_ge; exact E. Qed.

Lemma init_loop_ok v l m : v < n -> (forall u, In u l -> In u (row v)) -> (m = v \/ (m < v /\ In m (row v))) ->
  let r := init_loop v m l in r = v \/ (r < v /\ In r (row v)).
Proof.
  intro Hv. revert m. induction l as [|u l IH]; intros m Hl Hm; cbn [init_loop]; [exact Hm|]. destruct (m =? v) eqn:E; [|exact Hm].
  apply IH; [intros x Hx; apply Hl; right; exact Hx|]. apply Nat.eqb_eq in E. subst m. destruct (v <? u) eqn:Eu; [left; reflexivity|].
  apply Nat.ltb_ge in Eu. destruct (Nat.eq_dec u v) as [->|]; [left; reflexivity|right; split; [lia|apply Hl; left; reflexivity]].
Qed.
Lemma nth_init x : x < n -> nth_error (init_fas ptrs inds vals skip n) x = Some (init_loop x x (row x)).
Proof. intro Hx. unfold init_fas. rewrite nth_error_map. rewrite (nth_error_nth' _ 0) by (rewrite seq_length; exact Hx). rewrite seq_nth by exact Hx. reflexivity. Qed.
Lemma init_Inv : Inv n row (init_state ptrs inds vals skip n).
Proof.
  unfold init_state. split; [|split]; cbn [fst snd].
  - split; [unfold init_fas; rewrite map_length, seq_length; reflexivity|].
    assert (H : forall x, x < n -> fn (init_fas ptrs inds vals skip n) x = x \/ (fn (init_fas ptrs inds vals skip n) x < x /\ In (fn (init_fas ptrs inds vals skip n) x) (row x))).
    { intros x Hx. rewrite (fn_some _ _ _ (nth_init x Hx)). apply init_loop_ok; auto. }
    split.
    + intro x. destruct (Nat.lt_ge_cases x n) as [Hx|Hx]; [destruct (H x Hx) as [->|[? _]]; lia|].
      unfold fn. rewrite nth_overflow; [lia|]. unfold init_fas. rewrite map_length, seq_length. exact Hx.
    + intros x Hx. destruct (H x Hx) as [->|[_ Hi]]; [constructor|]. apply conn_step with x; [constructor|]. split; assumption.
  - rewrite map_length, seq_length. reflexivity.
  - intros v p Hp. rewrite nth_error_map in Hp. destruct (nth_error (seq 0 n) v) as [v'|] eqn:Ev; [|discriminate].
    assert (Hv : v < n) by (rewrite <- (seq_length n 0); apply nth_error_Some; congruence).
    rewrite (nth_error_nth' _ 0) in Ev by (rewrite seq_length; exact Hv). rewrite seq_nth in Ev by exact Hv. injection Ev as <-. injection Hp as <-.
    unfold start. cbn [TI K]. auto.
Qed.

Lemma chases_root f x : MI n row f -> x < n -> chases f x (root (fn f) x).
Proof.
  intros (L & D & Cn). induction x as [x IH] using lt_wf_ind. intro Hx. pose proof (D x) as Dx.
  assert (Ex : nth_error f x = Some (fn f x)) by (unfold fn; apply nth_error_nth'; lia).
  destruct (Nat.eq_dec (fn f x) x) as [E|N].
  - rewrite (root_self _ _ E). rewrite E in Ex. constructor. exact Ex.
  - rewrite (root_step _ _ D). apply chase_up with (fn f x); [exact Ex|exact N|]. apply IH; lia.
Qed.
Lemma chases_fun f x r r' : chases f x r -> chases f x r' -> r = r'.
Proof.
  intro H. revert r'. induction H as [r E|x y r E N H IH]; intros r' H'; inversion H'; subst; try congruence.
  apply IH. replace y with y0 by congruence. assumption.
Qed.

Lemma final_same k s : steps k (init_state ptrs inds vals skip n) s -> final s -> forall v u, ge v u -> same (fst s) v u.
Proof.
  intros R F. pose proof (steps_inv n row Hrange Hsym _ _ _ R init_Inv) as (M & L & T).
  assert (J : forall v u, v < n -> In u (row v) -> u < v -> same (fst s) v u).
  { intros v u Hv Hi Hlt. destruct (nth_error (snd s) v) as [p|] eqn:Ep; [|apply nth_error_None in Ep; lia].
    pose proof (F p (nth_error_In _ _ Ep)). subst p. pose proof (T v _ Ep) as Q. cbn [TI] in Q. apply Q. apply filter_In. split; [exact Hi|]. apply Nat.ltb_lt. exact Hlt. }
  intros v u E. apply edge_ge in E. destruct E as [Hv Hi]. destruct (Nat.lt_trichotomy u v) as [Hl|[->|Hl]]; [apply J; assumption|reflexivity|].
  symmetry. apply J; [eapply Hrange; eassumption|apply Hsym; assumption|exact Hl].
Qed.
Lemma final_components k s : steps k (init_state ptrs inds vals skip n) s -> final s ->
  (forall v, v < n -> exists r, chases (fst s) v r /\ conn v r /\ forall u, conn v u -> r <= u) /\
  (forall u v ru rv, u < n -> v < n -> chases (fst s) u ru -> chases (fst s) v rv -> (ru = rv <-> conn u v)).
Proof.
  intros R F. pose proof (steps_inv n row Hrange Hsym _ _ _ R init_Inv) as (M & L & T). pose proof M as (_ & D & _).
  assert (Cs : forall v u, conn v u -> same (fst s) v u).
  { induction 1 as [|x y z H IH E]; [reflexivity|]. pose proof (final_same k s R F y z E) as Q. unfold same in *. congruence. }
  split.
  - intros v Hv. exists (root (fn (fst s)) v). split; [apply chases_root; assumption|]. split; [apply conn_ge; apply conn_root; assumption|].
    intros u Hc. apply Cs in Hc. unfold same in Hc. rewrite Hc. apply root_le. exact D.
  - intros u v ru rv Hun Hv Cu Cv. rewrite (chases_fun _ _ _ _ Cu (chases_root _ u M Hun)), (chases_fun _ _ _ _ Cv (chases_root _ v M Hv)). split.
    + intro E. apply conn_ge. apply (same_conn n row Hrange Hsym (fst s)); assumption.
    + intro Hc. exact (Cs _ _ Hc).
Qed.
Lemma run_progress k s : steps k (init_state ptrs inds vals skip n) s -> ~ final s -> exists s', step s s'.
Proof. intros R F. apply (progress n row); [exact (steps_inv n row Hrange Hsym _ _ _ R init_Inv)|exact F]. Qed.
Lemma run_bound k s : steps k (init_state ptrs inds vals skip n) s -> k <= (4 * n + 8) * (n + list_sum (map (fun v => length (row v)) (seq 0 n))).
Proof.
  intro R. pose proof (steps_bound n row Hrange Hsym _ _ _ R init_Inv) as B. unfold init_state in B. cbn [snd] in B.
  enough (total n (map (start ptrs inds vals skip) (seq 0 n)) <= (4 * n + 8) * (n + list_sum (map (fun v => length (row v)) (seq 0 n)))) by lia.
  unfold total. rewrite map_map. clear B R Hu.
  assert (G : forall l, (forall x, In x l -> x < n) -> list_sum (map (fun v => mu n (start ptrs inds vals skip v)) l) <= (4 * n + 8) * (length l + list_sum (map (fun v => length (row v)) l))).
  { induction l as [|v l IH]; intro Hl; [cbn; lia|]. specialize (IH ltac:(intros; apply Hl; right; assumption)). specialize (Hl v (or_introl eq_refl)).
    cbn [map list_sum fold_right length]. unfold list_sum in IH. unfold start at 1. cbn [mu kc].
    assert (Q : length (filter (fun u => u <? v) (row v)) <= length (row v)) by (clear; induction (row v) as [|x r IHr]; cbn [filter length]; [lia|destruct (x <? v); cbn [length]; lia]).
    unfold E. fold row. set (a := length (filter _ _)) in *. set (b := length (row v)) in *.
    set (c := fold_right _ _ _) in *. set (d := fold_right _ 0 (map (fun v => length (row v)) l)) in *. clearbody a b c d. nia. }
  specialize (G (seq 0 n)). rewrite seq_length in G. apply G. intros x Hx. apply in_seq in Hx. lia.
Qed.
End Fin.

(** executable scheduler, for examples *)
Definition tnext (f : list nat) (p : pc) : option (list nat * pc) :=
  match p with
  | Rep k idx => match nth_error f idx with Some c => Some (f, if c =? idx then return_ k c else Walk k idx c) | None => None end
  | Walk k prev curr => match nth_error f curr with Some nx => Some (f, if nx <? curr then Halve k prev curr nx else return_ k curr) | None => None end
  | Halve k prev curr nx => match upd f prev nx with Some f' => Some (f', Walk k curr nx) | None => None end
  | Cas vs os rest =>
    if vs =? os then Some (f, next_edge vs rest)
    else if vs <? os then match nth_error f os with
      | Some x => if x =? os then match upd f os vs with Some f' => Some (f', next_edge vs rest) | None => None end else Some (f, Cas vs x rest)
      | None => None end
    else match nth_error f vs with
      | Some x => if x =? vs then match upd f vs os with Some f' => Some (f', next_edge vs rest) | None => None end else Some (f, Cas x os rest)
      | None => None end
  | Done => None
  end.
Lemma tnext_sound f p f' p' : tnext f p = Some (f', p') -> tstep f p f' p'.
Proof.
  destruct p as [k idx|k prev curr|k prev curr nx|vs os rest|]; cbn [tnext]; intro H.
  - destruct (nth_error f idx) eqn:E; [|discriminate]. injection H as <- <-. constructor. exact E.
  - destruct (nth_error f curr) eqn:E; [|discriminate]. injection H as <- <-. constructor. exact E.
  - destruct (upd f prev nx) eqn:E; [|discriminate]. injection H as <- <-. constructor. exact E.
  - destruct (vs =? os) eqn:E1; [apply Nat.eqb_eq in E1; subst; injection H as <- <-; constructor|]. apply Nat.eqb_neq in E1.
    destruct (vs <? os) eqn:E2.
    + apply Nat.ltb_lt in E2. destruct (nth_error f os) as [x|] eqn:E3; [|discriminate]. destruct (x =? os) eqn:E4.
      * apply Nat.eqb_eq in E4. subst. destruct (upd f os vs) eqn:E5; [|discriminate]. injection H as <- <-. apply t_hook_o; assumption.
      * apply Nat.eqb_neq in E4. injection H as <- <-. apply t_fail_o; assumption.
    + apply Nat.ltb_ge in E2. destruct (nth_error f vs) as [x|] eqn:E3; [|discriminate]. destruct (x =? vs) eqn:E4.
      * apply Nat.eqb_eq in E4. subst. destruct (upd f vs os) eqn:E5; [|discriminate]. injection H as <- <-. apply t_hook_v; [lia|assumption|assumption].
      * apply Nat.eqb_neq in E4. injection H as <- <-. apply t_fail_v; [lia|assumption|assumption].
  - discriminate.
Qed.
Definition sched1 (s : state) (t : nat) : option state :=
  match nth_error (snd s) t with
  | Some p => match tnext (fst s) p with Some (f', p') => match upd (snd s) t p' with Some ps' => Some (f', ps') | None => None end | None => None end
  | None => None
  end.
Fixpoint sched (s : state) (l : list nat) : option state := match l with [] => Some s | t :: r => match sched1 s t with Some s' => sched s' r | None => None end end.
Lemma steps_left s s1 k s2 : step s s1 -> steps k s1 s2 -> steps (S k) s s2.
Proof. intros H R. induction R as [s1|k s1 s3 s4 R IH St]; [exact (steps_S 0 s s s1 (steps_0 s) H)|]. exact (steps_S _ _ _ _ (IH H) St). Qed.
Lemma sched_sound l : forall s s', sched s l = Some s' -> steps (length l) s s'.
Proof.
  induction l as [|t l IH]; intros s s' H; cbn [sched] in H; [injection H as <-; constructor|].
  destruct (sched1 s t) as [s1|] eqn:E; [|discriminate]. cbn [length]. apply steps_left with s1; [|apply IH; exact H].
  unfold sched1 in E. destruct s as [f ps]. cbn [fst snd] in E. destruct (nth_error ps t) as [p|] eqn:Ep; [|discriminate].
  destruct (tnext f p) as [[f' p']|] eqn:En; [|discriminate]. destruct (upd ps t p') as [ps'|] eqn:Eu; [|discriminate]. injection E as <-.
  econstructor; [exact Ep|apply tnext_sound; exact En|exact Eu].
Qed.
