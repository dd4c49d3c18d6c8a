(** fast_expansion_sum_zeroelim: the sum is exact and the output's last component carries its sign. *)
From Coq Require Import Reals Lra Lia.
From Flocq Require Import Core Pff2Flocq Relative.
From Verif Require Import Prelude PredModel PredSpec PredProofs PredProofs2 PredProofs3 PredProofs4 PredProofs6.
Open Scope R_scope.

Fixpoint wfwd (l : list R) : Prop := match l with [] => True | x :: r => Forall (wsep x) r /\ wfwd r end.
Lemma wfwd_app a b : wfwd (a ++ b) <-> wfwd a /\ wfwd b /\ forall x y, In x a -> In y b -> wsep x y.
Proof.
  induction a as [|z a IH]; cbn.
  - split; [intros H; repeat split; [exact H|intros ? ? []]|tauto].
  - rewrite IH, Forall_app, !Forall_forall. split.
    + intros ((A & B) & C & D & E). repeat split; try assumption. intros x y [->|Hx] Hy; [apply B, Hy|apply E; assumption].
    + intros ((A & B) & C & D). repeat split; try assumption; [intros y Hy; apply D; auto|intros x y Hx Hy; apply D; auto].
Qed.
Lemma wfwd_rev l : wfwd (rev l) <-> wchain l.
Proof.
  induction l as [|x l IH]; cbn; [tauto|]. rewrite wfwd_app, IH, Forall_forall. cbn. split.
  - intros (A & _ & B). split; [|exact A]. intros z Hz. apply B; [apply in_rev; rewrite rev_involutive; exact Hz|auto].
  - intros (A & B). repeat split; [exact B|constructor|]. intros a b Ha [<-|[]]. apply A. apply in_rev, Ha.
Qed.
Lemma nonadj_app a b : nonadj (a ++ b) <-> nonadj a /\ nonadj b /\ forall x y, In x a -> In y b -> sep x y.
Proof.
  induction a as [|z a IH]; cbn.
  - split; [intros H; repeat split; [exact H|intros ? ? []]|tauto].
  - rewrite IH, Forall_app, !Forall_forall. split.
    + intros ((A & B) & C & D & E). repeat split; try assumption. intros x y [->|Hx] Hy; [apply B, Hy|apply E; assumption].
    + intros ((A & B) & C & D). repeat split; try assumption; [intros y Hy; apply D; auto|intros x y Hx Hy; apply D; auto].
Qed.
Lemma nonadj_rev l : nonadj (rev l) <-> schain l.
Proof.
  induction l as [|x l IH]; cbn; [tauto|]. rewrite nonadj_app, IH, Forall_forall. cbn. split.
  - intros (A & _ & B). split; [|exact A]. intros z Hz. apply B; [apply in_rev; rewrite rev_involutive; exact Hz|auto].
  - intros (A & B). repeat split; [exact B|constructor|]. intros a b Ha [<-|[]]. apply A. apply in_rev, Ha.
Qed.
Lemma nonadj_wfwd l : nonadj l -> wfwd l.
Proof.
  induction l as [|x l IH]; cbn; [trivial|]. intros [A B]. split; [|apply IH, B]. eapply Forall_impl; [|exact A]. intros. apply sep_wsep. assumption.
Qed.
Lemma total_app a b : total (a ++ b) = total a + total b.
Proof. unfold total in *. induction a as [|x a IH]; cbn; [lra|]. rewrite IH. lra. Qed.

Definition good (x : R) : Prop := is_double x /\ multiple (-960) x.

(** the merge in terms of consumed ([ca], [cb], latest first) and remaining components *)
Record M (Q : R) (h ca ra cb rb : list R) (tot : R) : Prop := {
  m_Q : good Q; m_h : Forall good h; m_ra : Forall good ra; m_rb : Forall good rb;
  m_sum : Q + total h + total ra + total rb = tot;
  m_T : Rabs Q <= (1 + 2 * u * INR (length ca + length cb)) * (asum ca + asum cb);
  m_w : wfwd h; m_wq : Forall (fun x => wsep x Q) h;
  m_wa : forall x y, In x h -> In y ra -> wsep x y; m_wb : forall x y, In x h -> In y rb -> wsep x y;
  m_a : wfwd ra; m_b : wfwd rb;
  m_nz : Forall (fun x => x <> 0) h }.
Lemma M_swap Q h ca ra cb rb t : M Q h ca ra cb rb t -> M Q h cb rb ca ra t.
Proof.
  intros [A B C D E F G H I J K L N]. constructor; try assumption; [lra|].
  rewrite (Nat.add_comm (length cb)), (Rplus_comm (asum cb)). exact F.
Qed.
Definition emitR := emit dbl.
Lemma emit_cases h x : (x = 0 /\ emitR h x = h) \/ (x <> 0 /\ emitR h x = h ++ [x]).
Proof.
  unfold emitR, emit. destruct (feq dbl x (lit dbl 0)) eqn:E; [apply feq_true in E; left; auto|apply feq_false in E; right; auto].
Qed.
Lemma M_step Q h ca g ra cb rb t : M Q h ca (g :: ra) cb rb t -> (length ca + length cb <= 64)%nat ->
  (forall r rb', rb = r :: rb' -> Rabs g <= Rabs r /\ (g <> 0 -> r <> 0 -> wsep ((Q + g) - rnd (Q + g)) r)) ->
  M (rnd (Q + g)) (emitR h ((Q + g) - rnd (Q + g))) (g :: ca) ra cb rb t.
Proof.
  intros [[FQ MQ] Hh Hra Hrb Hs HT Hw Hwq Hwa Hwb Ha Hb Hnz] Hlen Hr.
  inversion Hra as [|? ? [Fg Mg] Hra']; subst. cbn [wfwd] in Ha. destruct Ha as [Ga Ha].
  set (e := (Q + g) - rnd (Q + g)) in *.
  assert (MS : multiple (-960) (Q + g)) by (apply mul_add; assumption).
  assert (Fe : good e).
  { split; [|apply mul_sub; [exact MS|apply rnd_mul, MS]].
    destruct (two_sum_ok Q g FQ Fg) as (_ & E2 & E3). rewrite E2 in E3. exact E3. }
  assert (Le : Rabs e <= Rabs g) by (apply err_le_r; exact FQ).
  assert (WQ : wsep e (rnd (Q + g))) by (apply sep_wsep, sep_round).
  assert (Wa : Forall (wsep e) ra) by (eapply Forall_impl; [|exact Ga]; intros y Hy; apply wsep_le with g; assumption).
  assert (Wb : forall y, In y rb -> wsep e y).
  { destruct rb as [|r rb]; [intros y []|]. destruct (Hr r rb eq_refl) as [L1 L2]. intros y [<-|Hy].
    - destruct (Req_dec r 0) as [->|R0]; [apply wsep_0|]. destruct (Req_dec g 0) as [G0|G0]; [|apply L2; assumption].
      left. unfold e. rewrite G0, Rplus_0_r, (rnd_id Q FQ). lra.
    - cbn [wfwd] in Hb. destruct Hb as [Hb _]. rewrite Forall_forall in Hb. apply wsep_le with r; [lra|apply Hb, Hy]. }
  rewrite Forall_forall in Hwq.
  assert (Xg : forall x, In x h -> wsep x g) by (intros x Hx; apply Hwa; [exact Hx|left; reflexivity]).
  assert (XQ : forall x, In x h -> wsep x (rnd (Q + g))) by (intros x Hx; apply wsep_rnd, wsep_add; [apply Hwq, Hx|apply Xg, Hx]).
  assert (Xe : forall x, In x h -> wsep x e) by (intros x Hx; apply wsep_sub; [apply wsep_add; [apply Hwq, Hx|apply Xg, Hx]|apply XQ, Hx]).
  constructor; try assumption.
  - split; [apply fmt_rnd|apply rnd_mul, MS].
  - destruct (emit_cases h e) as [[_ ->]|[_ ->]]; [exact Hh|]. apply Forall_app. split; [exact Hh|]. constructor; [exact Fe|constructor].
  - assert (T : total (emitR h e) = total h + e).
    { destruct (emit_cases h e) as [[-> ->]|[_ ->]]; [lra|]. rewrite total_app. cbn. lra. }
    rewrite T. change (total (g :: ra)) with (g + total ra) in *. unfold e. lra.
  - cbn [length]. rewrite asum_cons. change (S (length ca) + length cb)%nat with (S (length ca + length cb)). rewrite S_INR.
    set (j := INR (length ca + length cb)) in *. assert (J : 0 <= j <= 64).
    { unfold j. split; [apply pos_INR|]. replace 64 with (INR 64) by (cbn; lra). apply le_INR, Hlen. }
    destruct (rnd_err (Q + g)) as [Er _]; [apply mul_weaken with (2 := MS); lia|].
    pose proof (tri (rnd (Q + g)) (Q + g)) as T1. pose proof (Rabs_triang Q g) as T2.
    pose proof (asum_pos ca). pose proof (asum_pos cb). pose proof (Rabs_pos g). set (S := asum ca + asum cb) in *.
    replace (Rabs g + asum ca + asum cb) with (Rabs g + S) by (unfold S; lra).
    assert (S0 : 0 <= S) by (unfold S; lra).
    apply Rle_trans with ((1 + u) * (Rabs Q + Rabs g)); [rewrite u_val in *; lra|].
    apply Rle_trans with ((1 + u) * ((1 + 2 * u * j) * S + Rabs g)); [apply Rmult_le_compat_l; [rewrite u_val; lra|lra]|].
    assert (A1 : 0 <= u * j * S) by (pose proof u_pos; apply Rmult_le_pos; [apply Rmult_le_pos|]; lra).
    assert (A2 : u * (u * j * S) <= u * 1 * S / 2).
    { replace (u * (u * j * S)) with ((u * j) * (u * S)) by ring. assert (u * j <= / 2) by (rewrite u_val; lra). assert (0 <= u * S) by (pose proof u_pos; apply Rmult_le_pos; lra). nra. }
    assert (A3 : 0 <= u * j * Rabs g) by (pose proof u_pos; apply Rmult_le_pos; [apply Rmult_le_pos|]; lra).
    assert (A4 : 0 <= u * Rabs g) by (pose proof u_pos; apply Rmult_le_pos; lra). assert (A5 : 0 <= u * S) by (pose proof u_pos; apply Rmult_le_pos; lra). nra.
  - destruct (emit_cases h e) as [[_ ->]|[_ ->]]; [exact Hw|]. apply wfwd_app. split; [exact Hw|]. split; [cbn; auto|].
    intros x y Hx [<-|[]]. apply Xe, Hx.
  - apply Forall_forall. intros x Hx. destruct (emit_cases h e) as [[_ E]|[_ E]]; rewrite E in Hx; [apply XQ, Hx|].
    apply in_app_iff in Hx. destruct Hx as [Hx|[<-|[]]]; [apply XQ, Hx|exact WQ].
  - rewrite Forall_forall in Wa. intros x y Hx Hy. destruct (emit_cases h e) as [[_ E]|[_ E]]; rewrite E in Hx; [apply Hwa; [exact Hx|right; exact Hy]|].
    apply in_app_iff in Hx. destruct Hx as [Hx|[<-|[]]]; [apply Hwa; [exact Hx|right; exact Hy]|apply Wa, Hy].
  - intros x y Hx Hy. destruct (emit_cases h e) as [[_ E]|[_ E]]; rewrite E in Hx; [apply Hwb; assumption|].
    apply in_app_iff in Hx. destruct Hx as [Hx|[<-|[]]]; [apply Hwb; assumption|apply Wb, Hy].
  - destruct (emit_cases h e) as [[_ ->]|[E ->]]; [exact Hnz|]. apply Forall_app. split; [exact Hnz|]. constructor; [exact E|constructor].
Qed.
