(* C90: expressions, their derivatives, and equality of rational functions by normal forms. *)
From Coq Require Import ZArith Reals List Lra Lia Ring_theory Setoid.
From Coq.micromega Require EnvRing.
From Verif Require Import FricModel DgModel DgSpec.
Import ListNotations.
Local Open Scope R_scope.

Inductive ex := EV (p : positive) | EC (z : Z) | EAdd (a b : ex) | ESub (a b : ex) | EMul (a b : ex) | ENeg (a : ex) | EInv (a : ex) | ERoot (a : ex).
Fixpoint eval (l : positive -> R) (e : ex) : R :=
  match e with
  | EV p => l p | EC z => IZR z
  | EAdd a b => eval l a + eval l b | ESub a b => eval l a - eval l b | EMul a b => eval l a * eval l b
  | ENeg a => - eval l a | EInv a => / eval l a | ERoot a => sqrt (eval l a)
  end.
Definition expr : ops ex := Ops ex EC EAdd ESub EMul ENeg (fun a b => EMul a (EInv b)).

(* derivative along the direction whose coordinates are the odd variables *)
Fixpoint dd (e : ex) : ex :=
  match e with
  | EV (xO p) => EV (xI p) | EV _ => EC 0 | EC _ => EC 0
  | EAdd a b => EAdd (dd a) (dd b) | ESub a b => ESub (dd a) (dd b)
  | EMul a b => EAdd (EMul (dd a) b) (EMul a (dd b))
  | ENeg a => ENeg (dd a) | EInv a => EMul (ENeg (dd a)) (EMul (EInv a) (EInv a))
  | ERoot a => EMul (dd a) (EMul (EInv (EC 2)) (EInv (ERoot a)))
  end.
(* the even variables moving along that direction *)
Definition along (l : positive -> R) (t : R) (p : positive) : R := match p with xO q => l p + t * l (xI q) | _ => l p end.
Fixpoint fine (l : positive -> R) (e : ex) : Prop :=
  match e with
  | EV _ | EC _ => True
  | EAdd a b | ESub a b | EMul a b => fine l a /\ fine l b
  | ENeg a => fine l a | EInv a => fine l a /\ eval l a <> 0 | ERoot a => fine l a /\ 0 < eval l a
  end.
Lemma eval_ext l l' e : (forall p, l p = l' p) -> eval l e = eval l' e.
Proof. intros H. induction e; cbn; congruence. Qed.
Lemma along_0 l p : along l 0 p = l p.
Proof. destruct p; cbn; ring. Qed.
Lemma d_lin a b : derivable_pt_lim (fun t => a + t * b) 0 b.
Proof. intros eps He. exists (mkposreal 1 Rlt_0_1). intros h H0 _. replace ((a + (0 + h) * b - (a + 0 * b)) / h - b) with 0 by (field; exact H0). now rewrite Rabs_R0. Qed.
Lemma dd_correct l e : fine l e -> derivable_pt_lim (fun t => eval (along l t) e) 0 (eval l (dd e)).
Proof.
  assert (E0 : forall e, eval (along l 0) e = eval l e) by (intros; apply eval_ext, along_0).
  induction e; cbn; intros F.
  - destruct p; cbn; try apply derivable_pt_lim_const.
    apply d_lin.
  - apply derivable_pt_lim_const.
  - apply derivable_pt_lim_plus; tauto.
  - apply derivable_pt_lim_minus; tauto.
  - rewrite <- (E0 e1), <- (E0 e2). apply (derivable_pt_lim_mult (fun t => eval (along l t) e1) (fun t => eval (along l t) e2)); tauto.
  - apply derivable_pt_lim_opp; tauto.
  - destruct F as [F N].
    assert (D : derivable_pt_lim (fun t => 1 / eval (along l t) e) 0 ((0 * eval (along l 0) e - eval l (dd e) * 1) / Rsqr (eval (along l 0) e))).
    { apply (derivable_pt_lim_div (fun _ => 1) (fun t => eval (along l t) e)); [apply derivable_pt_lim_const|auto|now rewrite E0]. }
    rewrite E0 in D. replace (- eval l (dd e) * (/ eval l e * / eval l e)) with ((0 * eval l e - eval l (dd e) * 1) / Rsqr (eval l e)) by (unfold Rsqr; field; exact N).
    intros eps He. destruct (D eps He) as [d Hd]. exists d. intros h H1 H2. specialize (Hd h H1 H2).
    now rewrite <- (Rmult_1_l (/ eval (along l (0 + h)) e)), <- (Rmult_1_l (/ eval (along l 0) e)).
  - destruct F as [F N]. replace (eval l (dd e) * (/ 2 * / sqrt (eval l e))) with (/ (2 * sqrt (eval l e)) * eval l (dd e))
      by (rewrite Rinv_mult; ring).
    apply (derivable_pt_lim_comp (fun t => eval (along l t) e) sqrt); [auto|]. rewrite E0. now apply derivable_pt_lim_sqrt.
Qed.

(* polynomials with integer coefficients *)
Definition pol := EnvRing.Pol Z.
Definition norm (e : EnvRing.PExpr Z) : pol := EnvRing.norm_aux 0%Z 1%Z Z.add Z.mul Z.sub Z.opp Z.eqb e.
Definition peval (l : positive -> R) (e : EnvRing.PExpr Z) : R :=
  EnvRing.PEeval Rplus Rmult Rminus Ropp IZR N.to_nat pow l e.
Definition same (a b : pol) : bool := EnvRing.Peq Z.eqb a b.
(* inverses become the variable 1 *)
Fixpoint tr (e : ex) : EnvRing.PExpr Z :=
  match e with
  | EV p => EnvRing.PEX p | EC z => EnvRing.PEc z
  | EAdd a b => EnvRing.PEadd (tr a) (tr b) | ESub a b => EnvRing.PEsub (tr a) (tr b) | EMul a b => EnvRing.PEmul (tr a) (tr b)
  | ENeg a => EnvRing.PEopp (tr a) | EInv _ | ERoot _ => EnvRing.PEX 1
  end.
(* every inverse is the inverse of D *)
Fixpoint inverses_of (D : pol) (e : ex) : bool :=
  match e with
  | EV _ | EC _ => true
  | EAdd a b | ESub a b | EMul a b => inverses_of D a && inverses_of D b
  | ENeg a => inverses_of D a | EInv a => inverses_of D a && same (norm (tr a)) D | ERoot _ => false
  end.

Definition pval (l : positive -> R) (P : pol) : R := EnvRing.Pphi Rplus Rmult IZR l P.
Lemma R_ext : ring_eq_ext Rplus Rmult Ropp eq.
Proof. constructor; congruence. Qed.
Lemma R_ring : ring_theory 0 1 Rplus Rmult Rminus Ropp eq.
Proof. constructor; intros; try ring. Qed.
Lemma IZR_morph : ring_morph 0 1 Rplus Rmult Rminus Ropp eq 0%Z 1%Z Z.add Z.mul Z.sub Z.opp Z.eqb IZR.
Proof.
  constructor; try reflexivity; intros.
  - apply plus_IZR.
  - apply minus_IZR.
  - apply mult_IZR.
  - apply opp_IZR.
  - f_equal. now apply Z.eqb_eq.
Qed.
Lemma R_power : power_theory 1 Rmult eq N.to_nat pow.
Proof.
  constructor. intros r n. destruct n as [|p]; [reflexivity|]. cbn.
  induction p using Pos.peano_ind; [unfold Pos.to_nat; cbn; apply Rmult_1_r|].
  rewrite Pos2Nat.inj_succ. cbn [pow]. rewrite IHp. symmetry. apply (@pow_pos_succ R Rmult eq (Eqsth R)); [now intros ? ? -> ? ? ->|intros; ring].
Qed.
Lemma norm_correct l e : peval l e = pval l (norm e).
Proof.
  apply (EnvRing.norm_aux_spec (Eqsth R) R_ext (Rth_ARth (Eqsth R) R_ext R_ring) IZR_morph R_power).
Qed.
Lemma same_correct l P Q : same P Q = true -> pval l P = pval l Q.
Proof. intros H. exact (EnvRing.Peq_ok (Eqsth R) R_ext IZR_morph P Q H l). Qed.

Section Inverse.
Variables (l : positive -> R) (D : pol).
Hypothesis (D0 : pval l D <> 0) (L1 : l 1%positive = / pval l D).
Lemma tr_correct e : inverses_of D e = true -> eval l e = peval l (tr e) /\ fine l e.
Proof.
  induction e; cbn; intros H; auto.
  - apply andb_prop in H as [H1 H2]. destruct (IHe1 H1) as [-> F1], (IHe2 H2) as [-> F2]. auto.
  - apply andb_prop in H as [H1 H2]. destruct (IHe1 H1) as [-> F1], (IHe2 H2) as [-> F2]. auto.
  - apply andb_prop in H as [H1 H2]. destruct (IHe1 H1) as [-> F1], (IHe2 H2) as [-> F2]. auto.
  - destruct (IHe H) as [-> F]. auto.
  - apply andb_prop in H as [H1 H2]. destruct (IHe H1) as [-> F]. rewrite norm_correct, (same_correct l _ _ H2).
    unfold Env.Env. auto.
  - discriminate.
Qed.
Definition checks (e e' : ex) : bool := inverses_of D e && inverses_of D e' && same (norm (tr e)) (norm (tr e')).
Lemma checks_correct e e' : checks e e' = true -> eval l e = eval l e'.
Proof.
  unfold checks. intros H. apply andb_prop in H as [H S]. apply andb_prop in H as [H1 H2].
  destruct (tr_correct e H1) as [-> _], (tr_correct e' H2) as [-> _]. rewrite !norm_correct. now apply same_correct.
Qed.
(* the sum of the products of corresponding entries, as an expression *)
Fixpoint wsum (ws xs : list ex) : ex := match ws, xs with w :: r, x :: s => EAdd (EMul w x) (wsum r s) | _, _ => EC 0 end.
Lemma wsum_correct ws xs : eval l (wsum ws xs) = weighted (map (eval l) ws) (map (eval l) xs).
Proof. revert xs. induction ws; intros [|x xs]; cbn; try reflexivity. now rewrite IHws. Qed.
(* if the check succeeds, the directional derivative of e is given by the list g *)
Lemma derivative_by_check e g d : checks (dd e) (wsum g d) = true -> inverses_of D e = true ->
  derivable_pt_lim (fun t => eval (along l t) e) 0 (weighted (map (eval l) g) (map (eval l) d)).
Proof.
  intros H F. rewrite <- wsum_correct, <- (checks_correct _ _ H). apply dd_correct. now apply tr_correct.
Qed.
Definition ex_row (n i : nat) (m : list ex) : list ex := firstn n (skipn (n * i) m).
Fixpoint rows_check (n i : nat) (g h d : list ex) : bool :=
  match g with
  | [] => true
  | e :: r => checks (dd e) (wsum (ex_row n i h) d) && inverses_of D e && rows_check n (S i) r h d
  end.
Lemma rows_by_check n h d g i : rows_check n i g h d = true -> forall k, (k < length g)%nat ->
  derivable_pt_lim (fun t => nth k (map (eval (along l t)) g) 0) 0 (weighted (row n (i + k) (map (eval l) h)) (map (eval l) d)).
Proof.
  revert i. induction g as [|e g IH]; intros i H k Hk; cbn in Hk; [lia|]. cbn in H.
  apply andb_prop in H as [H H3]. apply andb_prop in H as [H1 H2]. destruct k as [|k]; cbn [nth map].
  - rewrite Nat.add_0_r. unfold row. rewrite <- firstn_map, <- skipn_map || rewrite skipn_map, firstn_map. now apply derivative_by_check.
  - replace (i + S k)%nat with (S i + k)%nat by lia. apply IH; [exact H3|lia].
Qed.
End Inverse.
