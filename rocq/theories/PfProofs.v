(* C91: expressions with several inverses and roots, checked by normal forms. *)
From Coq Require Import Bool ZArith QArith Qreals Reals List Lra Lia Ring_theory Setoid.
From Coq.micromega Require EnvRing.
From Verif Require Import FricModel DgModel DgSpec DgProofs DgProofs2 PfModel PfSpec.
Import ListNotations.
Local Open Scope R_scope.

(* polynomials with rational coefficients *)
Definition pexpr := EnvRing.PExpr Q.
Definition qpol := EnvRing.Pol Q.
Definition qnorm (e : pexpr) : qpol := EnvRing.norm_aux 0%Q 1%Q Qplus Qmult Qminus Qopp Qeq_bool e.
Definition qeval (l : positive -> R) (e : pexpr) : R := EnvRing.PEeval Rplus Rmult Rminus Ropp Q2R N.to_nat pow l e.
Definition qval (l : positive -> R) (P : qpol) : R := EnvRing.Pphi Rplus Rmult Q2R l P.
Definition qsame (a b : qpol) : bool := EnvRing.Peq Qeq_bool a b.
Lemma Q2R_Z z : Q2R (inject_Z z) = IZR z.
Proof. unfold Q2R, inject_Z. cbn. rewrite Rinv_1. ring. Qed.
Lemma Q2R_half p : Q2R (1 # p) = / IZR (Zpos p).
Proof. unfold Q2R. cbn. ring. Qed.
Lemma Q2R_morph : ring_morph 0 1 Rplus Rmult Rminus Ropp eq 0%Q 1%Q Qplus Qmult Qminus Qopp Qeq_bool Q2R.
Proof.
  constructor; intros.
  - exact (Q2R_Z 0).
  - exact (Q2R_Z 1).
  - apply Q2R_plus.
  - apply Q2R_minus.
  - apply Q2R_mult.
  - apply Q2R_opp.
  - apply Qeq_eqR. now apply Qeq_bool_eq.
Qed.
Lemma qnorm_correct l e : qeval l e = qval l (qnorm e).
Proof. apply (EnvRing.norm_aux_spec (Eqsth R) R_ext (Rth_ARth (Eqsth R) R_ext R_ring) Q2R_morph R_power). Qed.
Lemma qsame_correct l P Q : qsame P Q = true -> qval l P = qval l Q.
Proof. intros H. exact (EnvRing.Peq_ok (Eqsth R) R_ext Q2R_morph P Q H l). Qed.

(* known inverses and roots, each a polynomial and the variable standing for its inverse or root *)
Record table := Table { inverses : list (qpol * positive); roots : list (qpol * positive) }.
Fixpoint lookup (P : qpol) (t : list (qpol * positive)) : option positive :=
  match t with [] => None | (Q, p) :: r => if qsame P Q then Some p else lookup P r end.
Definition lift2 (f : pexpr -> pexpr -> pexpr) (a b : option (pexpr)) :=
  match a, b with Some a, Some b => Some (f a b) | _, _ => None end.
Definition atom_of (t : list (qpol * positive)) (a : option (pexpr)) : option (pexpr) :=
  match a with Some a => option_map (@EnvRing.PEX Q) (lookup (qnorm a) t) | None => None end.
Fixpoint poly (T : table) (e : ex) : option (pexpr) :=
  match e with
  | EV p => Some (EnvRing.PEX p) | EC z => Some (EnvRing.PEc (inject_Z z))
  | EAdd a b => lift2 EnvRing.PEadd (poly T a) (poly T b)
  | ESub a b => lift2 EnvRing.PEsub (poly T a) (poly T b)
  | EMul a b => lift2 EnvRing.PEmul (poly T a) (poly T b)
  | ENeg a => option_map EnvRing.PEopp (poly T a)
  | EInv a => match a with EC (Zpos p) => Some (EnvRing.PEc (1 # p)) | _ => atom_of (inverses T) (poly T a) end
  | ERoot a => atom_of (roots T) (poly T a)
  end.
Definition sound (l : positive -> R) (T : table) : Prop :=
  (forall P p, In (P, p) (inverses T) -> qval l P <> 0 /\ l p = / qval l P) /\
  (forall P p, In (P, p) (roots T) -> 0 < qval l P /\ l p = sqrt (qval l P)).
Lemma lookup_in l P t p : lookup P t = Some p -> exists Q, In (Q, p) t /\ qval l P = qval l Q.
Proof.
  induction t as [|[Q q] t IH]; cbn; [discriminate|]. destruct (qsame P Q) eqn:S.
  - intros H. injection H as ->. exists Q. split; [now left|]. now apply qsame_correct.
  - intros H. destruct (IH H) as (Q' & I & E). exists Q'. split; [now right|exact E].
Qed.
Lemma poly_correct l T e q : sound l T -> poly T e = Some q -> eval l e = qeval l q /\ fine l e.
Proof.
  intros [SI SR]. revert q. induction e; cbn; intros q H; try (injection H as <-; now split).
  { injection H as <-. change (qeval l (EnvRing.PEc (inject_Z z))) with (Q2R (inject_Z z)). now rewrite Q2R_Z. }
  1-3: destruct (poly T e1) as [q1|]; [|discriminate]; destruct (poly T e2) as [q2|]; [|discriminate]; injection H as <-;
    destruct (IHe1 _ eq_refl) as [-> F1], (IHe2 _ eq_refl) as [-> F2]; now repeat split.
  - destruct (poly T e) as [q1|]; [|discriminate]. injection H as <-. destruct (IHe _ eq_refl) as [-> F]. now split.
  - destruct (match e with EC (Zpos p) => true | _ => false end) eqn:Hc.
    { destruct e as [|[|p|]| | | | | |]; try discriminate. injection H as <-. cbn. split; [symmetry; exact (Q2R_half p)|]. split; [exact I|]. now apply not_0_IZR. }
    assert (H' : atom_of (inverses T) (poly T e) = Some q) by (destruct e as [|[|p|]| | | | | |]; try discriminate; exact H).
    clear H. rename H' into H.
    destruct (poly T e) as [q1|]; [|discriminate]. cbn in H. destruct (lookup _ _) as [p|] eqn:L; [|discriminate]. injection H as <-.
    destruct (IHe _ eq_refl) as [-> F]. destruct (lookup_in l _ _ _ L) as (Q & I & E). destruct (SI _ _ I) as [N V].
    rewrite qnorm_correct, E. change (qeval l (EnvRing.PEX p)) with (l p). now rewrite V.
  - destruct (poly T e) as [q1|]; [|discriminate]. cbn in H. destruct (lookup _ _) as [p|] eqn:L; [|discriminate]. injection H as <-.
    destruct (IHe _ eq_refl) as [-> F]. destruct (lookup_in l _ _ _ L) as (Q & I & E). destruct (SR _ _ I) as [N V].
    rewrite qnorm_correct, E. change (qeval l (EnvRing.PEX p)) with (l p). now rewrite V.
Qed.

(* inverses and roots in the order in which they are introduced *)
Inductive atom := AInv (e : ex) (p : positive) | ARoot (e : ex) (p : positive).
Definition valid (l : positive -> R) (a : atom) : Prop :=
  match a with AInv e p => eval l e <> 0 /\ l p = / eval l e | ARoot e p => 0 < eval l e /\ l p = sqrt (eval l e) end.
Fixpoint build (T : table) (l : list atom) : option table :=
  match l with
  | [] => Some T
  | AInv e p :: r => match poly T e with Some q => build (Table ((qnorm q, p) :: inverses T) (roots T)) r | None => None end
  | ARoot e p :: r => match poly T e with Some q => build (Table (inverses T) ((qnorm q, p) :: roots T)) r | None => None end
  end.
Lemma build_sound l ats T T' : sound l T -> Forall (valid l) ats -> build T ats = Some T' -> sound l T'.
Proof.
  revert T. induction ats as [|a ats IH]; cbn; intros T S F H; [now injection H as <-|]. inversion F as [|? ? V F']. subst.
  destruct a as [e p|e p]; destruct (poly T e) as [q|] eqn:E; try discriminate;
    destruct (poly_correct l T e q S E) as [Q _]; cbn in V; rewrite Q, qnorm_correct in V; (apply (IH _) in H; [exact H| |exact F']);
    destruct S as [SI SR]; split; cbn; intros P p' I; try (now apply SI); try (now apply SR); (destruct I as [I|I]; [now injection I as <- <-|now auto]).
Qed.
Definition start : table := Table [] [].
Lemma start_sound l : sound l start.
Proof. split; cbn; tauto. Qed.
Definition agree (T : table) (a b : ex) : bool :=
  match poly T a, poly T b with Some p, Some q => qsame (qnorm p) (qnorm q) | _, _ => false end.
Lemma agree_correct l T a b : sound l T -> agree T a b = true -> eval l a = eval l b.
Proof.
  intros S. unfold agree. destruct (poly T a) as [p|] eqn:A; [|discriminate]. destruct (poly T b) as [q|] eqn:B; [|discriminate].
  intros H. destruct (poly_correct l T a p S A) as [-> _], (poly_correct l T b q S B) as [-> _]. rewrite !qnorm_correct. now apply qsame_correct.
Qed.

Definition ex_column (w k : nat) (m : list ex) : list ex := map (fun i => nth (w * i + k) m z0) (seq 0 (length m / w)).
Definition col_ok (ats : list atom) (es : list ex) (f : ex) (w k : nat) (m : list ex) : bool :=
  match build start ats with
  | Some T => agree T (dd f) (wsum (ex_column w k m) (map dd es)) && (match poly T f with Some _ => true | None => false end) &&
    Nat.eqb (length m / w) (length es)
  | None => false
  end.
Definition blank_ok (h w : nat) (ks : list nat) (m : list ex) : bool :=
  Nat.eqb (length m) (h * w) &&
  forallb (fun i => forallb (fun k => existsb (Nat.eqb k) ks || match nth (w * i + k) m (EC 1) with EC 0 => true | _ => false end) (seq 0 w)) (seq 0 h).
Lemma column_eval l w k m : map (eval l) (ex_column w k m) = column w k (map (eval l) m).
Proof.
  unfold ex_column, column. rewrite map_map, map_length. apply map_ext. intros i. change 0 with (eval l z0). now rewrite map_nth.
Qed.
Section Check.
Variables (l : positive -> R) (ats : list atom) (es : list ex) (w k : nat).
Hypothesis V : Forall (valid l) ats.
Lemma gradient_of_column f m mR : map (eval l) m = mR -> col_ok ats es f w k m = true ->
  is_gradient (fun t => eval (along l t) f) (column w k mR) (map (eval l) (map dd es)).
Proof.
  intros <- H. unfold col_ok in H. destruct (build start ats) as [T|] eqn:B; [|discriminate].
  pose proof (build_sound l ats _ _ (start_sound l) V B) as S.
  apply andb_prop in H as [H H3]. apply andb_prop in H as [H1 H2]. apply Nat.eqb_eq in H3.
  split; [unfold column; rewrite !map_length, seq_length; exact H3|].
  rewrite <- column_eval, <- wsum_correct, <- (agree_correct l T _ _ S H1).
  destruct (poly T f) as [q|] eqn:E; [|discriminate]. destruct (poly_correct l T _ q S E) as [_ F].
  now apply dd_correct.
Qed.
End Check.
Lemma blank_by_check l h w ks m : blank_ok h w ks m = true -> only_columns h w ks (map (eval l) m).
Proof.
  intros H. apply andb_prop in H as [H1 H]. apply Nat.eqb_eq in H1. split; [now rewrite map_length|].
  intros i k Hi Hk Hn. rewrite forallb_forall in H. specialize (H i ltac:(apply in_seq; lia)). rewrite forallb_forall in H.
  specialize (H k ltac:(apply in_seq; lia)). destruct (existsb (Nat.eqb k) ks) eqn:E.
  { exfalso. apply Hn. apply existsb_exists in E as (x & I & Ex). apply Nat.eqb_eq in Ex. now subst. }
  cbn in H. rewrite (nth_indep _ 0 (eval l (EC 1))) by (rewrite map_length, H1; nia). rewrite map_nth.
  destruct (nth (w * i + k) m (EC 1)) as [|[]| | | | | |]; try discriminate. reflexivity.
Qed.
