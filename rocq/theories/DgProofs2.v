(* C90: the checks for each distance. *)
From Coq Require Import Bool ZArith Reals List Lra Lia.
From Verif Require Import FricModel DgModel DgSpec DgProofs.
Import ListNotations.
Local Open Scope R_scope.

Lemma d_ext f g a b : (forall t, f t = g t) -> a = b -> derivable_pt_lim g 0 b -> derivable_pt_lim f 0 a.
Proof. intros E -> H eps He. destruct (H eps He) as [d Hd]. exists d. intros h H0 H1. rewrite !E. now apply Hd. Qed.

Definition grad_ok n (D : pol) (es : list ex) (f : ex) (g : list ex) : bool :=
  checks D (dd f) (wsum g (map dd es)) && inverses_of D f && Nat.eqb (length g) n.
Definition jac_ok n (D : pol) (es g h : list ex) : bool :=
  rows_check D n 0 g h (map dd es) && Nat.eqb (length g) n && Nat.eqb (length h) (n * n) && Nat.eqb (length es) n.

Section Check.
Variables (l : positive -> R) (D : pol) (es : list ex).
Hypothesis (D0 : pval l D <> 0) (L1 : l 1%positive = / pval l D).
Variables (gR : list R -> list R) (gE : list ex -> list ex).
Hypothesis (Hg : forall l, map (eval l) (gE es) = gR (map (eval l) es)).
Lemma gradient_by_check fR fE : (forall l, eval l (fE es) = fR (map (eval l) es)) ->
  grad_ok (length es) D es (fE es) (gE es) = true ->
  is_gradient (fun t => fR (map (eval (along l t)) es)) (gR (map (eval l) es)) (map (eval l) (map dd es)).
Proof.
  intros Hf H. apply andb_prop in H as [H H3]. apply andb_prop in H as [H1 H2]. apply Nat.eqb_eq in H3.
  split; [rewrite <- Hg, !map_length; exact H3|].
  eapply d_ext; [intros t; symmetry; apply Hf| |exact (derivative_by_check l D D0 L1 _ _ _ H1 H2)]. now rewrite Hg.
Qed.
Lemma jacobian_by_check n hR hE : map (eval l) (hE es) = hR (map (eval l) es) ->
  jac_ok n D es (gE es) (hE es) = true ->
  is_jacobian n (fun t => gR (map (eval (along l t)) es)) (hR (map (eval l) es)) (map (eval l) (map dd es)).
Proof.
  intros Hh H. apply andb_prop in H as [H H4]. apply andb_prop in H as [H H3]. apply andb_prop in H as [H1 H2].
  apply Nat.eqb_eq in H2, H3, H4.
  split; [now rewrite !map_length|]. split; [rewrite <- Hh, map_length; exact H3|]. split; [rewrite <- Hg, map_length; exact H2|].
  intros i Hi. rewrite <- H2 in Hi.
  eapply d_ext; [intros t; now rewrite <- Hg| |exact (rows_by_check l D D0 L1 n (hE es) (map dd es) (gE es) 0 H1 i Hi)]. now rewrite Hh.
Qed.
End Check.

(* variables and their velocities *)
Definition env (i : R) (xs ds : list R) (p : positive) : R :=
  match p with xH => i | xO q => nth (Nat.pred (Pos.to_nat q)) xs 0 | xI q => nth (Nat.pred (Pos.to_nat q)) ds 0 end.
Definition X (k : positive) : ex := EV (xO k).
Definition at_6 {A} (z : A) {B} (f : A -> A -> A -> A -> A -> A -> B) (l : list A) : B :=
  f (nth 0 l z) (nth 1 l z) (nth 2 l z) (nth 3 l z) (nth 4 l z) (nth 5 l z).
Definition at_9 {A} (z : A) {B} (f : A -> A -> A -> A -> A -> A -> A -> A -> A -> B) (l : list A) : B :=
  f (nth 0 l z) (nth 1 l z) (nth 2 l z) (nth 3 l z) (nth 4 l z) (nth 5 l z) (nth 6 l z) (nth 7 l z) (nth 8 l z).
Definition at_12 {A} (z : A) {B} (f : A -> A -> A -> A -> A -> A -> A -> A -> A -> A -> A -> A -> B) (l : list A) : B :=
  f (nth 0 l z) (nth 1 l z) (nth 2 l z) (nth 3 l z) (nth 4 l z) (nth 5 l z) (nth 6 l z) (nth 7 l z) (nth 8 l z) (nth 9 l z) (nth 10 l z) (nth 11 l z).
Definition z0 : ex := EC 0.

(* the squared distances over any scalar type *)
Section Any.
Context {T : Type} (o : ops T).
Local Notation "x + y" := (plus o x y). Local Notation "x - y" := (sub o x y). Local Notation "x * y" := (times o x y). Local Notation "x / y" := (quot o x y).
Definition sq2 (x y : T) : T := x * x + y * y.
Definition sq3 (x y z : T) : T := x * x + y * y + z * z.
Definition pe2 (p0 p1 a0 a1 b0 b1 : T) : T :=
  let ex := b0 - a0 in let ey := b1 - a1 in
  let n := ey * p0 - ex * p1 + b0 * a1 - b1 * a0 in n * n / sq2 ex ey.
Definition on_cross (k : T -> T -> T -> T) (a0 a1 a2 b0 b1 b2 : T) : T := k (a1 * b2 - a2 * b1) (a2 * b0 - a0 * b2) (a0 * b1 - a1 * b0).
Definition pe3 (p0 p1 p2 a0 a1 a2 b0 b1 b2 : T) : T :=
  on_cross sq3 (a0 - p0) (a1 - p1) (a2 - p2) (b0 - p0) (b1 - p1) (b2 - p2) / sq3 (b0 - a0) (b1 - a1) (b2 - a2).
Definition cn2 (a0 a1 a2 b0 b1 b2 c0 c1 c2 d0 d1 d2 : T) : T :=
  on_cross sq3 (b0 - a0) (b1 - a1) (b2 - a2) (d0 - c0) (d1 - c1) (d2 - c2).
Definition ee (a0 a1 a2 b0 b1 b2 c0 c1 c2 d0 d1 d2 : T) : T :=
  on_cross (fun x y z => let n := (c0 - a0) * x + (c1 - a1) * y + (c2 - a2) * z in n * n / sq3 x y z)
    (b0 - a0) (b1 - a1) (b2 - a2) (d0 - c0) (d1 - c1) (d2 - c2).
Definition pt (p0 p1 p2 a0 a1 a2 b0 b1 b2 c0 c1 c2 : T) : T :=
  on_cross (fun x y z => let n := (p0 - a0) * x + (p1 - a1) * y + (p2 - a2) * z in n * n / sq3 x y z)
    (b0 - a0) (b1 - a1) (b2 - a2) (c0 - a0) (c1 - a1) (c2 - a2).
End Any.

(* corners: the first point, and the others relative to earlier ones *)
Definition c2 : list ex := [X 1; X 2; EAdd (X 1) (X 3); EAdd (X 2) (X 4); EAdd (EAdd (X 1) (X 3)) (X 5); EAdd (EAdd (X 2) (X 4)) (X 6)].
Definition c3 : list ex := [X 1; X 2; X 3; EAdd (X 1) (X 4); EAdd (X 2) (X 5); EAdd (X 3) (X 6);
  EAdd (EAdd (X 1) (X 4)) (X 7); EAdd (EAdd (X 2) (X 5)) (X 8); EAdd (EAdd (X 3) (X 6)) (X 9)].
Definition ce : list ex := [X 1; X 2; X 3; EAdd (X 1) (X 4); EAdd (X 2) (X 5); EAdd (X 3) (X 6);
  EAdd (X 1) (X 7); EAdd (X 2) (X 8); EAdd (X 3) (X 9);
  EAdd (EAdd (X 1) (X 7)) (X 10); EAdd (EAdd (X 2) (X 8)) (X 11); EAdd (EAdd (X 3) (X 9)) (X 12)].
Definition ct : list ex := [X 1; X 2; X 3; EAdd (X 1) (X 4); EAdd (X 2) (X 5); EAdd (X 3) (X 6);
  EAdd (EAdd (X 1) (X 4)) (X 7); EAdd (EAdd (X 2) (X 5)) (X 8); EAdd (EAdd (X 3) (X 6)) (X 9);
  EAdd (EAdd (X 1) (X 4)) (X 10); EAdd (EAdd (X 2) (X 5)) (X 11); EAdd (EAdd (X 3) (X 6)) (X 12)].
(* denominators *)
Definition e2 : ex := sq2 expr (X 5) (X 6).
Definition e3 : ex := sq3 expr (X 7) (X 8) (X 9).
Definition ee_n : ex := on_cross expr (sq3 expr) (X 4) (X 5) (X 6) (X 10) (X 11) (X 12).
Definition pt_n : ex := on_cross expr (sq3 expr) (X 7) (X 8) (X 9) (X 10) (X 11) (X 12).
Definition N (e : ex) : pol := norm (tr e).

Lemma pe2_g : grad_ok 6 (N e2) c2 (at_6 z0 (pe2 expr) c2) (at_6 z0 (g_PE2D expr) c2) = true. Proof. now vm_compute. Qed.
Lemma pe2_h : jac_ok 6 (N e2) c2 (at_6 z0 (g_PE2D expr) c2) (at_6 z0 (H_PE2D expr) c2) = true. Proof. now vm_compute. Qed.
Lemma pe3_g : grad_ok 9 (N e3) c3 (at_9 z0 (pe3 expr) c3) (at_9 z0 (g_PE3D expr) c3) = true. Proof. now vm_compute. Qed.
Lemma pe3_h : jac_ok 9 (N e3) c3 (at_9 z0 (g_PE3D expr) c3) (at_9 z0 (H_PE3D expr) c3) = true. Proof. now vm_compute. Qed.
Lemma ee_g : grad_ok 12 (N ee_n) ce (at_12 z0 (ee expr) ce) (at_12 z0 (g_EE expr) ce) = true. Proof. now vm_compute. Qed.
Lemma ee_h : jac_ok 12 (N ee_n) ce (at_12 z0 (g_EE expr) ce) (at_12 z0 (H_EE expr) ce) = true. Proof. now vm_compute. Qed.
Lemma cn_g : grad_ok 12 (N (EC 1)) ce (at_12 z0 (cn2 expr) ce) (at_12 z0 (g_EECN2 expr) ce) = true. Proof. now vm_compute. Qed.
Lemma cn_h : jac_ok 12 (N (EC 1)) ce (at_12 z0 (g_EECN2 expr) ce) (at_12 z0 (H_EECN2 expr) ce) = true. Proof. now vm_compute. Qed.
Lemma pt_g : grad_ok 12 (N pt_n) ct (at_12 z0 (pt expr) ct) (at_12 z0 (g_PT expr) ct) = true. Proof. now vm_compute. Qed.
Lemma pt_h : jac_ok 12 (N pt_n) ct (at_12 z0 (g_PT expr) ct) (at_12 z0 (H_PT expr) ct) = true. Proof. now vm_compute. Qed.

Definition sym_ok n (D : pol) (h : list ex) : bool :=
  forallb (fun i => forallb (fun j => checks D (nth j (ex_row n i h) z0) (nth i (ex_row n j h) z0)) (seq 0 n)) (seq 0 n).
Lemma symmetric_by_check l D n h : pval l D <> 0 -> l 1%positive = / pval l D -> sym_ok n D h = true -> symmetric n (map (eval l) h).
Proof.
  intros D0 L1 H i j Hi Hj. unfold sym_ok in H. rewrite forallb_forall in H.
  specialize (H i ltac:(apply in_seq; lia)). rewrite forallb_forall in H. specialize (H j ltac:(apply in_seq; lia)).
  unfold row. rewrite !skipn_map, !firstn_map.
  change 0 with (eval l z0). rewrite !map_nth. now apply (checks_correct l D).
Qed.
Lemma pe2_s : sym_ok 6 (N e2) (at_6 z0 (H_PE2D expr) c2) = true. Proof. now vm_compute. Qed.
Lemma pe3_s : sym_ok 9 (N e3) (at_9 z0 (H_PE3D expr) c3) = true. Proof. now vm_compute. Qed.
Lemma ee_s : sym_ok 12 (N ee_n) (at_12 z0 (H_EE expr) ce) = true. Proof. now vm_compute. Qed.
Lemma cn_s : sym_ok 12 (N (EC 1)) (at_12 z0 (H_EECN2 expr) ce) = true. Proof. now vm_compute. Qed.
Lemma pt_s : sym_ok 12 (N pt_n) (at_12 z0 (H_PT expr) ct) = true. Proof. now vm_compute. Qed.

Lemma pval_N l e : pval l (N e) = peval l (tr e).
Proof. symmetry. apply norm_correct. Qed.
Lemma is_gradient_ext f f' g g' d d' : (forall t, f t = f' t) -> g = g' -> d = d' -> is_gradient f' g' d' -> is_gradient f g d.
Proof. intros E -> -> [L H]. split; [exact L|]. now apply (d_ext f f' _ _ E eq_refl). Qed.
Lemma is_jacobian_ext n g g' h h' d d' : (forall t, g t = g' t) -> h = h' -> d = d' -> is_jacobian n g' h' d' -> is_jacobian n g h d.
Proof.
  intros E -> -> (L1 & L2 & L3 & H). split; [exact L1|]. split; [exact L2|]. split; [now rewrite E|].
  intros i Hi. eapply d_ext; [intros t; now rewrite E|reflexivity|now apply H].
Qed.

Ltac coordinates := cbv -[Rplus Rmult Rminus Rinv Ropp IZR ux uy vx vy vz]; cbn [ux uy vx vy vz]; repeat (apply f_equal2; [ring|]); reflexivity.
