(* Axis and angles of a rotation matrix. *)
From mathcomp Require Import all_ssreflect all_algebra.
From Coq Require Import Field.
From Verif Require Import FieldTac MatModel MatSpec MatProofs MatProofs2 RotModel RotSpec RotProofs RotProofs2.
Set Implicit Arguments.
Unset Strict Implicit.
Unset Printing Implicit Defensive.
Import GRing.Theory Num.Theory Order.Theory.
Local Open Scope ring_scope.

Section R.
Variable T : rcfType.
Let F : fieldType := [fieldType of T].
Add Field ff : (cfield F).
Ltac side := match goal with |- _ /\ _ => split; side | _ =>
  first [assumption | exact (@two_neq0 T) | exact (@two2_neq0 T)] end.
Ltac fld := to_fld F; field; try side.
Ltac hf H := match type of H with @eq _ ?l ?r => change (@eq (GRing.Field.sort F) l r) in H end.
Ltac ring4 := let H1 := fresh in let H2 := fresh in let H3 := fresh in let H4 := fresh in
  to_fld0 F => H1 H2 H3 H4; hf H1; hf H2; hf H3; hf H4; refine (@fsub_eq F _ _ _); ring [H1 H2 H3 H4].
Ltac ring2 := let H1 := fresh in let H2 := fresh in
  to_fld0 F => H1 H2; hf H1; hf H2; refine (@fsub_eq F _ _ _); ring [H1 H2].
Ltac ring1 := let H1 := fresh in
  to_fld0 F => H1; hf H1; refine (@fsub_eq F _ _ _); ring [H1].

Section Axial.
Variables a b c d e f g h i : T.
Hypothesis O : orth a b c d e f g h i.
Hypothesis O' : orth a d g b e h c f i.
Hypothesis K : cof a b c d e f g h i.
Let t := a + e + i.

Lemma ax00 : (h - f) * (h - f) = (1 + t) * (2%:R * a - (t - 1)).
Proof.
  have E1 : f * h = e * i - a by rewrite -(k00 K); fld.
  have E2 : f * f = 1 - d * d - e * e by rewrite -(r11 O); fld.
  have E3 : h * h = 1 - g * g - i * i by rewrite -(r22 O); fld.
  have E4 : g * g = 1 - a * a - d * d by rewrite -(r00 O'); fld.
  rewrite /t; move: E1 E2 E3 E4; ring4.
Qed.
Lemma ax11 : (c - g) * (c - g) = (1 + t) * (2%:R * e - (t - 1)).
Proof.
  have E1 : c * g = a * i - e by rewrite -(k11 K); fld.
  have E2 : c * c = 1 - a * a - b * b by rewrite -(r00 O); fld.
  have E3 : g * g = 1 - h * h - i * i by rewrite -(r22 O); fld.
  have E4 : h * h = 1 - b * b - e * e by rewrite -(r11 O'); fld.
  rewrite /t; move: E1 E2 E3 E4; ring4.
Qed.
Lemma ax22 : (d - b) * (d - b) = (1 + t) * (2%:R * i - (t - 1)).
Proof.
  have E1 : b * d = a * e - i by rewrite -(k22 K); fld.
  have E2 : d * d = 1 - e * e - f * f by rewrite -(r11 O); fld.
  have E3 : b * b = 1 - a * a - c * c by rewrite -(r00 O); fld.
  have E4 : f * f = 1 - c * c - i * i by rewrite -(r22 O'); fld.
  rewrite /t; move: E1 E2 E3 E4; ring4.
Qed.
Lemma ax01 : (h - f) * (c - g) = (1 + t) * (b + d).
Proof.
  have E1 : c * h = d + b * i by rewrite -(k10 K); fld.
  have E2 : g * h = - (a * b) - d * e by rewrite -[RHS]addr0 -(r01 O'); fld.
  have E3 : c * f = - (a * d) - b * e by rewrite -[RHS]addr0 -(r01 O); fld.
  have E4 : f * g = b + d * i by rewrite -(k01 K); fld.
  transitivity (c * h - g * h - c * f + f * g); first by fld.
  rewrite /t E1 E2 E3 E4. by fld.
Qed.
Lemma ax02 : (h - f) * (d - b) = (1 + t) * (c + g).
Proof.
  have E1 : d * h = c + e * g by rewrite -(k02 K); fld.
  have E2 : b * h = - (a * g) - c * i by rewrite -[RHS]addr0 -(r02 O); fld.
  have E3 : d * f = - (a * c) - g * i by rewrite -[RHS]addr0 -(r02 O'); fld.
  have E4 : b * f = g + c * e by rewrite -(k20 K); fld.
  transitivity (d * h - b * h - d * f + b * f); first by fld.
  rewrite /t E1 E2 E3 E4. by fld.
Qed.
Lemma ax12 : (c - g) * (d - b) = (1 + t) * (f + h).
Proof.
  have E1 : c * d = h + a * f by rewrite -(k21 K); fld.
  have E2 : b * c = - (e * f) - h * i by rewrite -[RHS]addr0 -(r12 O'); fld.
  have E3 : d * g = - (e * h) - f * i by rewrite -[RHS]addr0 -(r12 O); fld.
  have E4 : b * g = f + a * h by rewrite -(k12 K); fld.
  transitivity (c * d - b * c - d * g + b * g); first by fld.
  rewrite /t E1 E2 E3 E4. by fld.
Qed.

Lemma axial_norm : (h - f) * (h - f) + (c - g) * (c - g) + (d - b) * (d - b) = (1 + t) * (3%:R - t).
Proof. rewrite ax00 ax11 ax22 /t. by fld. Qed.
End Axial.

Lemma sqr0 (x : T) : x * x = 0 -> x = 0.
Proof. by move/eqP; rewrite mulf_eq0 orbb => /eqP. Qed.

Lemma sq_ge0 (x : T) : 0 <= x * x. Proof. by rewrite -expr2 sqr_ge0. Qed.

Lemma sum2_0 (x y : T) : x * x + y * y = 0 -> x = 0 /\ y = 0.
Proof.
  move/eqP; rewrite paddr_eq0 ?sq_ge0 // => /andP [/eqP H1 /eqP H2].
  by split; apply: sqr0.
Qed.

Lemma sum3_0 (x y z : T) : x * x + y * y + z * z = 0 -> x = 0 /\ y = 0 /\ z = 0.
Proof.
  move/eqP; rewrite paddr_eq0 ?addr_ge0 ?sq_ge0 // => /andP [/eqP /sum2_0 [H1 H2] /eqP /sqr0 H3]. by [].
Qed.

Lemma normalized_id (p : nat -> T) i : (i < 3)%N -> l2NormSqr 3 p = 1 -> normalized 3 p i = p i.
Proof. move=> Hi H. by rewrite normalizedE // /length H sqrtr1 divr1. Qed.

Lemma near_zero0 (eps : T) : 0 <= eps -> near_zero eps 0.
Proof. move=> H. by rewrite /near_zero oppr_le0 H. Qed.

Lemma atan2E (x y r : T) : x * x + y * y = r * r -> 0 < r -> atan2 y x = Ang (x / r) (y / r).
Proof.
  move=> H Hr. rewrite /atan2 H -expr2 sqrtr_sqr gtr0_norm //. by rewrite gt_eqF.
Qed.

(* Euler angles *)
Lemma roe_back (A : nat -> nat -> T) (eps : T) :
  0 <= eps -> is_rotation (mx 3 3 A) ->
  (near_zero eps (A 2%N 2%N - 1) -> A 2%N 2%N = 1) ->
  (near_zero eps (A 2%N 2%N + 1) -> A 2%N 2%N = -1) ->
  let '(psi, theta, phi) := extract_roe eps A in
  mx 3 3 (rot_roe psi theta phi) = mx 3 3 A.
Proof.
  move=> He /rot_entries [O [O' K]] H1 H2. rewrite /extract_roe.
  move: O O' K H1 H2 (erefl (mx 3 3 A)).
  set a := A 0%N 0%N. set b := A 0%N 1%N. set c := A 0%N 2%N.
  set d := A 1%N 0%N. set e := A 1%N 1%N. set f := A 1%N 2%N.
  set g := A 2%N 0%N. set h := A 2%N 1%N. set i := A 2%N 2%N.
  move=> O O' K H1 H2 _.
  have fin : forall M : nat -> nat -> T,
     M 0%N 0%N = a -> M 0%N 1%N = b -> M 0%N 2%N = c -> M 1%N 0%N = d -> M 1%N 1%N = e -> M 1%N 2%N = f ->
     M 2%N 0%N = g -> M 2%N 1%N = h -> M 2%N 2%N = i -> mx 3 3 M = mx 3 3 A.
    by move=> M *; apply: mx_ext => -[|[|[|?]]] [|[|[|?]]].
  case: ifP => N1.
  - have Hi := H1 N1.
    have [Hg Hh] : g = 0 /\ h = 0.
      apply: sum2_0. have := r22 O; rewrite Hi mulr1 => E. by apply: (addIr 1); rewrite E add0r.
    have [Hc Hf] : c = 0 /\ f = 0.
      apply: sum2_0. have := r22 O'; rewrite Hi mulr1 => E. by apply: (addIr 1); rewrite E add0r.
    have E : a * a + d * d = 1 * 1 by rewrite mulr1 -(r00 O') Hg mulr0 addr0.
    rewrite (atan2E E) ?ltr01 // !divr1 /ang0.
    have Hb : b = - d by rewrite -(k01 K) Hi Hf; fld.
    have He' : e = a by rewrite -(k00 K) Hi Hf; fld.
    apply: fin; rewrite /rot_roe /mat3 /mset /= ?Hb ?He' ?Hc ?Hf ?Hg ?Hh ?Hi; by fld.
  case: ifP => N2.
  - have Hi := H2 N2.
    have [Hg Hh] : g = 0 /\ h = 0.
      apply: sum2_0. have := r22 O; rewrite Hi mulrNN mulr1 => E. by apply: (addIr 1); rewrite E add0r.
    have [Hc Hf] : c = 0 /\ f = 0.
      apply: sum2_0. have := r22 O'; rewrite Hi mulrNN mulr1 => E. by apply: (addIr 1); rewrite E add0r.
    have E : - a * - a + - d * - d = 1 * 1 by rewrite !mulrNN mulr1 -(r00 O') Hg mulr0 addr0.
    rewrite (atan2E E) ?ltr01 // !divr1 /ang0 /g_pi.
    have Hb : b = d by rewrite -(k01 K) Hi Hf; fld.
    have He' : e = - a by rewrite -(k00 K) Hi Hf; fld.
    apply: fin; rewrite /rot_roe /mat3 /mset /= ?Hb ?He' ?Hc ?Hf ?Hg ?Hh ?Hi; by fld.
  - have Hcf : c * c + f * f = 1 - i * i by rewrite -(r22 O'); fld.
    have Hgh : - g * - g + h * h = 1 - i * i by rewrite -(r22 O); fld.
    set s := Num.sqrt (1 - i * i).
    have Hp : 0 < 1 - i * i.
      rewrite lt_def -{2}Hcf addr_ge0 ?sq_ge0 // andbT. apply/negP => /eqP E.
      have : (i - 1) * (i + 1) = 0 by rewrite -[RHS]oppr0 -E; fld.
      move/eqP; rewrite mulf_eq0 => /orP [] /eqP E'.
      + by move: N1; rewrite E' near_zero0.
      + by move: N2; rewrite E' near_zero0.
    have Hs : s * s = 1 - i * i by rewrite -expr2 sqr_sqrtr // ltW.
    have Hs0 : 0 < s by rewrite sqrtr_gt0.
    have Hsn : s <> 0 by apply/eqP; rewrite gt_eqF.
    have Hss : s * s <> 0 by rewrite Hs; apply/eqP; rewrite gt_eqF.
    rewrite -Hs in Hcf Hgh.
    rewrite (atan2E Hcf) // (atan2E Hgh) // /acos -/s.
    have gen (u v : T) : u = v * (1 - i * i) -> u / (s * s) = v.
      move=> ->. by rewrite -Hs mulfK //; apply/eqP.
    apply: fin; rewrite /rot_roe /mat3 /mset /=.
    + transitivity ((- c * g * i - f * h) / (s * s)); first by fld.
      apply: gen.
      have E1 : c * g = a * i - e by rewrite -(k11 K); fld.
      have E2 : f * h = e * i - a by rewrite -(k00 K); fld.
      move: E1 E2; ring2.
    + transitivity ((- c * h * i + f * g) / (s * s)); first by fld.
      apply: gen.
      have E1 : c * h = d + b * i by rewrite -(k10 K); fld.
      have E2 : f * g = b + d * i by rewrite -(k01 K); fld.
      move: E1 E2; ring2.
    + by fld.
    + transitivity ((- f * g * i + c * h) / (s * s)); first by fld.
      apply: gen.
      have E1 : c * h = d + b * i by rewrite -(k10 K); fld.
      have E2 : f * g = b + d * i by rewrite -(k01 K); fld.
      move: E1 E2; ring2.
    + transitivity ((- f * h * i - c * g) / (s * s)); first by fld.
      apply: gen.
      have E1 : c * g = a * i - e by rewrite -(k11 K); fld.
      have E2 : f * h = e * i - a by rewrite -(k00 K); fld.
      move: E1 E2; ring2.
    + by fld.
    + by fld.
    + by fld.
    + by [].
Qed.
End R.
