(* Extracted angles are angles; angles inside the tolerance are lost. *)
From mathcomp Require Import all_ssreflect all_algebra.
From Coq Require Import Field.
From Verif Require Import FieldTac MatModel MatSpec MatProofs MatProofs2 RotModel RotSpec RotProofs RotProofs2 RotProofs3 RotProofs4.
Set Implicit Arguments.
Unset Strict Implicit.
Unset Printing Implicit Defensive.
Import GRing.Theory Num.Theory Order.Theory.
Local Open Scope ring_scope.

Section R.
Variable T : rcfType.
Let F : fieldType := [fieldType of T].
Add Field ff : (cfield F).
Ltac side := match goal with |- _ /\ _ => split; side | _ =>
  first [assumption | exact (@two_neq0 T) | exact (@two2_neq0 T)] end.
Ltac fld := to_fld F; field; try side.

Definition angle_ok (a : angle T) : Prop := is_angle (cosA a) (sinA a).

Lemma ang0_ok : angle_ok (ang0 T). Proof. by rewrite /angle_ok /is_angle /= expr1n expr0n addr0. Qed.
Lemma pi_ok : angle_ok (g_pi T). Proof. by rewrite /angle_ok /is_angle /= sqrrN expr1n expr0n addr0. Qed.
Lemma half_pi_ok : angle_ok (g_half_pi T). Proof. by rewrite /angle_ok /is_angle /= expr1n expr0n add0r. Qed.
Lemma opp_ok a : angle_ok a -> angle_ok (ang_opp a). Proof. by rewrite /angle_ok /is_angle /= sqrrN. Qed.
Lemma acos_ok (c : T) : 0 <= 1 - c * c -> angle_ok (acos c).
Proof. move=> H. by rewrite /angle_ok /is_angle /= sqr_sqrtr // expr2 addrC subrK. Qed.
Lemma asin_ok (c : T) : 0 <= 1 - c * c -> angle_ok (asin c).
Proof. move=> H. by rewrite /angle_ok /is_angle /= sqr_sqrtr // expr2 subrK. Qed.
Lemma atan2_ok (x y : T) : angle_ok (atan2 y x).
Proof.
  rewrite /atan2. case: eqP => H; first exact: ang0_ok.
  have N : Num.sqrt (x * x + y * y) * Num.sqrt (x * x + y * y) = x * x + y * y.
    by rewrite -expr2 sqr_sqrtr // addr_ge0 ?sq_ge0.
  move: (Num.sqrt (x * x + y * y)) H N => r H N.
  rewrite /angle_ok /is_angle /= !expr2.
  transitivity ((x * x + y * y) / (r * r)); first by fld.
  by rewrite -N divff // mulf_neq0 //; apply/eqP.
Qed.

Lemma roe_angles (A : nat -> nat -> T) (eps : T) : is_rotation (mx 3 3 A) ->
  let '(psi, theta, phi) := extract_roe eps A in angle_ok psi /\ angle_ok theta /\ angle_ok phi.
Proof.
  move=> /rot_entries [O [O' K]]. rewrite /extract_roe.
  have H : 0 <= 1 - A 2%N 2%N * A 2%N 2%N.
    have -> : 1 - A 2%N 2%N * A 2%N 2%N = A 2%N 0%N * A 2%N 0%N + A 2%N 1%N * A 2%N 1%N by rewrite -(r22 O); fld.
    by rewrite addr_ge0 ?sq_ge0.
  case: ifP => _; [|case: ifP => _]; split; try exact: atan2_ok; split;
    try exact: atan2_ok; try exact: ang0_ok; try exact: pi_ok; exact: acos_ok.
Qed.

Lemma ypr_angles (A : nat -> nat -> T) (eps : T) : is_rotation (mx 3 3 A) ->
  let '(psi, theta, phi) := extract_ypr eps A in angle_ok psi /\ angle_ok theta /\ angle_ok phi.
Proof.
  move=> /rot_entries [O [O' K]]. rewrite /extract_ypr.
  have H : 0 <= 1 - - A 0%N 2%N * - A 0%N 2%N.
    have -> : 1 - - A 0%N 2%N * - A 0%N 2%N = A 0%N 0%N * A 0%N 0%N + A 0%N 1%N * A 0%N 1%N by rewrite -(r00 O); fld.
    by rewrite addr_ge0 ?sq_ge0.
  case: ifP => _; [|case: ifP => _]; split; try exact: atan2_ok; split;
    try exact: atan2_ok; try exact: ang0_ok; try exact: half_pi_ok; try exact: (opp_ok half_pi_ok); exact: asin_ok.
Qed.

Lemma axis_angle_ok (A : nat -> nat -> T) (eps : T) : is_rotation (mx 3 3 A) ->
  angle_ok (extract_axis eps A).2.
Proof.
  move=> /rot_entries [O [O' K]]. rewrite /extract_axis.
  case: ifP => _; first exact: ang0_ok. apply: acos_ok.
  have := axial_norm O O' K. rewrite trace_3. set t := _ + A 2%N 2%N => N.
  have -> : 1 - 1 / 2%:R * (t - 1) * (1 / 2%:R * (t - 1)) = (1 + t) * (3%:R - t) / (2%:R * 2%:R) by fld.
  by rewrite -N divr_ge0 ?addr_ge0 ?sq_ge0 ?mulr_ge0 ?ler0n.
Qed.

(* the turn about the z axis by the angle with tangent u of its half *)
Definition ct (u : T) := (1 - u * u) / (1 + u * u).
Definition st (u : T) := 2%:R * u / (1 + u * u).
Lemma den_gt0 (u : T) : 0 < 1 + u * u.
Proof. by rewrite ltr_paddr ?sq_ge0 ?ltr01. Qed.
Lemma den_n0 (u : T) : 1 + u * u <> 0. Proof. by apply/eqP; rewrite gt_eqF ?den_gt0. Qed.
Lemma ct_angle (u : T) : is_angle (ct u) (st u).
Proof. have H := @den_n0 u. rewrite /is_angle /ct /st !expr2. by fld. Qed.
Lemma ct_near (u eps : T) : 0 < u -> u <= 1 -> u + u <= eps -> near_zero eps (ct u - 1).
Proof.
  move=> H0 H1 H2.
  have E : ct u - 1 = - ((u * u + u * u) / (1 + u * u)) by have H := @den_n0 u; rewrite /ct; fld.
  have P : 0 <= (u * u + u * u) / (1 + u * u) by rewrite divr_ge0 ?addr_ge0 ?sq_ge0 ?ler01.
  have Le : (u * u + u * u) / (1 + u * u) <= eps.
    apply: (le_trans _ H2). rewrite ler_pdivr_mulr ?den_gt0 //.
    have L1 : u * u + u * u <= u + u by apply: ler_add; rewrite ler_pimulr // ltW.
    apply: (le_trans L1). rewrite ler_pmulr; first by rewrite ler_addl sq_ge0.
    by rewrite addr_gt0.
  have e0 : 0 <= eps by apply: le_trans H2; rewrite addr_ge0 // ltW.
  rewrite E /near_zero ler_opp2 Le /=. by rewrite (le_trans _ e0) // oppr_le0.
Qed.

Lemma st_neq0 (u : T) : 0 < u -> st u <> 0.
Proof.
  move=> H. apply/eqP. by rewrite /st !mulf_neq0 ?invr_eq0 ?pnatr_eq0 ?gt_eqF ?den_gt0.
Qed.

Definition turn_y (c s : T) := mat3 c 0 s 0 1 0 (- s) 0 c.
Lemma turn_y_rot (c s : T) : is_angle c s -> is_rotation (mx 3 3 (turn_y c s)).
Proof.
  move=> H. have <- : Ry c s = mx 3 3 (turn_y c s).
    by apply/matrixP; case=> [[|[|[|i]]] Hi] //; case=> [[|[|[|j]]] Hj] //; rewrite !mxE.
  exact: rot_Ry.
Qed.

Lemma lost (eps : T) : 0 < eps ->
  exists A B : nat -> nat -> T, is_rotation (mx 3 3 A) /\ is_rotation (mx 3 3 B) /\
    (let '(p, alpha) := extract_axis eps A in mx 3 3 (rot_axis p alpha) <> mx 3 3 A) /\
    (let '(psi, theta, phi) := extract_roe eps A in mx 3 3 (rot_roe psi theta phi) <> mx 3 3 A) /\
    (let '(psi, theta, phi) := extract_ypr eps B in mx 3 3 (rot_ypr psi theta phi) <> mx 3 3 B).
Proof.
  move=> He.
  have [u [U0 [U1 U2]]] : exists u : T, 0 < u /\ u <= 1 /\ u + u <= eps.
    case: (leP (1 + 1) eps) => H.
    - exists 1. by rewrite ltr01 lexx.
    - exists (eps / 2%:R).
      have E : eps / 2%:R + eps / 2%:R = eps by fld.
      have P : 0 < eps / 2%:R by rewrite divr_gt0 ?ltr0n.
      split=> //; split; last by rewrite E.
      rewrite ler_pdivr_mulr ?ltr0n // mul1r ltW //.
  have N := ct_near U0 U1 U2. have S0 := st_neq0 U0. have C := ct_angle u.
  exists (turn_y (ct u) (st u)), (turn_y (st u) (- ct u)).
  split; first exact: turn_y_rot.
  split. { apply: turn_y_rot. move: C. by rewrite /is_angle sqrrN addrC. }
  split; [|split].
  - rewrite /extract_axis trace_3.
    have -> : turn_y (ct u) (st u) 0%N 0%N + turn_y (ct u) (st u) 1%N 1%N + turn_y (ct u) (st u) 2%N 2%N
       = 2%:R * ct u + 1 by rewrite /turn_y /mat3 /mset /=; fld.
    have -> : 1 / 2%:R * (2%:R * ct u + 1 - 1) = ct u by fld.
    rewrite N => E. have := mx_inj (i := 0%N) (j := 2%N) E isT isT.
    rewrite axis_entries // /turn_y /mat3 /mset /=.
    rewrite subrr mul0r mulr0 mul0r subr0 addr0 => H. exact: S0.
  - rewrite /extract_roe.
    have -> : turn_y (ct u) (st u) 2%N 2%N = ct u by [].
    rewrite N => E. have := mx_inj (i := 0%N) (j := 2%N) E isT isT.
    rewrite /rot_roe /turn_y /mat3 /mset /= mulr0 => H. exact: S0.
  - rewrite /extract_ypr.
    have -> : - turn_y (st u) (- ct u) 0%N 2%N = ct u by rewrite /turn_y /mat3 /mset /= opprK.
    rewrite N => E. have := mx_inj (i := 0%N) (j := 0%N) E isT isT.
    rewrite /rot_ypr /turn_y /mat3 /mset /= mul0r => H. exact: S0.
Qed.
End R.
