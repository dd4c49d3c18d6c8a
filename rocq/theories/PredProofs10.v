(** The first stage of orient3d; what init_exact computes; elements read beyond
    the end of an expansion. *)
From Coq Require Import Reals Lra Lia.
From Flocq Require Import Core Pff2Flocq Relative.
From Verif Require Import Prelude PredModel PredSpec PredProofs PredProofs2 PredProofs3 PredProofs4 PredProofs5.
Open Scope R_scope.

(** ** orient3d *)
Lemma term_err Z z P Q p q m s t a :
  Rabs (Z - z) <= u * Rabs z -> Rabs (P - p) <= (3 * u + 4 * u * u) * Rabs p -> Rabs (Q - q) <= (3 * u + 4 * u * u) * Rabs q ->
  Rabs p + Rabs q <= (1 + u) * s -> Rabs m <= s -> Rabs (p - q - m) <= u * Rabs m ->
  Rabs (z * m - t) <= u * Rabs t -> Rabs t <= a -> Rabs z * s <= (1 + u) * a ->
  Rabs (Z * (P - Q) - t) <= (6 * u + 19 * u * u) * a.
Proof.
  intros HZ HP HQ Hs Hm Em Et Ta Ha.
  assert (E1 : Rabs (P - Q - m) <= (4 * u + 8 * u * u) * s).
  { replace (P - Q - m) with ((P - p) + (- (Q - q) + (p - q - m))) by ring.
    pose proof (Rabs_triang (P - p) (- (Q - q) + (p - q - m))). pose proof (Rabs_triang (- (Q - q)) (p - q - m)). rewrite Rabs_Ropp in *.
    pose proof (Rabs_pos m). rewrite u_val in *. lra. }
  assert (S0 : 0 <= s) by (pose proof (Rabs_pos m); lra).
  assert (E2 : Rabs (Z * (P - Q) - z * m) <= (5 * u + 13 * u * u) * (Rabs z * s)).
  { replace (Z * (P - Q) - z * m) with ((Z - z) * (P - Q - m) + ((Z - z) * m + z * (P - Q - m))) by ring.
    pose proof (Rabs_triang ((Z - z) * (P - Q - m)) ((Z - z) * m + z * (P - Q - m))) as T1.
    pose proof (Rabs_triang ((Z - z) * m) (z * (P - Q - m))) as T2. rewrite !Rabs_mult in *.
    pose proof (Rabs_pos z) as Z0.
    assert (A1 : Rabs (Z - z) * Rabs (P - Q - m) <= (u * Rabs z) * ((4 * u + 8 * u * u) * s)) by (apply Rmult_le_compat; try apply Rabs_pos; assumption).
    assert (A2 : Rabs (Z - z) * Rabs m <= (u * Rabs z) * s) by (apply Rmult_le_compat; try apply Rabs_pos; assumption).
    assert (A3 : Rabs z * Rabs (P - Q - m) <= Rabs z * ((4 * u + 8 * u * u) * s)) by (apply Rmult_le_compat_l; assumption).
    assert (W : 0 <= Rabs z * s) by (apply Rmult_le_pos; assumption). set (w := Rabs z * s) in *.
    replace ((u * Rabs z) * ((4 * u + 8 * u * u) * s)) with ((4 * u * u + 8 * u * u * u) * w) in A1 by (unfold w; ring).
    replace ((u * Rabs z) * s) with (u * w) in A2 by (unfold w; ring).
    replace (Rabs z * ((4 * u + 8 * u * u) * s)) with ((4 * u + 8 * u * u) * w) in A3 by (unfold w; ring).
    rewrite u_val in *. lra. }
  assert (W : 0 <= Rabs z * s) by (apply Rmult_le_pos; [apply Rabs_pos|assumption]).
  pose proof (Rabs_triang (Z * (P - Q) - z * m) (z * m - t)) as T. replace (Z * (P - Q) - z * m + (z * m - t)) with (Z * (P - Q) - t) in T by ring.
  set (w := Rabs z * s) in *. clearbody w. pose proof (Rabs_pos t). rewrite u_val in *. lra.
Qed.
Lemma filter3_sign T1 T2 T3 t1 t2 t3 a1 a2 a3 t12 s12 det perm E :
  Rabs (T1 - t1) <= (6 * u + 19 * u * u) * a1 -> Rabs (T2 - t2) <= (6 * u + 19 * u * u) * a2 -> Rabs (T3 - t3) <= (6 * u + 19 * u * u) * a3 ->
  0 <= a3 -> Rabs t12 <= s12 -> Rabs (t1 + t2 - t12) <= u * Rabs t12 -> a1 + a2 <= (1 + u) * s12 -> s12 + a3 <= (1 + u) * perm ->
  Rabs (t12 + t3 - det) <= u * Rabs det -> (7 * u + 56 * u * u) * perm <= (1 + u) * E -> E < det \/ E < - det ->
  same_sign det (T1 + T2 + T3).
Proof.
  intros H1 H2 H3 A3 B1 B2 B3 B4 C1 C2 D.
  assert (K : Rabs (T1 + T2 + T3 - det) < Rabs det).
  { replace (T1 + T2 + T3 - det) with ((T1 - t1) + ((T2 - t2) + ((T3 - t3) + ((t1 + t2 - t12) + (t12 + t3 - det))))) by ring.
    pose proof (Rabs_triang (T1 - t1) ((T2 - t2) + ((T3 - t3) + ((t1 + t2 - t12) + (t12 + t3 - det))))).
    pose proof (Rabs_triang (T2 - t2) ((T3 - t3) + ((t1 + t2 - t12) + (t12 + t3 - det)))).
    pose proof (Rabs_triang (T3 - t3) ((t1 + t2 - t12) + (t12 + t3 - det))).
    pose proof (Rabs_triang (t1 + t2 - t12) (t12 + t3 - det)).
    assert (ED : E < Rabs det) by (destruct D; [pose proof (Rle_abs det)|pose proof (Rle_abs (- det)); rewrite Rabs_Ropp in *]; lra).
    pose proof (Rabs_pos t12). pose proof (Rabs_pos det). rewrite u_val in *. lra. }
  clear - K. unfold same_sign, Rabs in *. destruct (Rcase_abs (T1 + T2 + T3 - det)), (Rcase_abs det); lra.
Qed.

Definition coords3 (k : Z) (p : @pt3 R) : Prop := coord k (q0 p) /\ coord k (q1 p) /\ coord k (q2 p).
Definition gvol (pa pb pc pd : @pt3 R) : R :=
  volume6 (q0 pa) (q1 pa) (q2 pa) (q0 pb) (q1 pb) (q2 pb) (q0 pc) (q1 pc) (q2 pc) (q0 pd) (q1 pd) (q2 pd).

Lemma m_up k x : (-450 <= k)%Z -> coord k x -> coord (-450) x.
Proof. intros H [A B]. split; [exact A|]. apply mul_weaken with (2 := B). exact H. Qed.
Record dif3 (X x : R) : Prop := { d3 : dif X x; d3_mul : multiple (-320) x }.
Lemma dif3_ok a c : coord (-320) a -> coord (-320) c -> dif3 (a - c) (rnd (a - c)).
Proof.
  intros A C. constructor; [apply dif_ok; apply m_up with (-320)%Z; try assumption; lia|]. apply rnd_mul, mul_sub; [apply A|apply C].
Qed.
Lemma mul_abs k x : multiple k x -> multiple k (Rabs x).
Proof. intros H. unfold Rabs. destruct (Rcase_abs x); [apply mul_opp|]; exact H. Qed.
Lemma rnd_abs_le x y : Rabs x <= y -> Rabs (rnd x) <= rnd y.
Proof.
  intros H. apply Rabs_le. pose proof (Rle_abs x). pose proof (Rle_abs (- x)). rewrite Rabs_Ropp in *. split; [|apply rnd_le; lra].
  rewrite <- rnd_opp. apply rnd_le. lra.
Qed.
Lemma rnd_upper x : multiple (-1074) x -> 0 <= x -> x <= (1 + u) * rnd x.
Proof.
  intros H X. pose proof (rnd_err' x H) as E. assert (0 <= rnd x) by (rewrite <- rnd_0; apply rnd_le, X).
  rewrite (Rabs_pos_eq (rnd x)) in E by assumption. pose proof (Rle_abs (x - rnd x)). lra.
Qed.
(** one of the three terms *)
Section Term.
Variables (Z z X1 x1 Y1 y1 X2 x2 Y2 y2 : R).
Hypothesis DZ : dif3 Z z. Hypothesis D1 : dif3 X1 x1. Hypothesis D2 : dif3 Y1 y1. Hypothesis D3 : dif3 X2 x2. Hypothesis D4 : dif3 Y2 y2.
Let p := rnd (x1 * y1). Let q := rnd (x2 * y2).
Definition trm : R := rnd (z * rnd (p - q)).
Definition trma : R := rnd (rnd (Rabs p + Rabs q) * Rabs z).
Let mp : multiple (-640) p. Proof. apply rnd_mul. exact (mul_mul (-320) (-320) _ _ (d3_mul _ _ D1) (d3_mul _ _ D2)). Qed.
Let mq : multiple (-640) q. Proof. apply rnd_mul. exact (mul_mul (-320) (-320) _ _ (d3_mul _ _ D3) (d3_mul _ _ D4)). Qed.
Lemma trm_mul : multiple (-960) trm.
Proof. apply rnd_mul. refine (mul_mul (-320) (-640) _ _ (d3_mul _ _ DZ) _). apply rnd_mul, mul_sub; assumption. Qed.
Lemma trma_mul : multiple (-960) trma.
Proof. apply rnd_mul. refine (mul_mul (-640) (-320) _ _ _ (mul_abs _ _ (d3_mul _ _ DZ))). apply rnd_mul, mul_add; apply mul_abs; assumption. Qed.
Let s := rnd (Rabs p + Rabs q).
Let s0 : 0 <= s.
Proof. unfold s. rewrite <- rnd_0. apply rnd_le. pose proof (Rabs_pos p). pose proof (Rabs_pos q). lra. Qed.
Lemma trma_pos : 0 <= trma.
Proof. unfold trma. rewrite <- rnd_0. apply rnd_le. apply Rmult_le_pos; [exact s0|apply Rabs_pos]. Qed.
Let dle : Rabs (p - q) <= Rabs p + Rabs q.
Proof. pose proof (Rabs_triang p (- q)) as T. rewrite Rabs_Ropp in T. exact T. Qed.
Lemma trm_le : Rabs trm <= trma.
Proof.
  unfold trm, trma. apply rnd_abs_le. rewrite Rabs_mult, Rmult_comm. apply Rmult_le_compat_r; [apply Rabs_pos|]. apply rnd_abs_le, dle.
Qed.
Lemma trm_err : Rabs (Z * (X1 * Y1 - X2 * Y2) - trm) <= (6 * u + 19 * u * u) * trma.
Proof.
  apply term_err with (z := z) (p := p) (q := q) (m := rnd (p - q)) (s := s).
  - apply (d3 _ _ DZ).
  - apply (prd_ok _ _ _ _ (d3 _ _ D1) (d3 _ _ D2)).
  - apply (prd_ok _ _ _ _ (d3 _ _ D3) (d3 _ _ D4)).
  - apply rnd_upper.
    + apply mul_weaken with (-640)%Z; [lia|]. apply mul_add; apply mul_abs; assumption.
    + pose proof (Rabs_pos p). pose proof (Rabs_pos q). lra.
  - apply rnd_abs_le, dle.
  - apply rnd_err'. apply mul_weaken with (-640)%Z; [lia|]. apply mul_sub; assumption.
  - apply rnd_err'. apply mul_weaken with (-960)%Z; [lia|]. refine (mul_mul (-320) (-640) _ _ (d3_mul _ _ DZ) _). apply rnd_mul, mul_sub; assumption.
  - exact trm_le.
  - rewrite Rmult_comm. unfold trma. apply rnd_upper; [|apply Rmult_le_pos; [exact s0|apply Rabs_pos]].
    apply mul_weaken with (-960)%Z; [lia|]. refine (mul_mul (-640) (-320) _ _ _ (mul_abs _ _ (d3_mul _ _ DZ))). apply rnd_mul, mul_add; apply mul_abs; assumption.
Qed.
End Term.

Lemma orient3d_filter_sign pa pb pc pd d : coords3 (-320) pa -> coords3 (-320) pb -> coords3 (-320) pc -> coords3 (-320) pd ->
  orient3d_filter dbl u pa pb pc pd = Some d -> same_sign d (gvol pa pb pc pd).
Proof.
  intros (A0 & A1 & A2) (B0 & B1 & B2) (C0 & C1 & C2) (D0 & D1 & D2). unfold orient3d_filter. rewrite !absolute_abs, o3dA_val.
  cbn [fsub fadd fmul fopp dbl lit].
  pose proof (dif3_ok _ _ A0 D0) as ax. pose proof (dif3_ok _ _ B0 D0) as bx. pose proof (dif3_ok _ _ C0 D0) as cx.
  pose proof (dif3_ok _ _ A1 D1) as ay. pose proof (dif3_ok _ _ B1 D1) as by_. pose proof (dif3_ok _ _ C1 D1) as cy.
  pose proof (dif3_ok _ _ A2 D2) as az. pose proof (dif3_ok _ _ B2 D2) as bz. pose proof (dif3_ok _ _ C2 D2) as cz.
  change (fun a b => rnd (a - b)) with (fsub dbl).
  set (adx := rnd (q0 pa - q0 pd)) in *. set (bdx := rnd (q0 pb - q0 pd)) in *. set (cdx := rnd (q0 pc - q0 pd)) in *.
  set (ady := rnd (q1 pa - q1 pd)) in *. set (bdy := rnd (q1 pb - q1 pd)) in *. set (cdy := rnd (q1 pc - q1 pd)) in *.
  set (adz := rnd (q2 pa - q2 pd)) in *. set (bdz := rnd (q2 pb - q2 pd)) in *. set (cdz := rnd (q2 pc - q2 pd)) in *.
  pose proof (trm_err _ _ _ _ _ _ _ _ _ _ az bx cy cx by_) as E1. pose proof (trm_err _ _ _ _ _ _ _ _ _ _ bz cx ay ax cy) as E2.
  pose proof (trm_err _ _ _ _ _ _ _ _ _ _ cz ax by_ bx ay) as E3.
  pose proof (trma_mul _ _ _ _ _ _ _ _ _ _ az bx cy cx by_) as N1. pose proof (trma_mul _ _ _ _ _ _ _ _ _ _ bz cx ay ax cy) as N2.
  pose proof (trma_mul _ _ _ _ _ _ _ _ _ _ cz ax by_ bx ay) as N3.
  pose proof (trm_mul _ _ _ _ _ _ _ _ _ _ az bx cy cx by_) as M1. pose proof (trm_mul _ _ _ _ _ _ _ _ _ _ bz cx ay ax cy) as M2.
  pose proof (trm_mul _ _ _ _ _ _ _ _ _ _ cz ax by_ bx ay) as M3.
  pose proof (trm_le adz bdx cdy cdx bdy) as L1. pose proof (trm_le bdz cdx ady adx cdy) as L2.
  pose proof (trma_pos adz bdx cdy cdx bdy) as P1. pose proof (trma_pos bdz cdx ady adx cdy) as P2. pose proof (trma_pos cdz adx bdy bdx ady) as P3.
  fold (trma adz bdx cdy cdx bdy) (trma bdz cdx ady adx cdy) (trma cdz adx bdy bdx ady).
  fold (trm adz bdx cdy cdx bdy) (trm bdz cdx ady adx cdy) (trm cdz adx bdy bdx ady).
  set (t1 := trm adz bdx cdy cdx bdy) in *. set (t2 := trm bdz cdx ady adx cdy) in *. set (t3 := trm cdz adx bdy bdx ady) in *.
  set (a1 := trma adz bdx cdy cdx bdy) in *. set (a2 := trma bdz cdx ady adx cdy) in *. set (a3 := trma cdz adx bdy bdx ady) in *.
  clearbody t1 t2 t3 a1 a2 a3.
  match goal with |- context [if ?c then _ else _] => destruct c eqn:CF end; [|discriminate].
  intros E; injection E as <-. apply Bool.orb_true_iff in CF. rewrite !fgt_true in CF.
  assert (W : forall x, multiple (-960) x -> multiple (-1074) x) by (intros x; apply mul_weaken; lia).
  assert (M12 : multiple (-960) (t1 + t2)) by (apply mul_add; assumption). assert (N12 : multiple (-960) (a1 + a2)) by (apply mul_add; assumption).
  assert (Q0 : 0 <= rnd (a1 + a2)) by (rewrite <- rnd_0; apply rnd_le; lra).
  assert (Q1 : 0 <= rnd (rnd (a1 + a2) + a3)) by (rewrite <- rnd_0; apply rnd_le; lra).
  unfold gvol, volume6.
  apply filter3_sign with (t1 := t1) (t2 := t2) (t3 := t3) (a1 := a1) (a2 := a2) (a3 := a3) (t12 := rnd (t1 + t2)) (s12 := rnd (a1 + a2))
    (perm := rnd (rnd (a1 + a2) + a3)) (E := rnd ((7 * u + 56 * u * u) * rnd (rnd (a1 + a2) + a3))); try assumption.
  - apply rnd_abs_le. pose proof (Rabs_triang t1 t2). lra.
  - apply rnd_err', W, M12.
  - apply rnd_upper; [apply W, N12|lra].
  - apply rnd_upper; [|lra]. apply W, mul_add; [apply rnd_mul, N12|exact N3].
  - apply rnd_err', W, mul_add; [apply rnd_mul, M12|exact M3].
  - apply rnd_upper; [|apply Rmult_le_pos; [rewrite u_val; lra|exact Q1]].
    apply mul_weaken with (2 := mul_mul _ _ _ _ o3dA_mul (rnd_mul _ _ (mul_add _ _ _ (rnd_mul _ _ N12) N3))). lia.
Qed.

(** ** init_exact *)
