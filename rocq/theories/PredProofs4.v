(** The stages of orient2d that return an estimate. *)
From Coq Require Import Reals Lra Lia.
From Flocq Require Import Core Pff2Flocq Relative.
From Verif Require Import Prelude PredModel PredSpec PredProofs PredProofs2 PredProofs3.
Open Scope R_scope.

(** ** the constants *)
Lemma rnd_id_mul k n x : (-1074 <= k)%Z -> (Z.abs n <= 2 ^ 53)%Z -> x = IZR n * bp k -> rnd x = x.
Proof.
  intros Hk Hn ->. apply rnd_id, fmt_of_mul with (1 := Hk); [exists n; reflexivity|].
  rewrite Rabs_mult, (Rabs_pos_eq (bp k)) by (left; apply bp_pos). rewrite Z.add_comm, bpow_plus.
  apply Rmult_le_compat_r; [left; apply bp_pos|]. rewrite <- abs_IZR.
  apply IZR_le in Hn. eapply Rle_trans; [exact Hn|]. right. reflexivity.
Qed.
Ltac num := unfold u; cbn; lra.
Lemma lit16 : rnd (16 * u) = 16 * u. Proof. apply (rnd_id_mul (-49) 1); [lia|lia|num]. Qed.
Lemma ccwA_val : ccwerrboundA dbl u = 3 * u + 16 * u * u.
Proof.
  unfold ccwerrboundA. cbn [dbl fadd fmul lit]. rewrite lit16.
  rewrite (rnd_id_mul (-49) (3 * 2 ^ 49 + 1) (3 + 16 * u)); [|lia|lia|num].
  rewrite (rnd_id_mul (-102) (3 * 2 ^ 49 + 1) ((3 + 16 * u) * u)); [lra|lia|lia|num].
Qed.
Lemma ccwB_val : ccwerrboundB dbl u = 2 * u + 12 * u * u.
Proof.
  unfold ccwerrboundB. cbn [dbl fadd fmul lit].
  rewrite (rnd_id_mul (-51) 3 (12 * u)); [|lia|lia|num].
  rewrite (rnd_id_mul (-51) (2 * 2 ^ 51 + 3) (2 + 12 * u)); [|lia|lia|num].
  rewrite (rnd_id_mul (-104) (2 * 2 ^ 51 + 3) ((2 + 12 * u) * u)); [lra|lia|lia|num].
Qed.
Lemma ccwC_val : ccwerrboundC dbl u = 9 * u * u + 64 * u * u * u.
Proof.
  unfold ccwerrboundC. cbn [dbl fadd fmul lit].
  rewrite (rnd_id_mul (-47) 1 (64 * u)); [|lia|lia|num].
  rewrite (rnd_id_mul (-47) (9 * 2 ^ 47 + 1) (9 + 64 * u)); [|lia|lia|num].
  rewrite (rnd_id_mul (-100) (9 * 2 ^ 47 + 1) ((9 + 64 * u) * u)); [|lia|lia|num].
  rewrite (rnd_id_mul (-153) (9 * 2 ^ 47 + 1) ((9 + 64 * u) * u * u)); [lra|lia|lia|num].
Qed.
Lemma result_val : resulterrbound dbl u = 3 * u + 8 * u * u.
Proof.
  unfold resulterrbound. cbn [dbl fadd fmul lit].
  rewrite (rnd_id_mul (-50) 1 (8 * u)); [|lia|lia|num].
  rewrite (rnd_id_mul (-50) (3 * 2 ^ 50 + 1) (3 + 8 * u)); [|lia|lia|num].
  rewrite (rnd_id_mul (-103) (3 * 2 ^ 50 + 1) ((3 + 8 * u) * u)); [lra|lia|lia|num].
Qed.
Lemma o3dA_val : o3derrboundA dbl u = 7 * u + 56 * u * u.
Proof.
  unfold o3derrboundA. cbn [dbl fadd fmul lit].
  rewrite (rnd_id_mul (-50) 7 (56 * u)); [|lia|lia|num].
  rewrite (rnd_id_mul (-50) (7 * 2 ^ 50 + 7) (7 + 56 * u)); [|lia|lia|num].
  rewrite (rnd_id_mul (-103) (7 * 2 ^ 50 + 7) ((7 + 56 * u) * u)); [lra|lia|lia|num].
Qed.
Lemma u_mul : multiple (-53) u. Proof. apply mul_bp. Qed.
Lemma ccwA_mul : multiple (-106) (3 * u + 16 * u * u).
Proof. exists (3 * 2 ^ 53 + 16)%Z. num. Qed.
Lemma ccwB_mul : multiple (-106) (2 * u + 12 * u * u).
Proof. exists (2 * 2 ^ 53 + 12)%Z. num. Qed.
Lemma ccwC_mul : multiple (-159) (9 * u * u + 64 * u * u * u).
Proof. exists (9 * 2 ^ 53 + 64)%Z. num. Qed.
Lemma result_mul : multiple (-106) (3 * u + 8 * u * u).
Proof. exists (3 * 2 ^ 53 + 8)%Z. num. Qed.
Lemma o3dA_mul : multiple (-106) (7 * u + 56 * u * u).
Proof. exists (7 * 2 ^ 53 + 56)%Z. num. Qed.

(** ** comparisons *)
Lemma fge_true a b : fge dbl a b = true <-> b <= a.
Proof. cbn. destruct (Rle_bool_spec b a); split; try easy; lra. Qed.
Lemma fgt_true a b : fgt dbl a b = true <-> b < a.
Proof. cbn. destruct (Rlt_bool_spec b a); split; try easy; lra. Qed.
Lemma fgt_false a b : fgt dbl a b = false <-> a <= b.
Proof. cbn. destruct (Rlt_bool_spec b a); split; try easy; lra. Qed.
Lemma fge_false a b : fge dbl a b = false <-> a < b.
Proof. cbn. destruct (Rle_bool_spec b a); split; try easy; lra. Qed.
Lemma feq_true a b : feq dbl a b = true <-> a = b.
Proof. cbn. destruct (Req_bool_spec a b); split; easy. Qed.
Lemma feq_false a b : feq dbl a b = false <-> a <> b.
Proof. cbn. destruct (Req_bool_spec a b); split; easy. Qed.
Lemma absolute_abs a : absolute dbl a = Rabs a.
Proof.
  unfold absolute. destruct (fge dbl a (lit dbl 0)) eqn:E.
  - apply fge_true in E. cbn in E. symmetry. apply Rabs_pos_eq, E.
  - apply fge_false in E. cbn in E |- *. symmetry. apply Rabs_left, E.
Qed.

(** ** rounding errors as real inequalities *)
Lemma prod_err x y X Y : Rabs (X - x) <= u * Rabs x -> Rabs (Y - y) <= u * Rabs y ->
  Rabs (X * Y - x * y) <= (2 * u + u * u) * Rabs (x * y).
Proof.
  intros Hx Hy. replace (X * Y - x * y) with ((X - x) * y + (x * (Y - y) + (X - x) * (Y - y))) by ring.
  pose proof (Rabs_triang ((X - x) * y) (x * (Y - y) + (X - x) * (Y - y))) as T1.
  pose proof (Rabs_triang (x * (Y - y)) ((X - x) * (Y - y))) as T2. rewrite !Rabs_mult in *.
  pose proof (Rabs_pos x). pose proof (Rabs_pos y). pose proof (Rabs_pos (X - x)). pose proof (Rabs_pos (Y - y)). pose proof u_pos.
  assert (Rabs (X - x) * Rabs y <= u * Rabs x * Rabs y) by (apply Rmult_le_compat_r; assumption).
  assert (Rabs x * Rabs (Y - y) <= Rabs x * (u * Rabs y)) by (apply Rmult_le_compat_l; assumption).
  assert (Rabs (X - x) * Rabs (Y - y) <= (u * Rabs x) * (u * Rabs y)) by (apply Rmult_le_compat; assumption).
  nra.
Qed.
Lemma rnd_err' x : multiple (-1074) x -> Rabs (x - rnd x) <= u * Rabs (rnd x).
Proof. intros H. rewrite Rabs_minus_sym. apply (rnd_err x H). Qed.
Lemma rnd_pos x : multiple (-1074) x -> 0 < x -> 0 < rnd x.
Proof.
  intros H Hx. destruct (rnd_err x H) as [A _]. rewrite (Rabs_pos_eq x) in A by lra. pose proof u_pos.
  assert (u < 1) by (rewrite u_val; lra). unfold Rabs in A. destruct (Rcase_abs (rnd x - x)); nra.
Qed.

Lemma filter_sign l r L R S det E :
  Rabs (L - l) <= (3 * u + 4 * u * u) * Rabs l -> Rabs (R - r) <= (3 * u + 4 * u * u) * Rabs r ->
  Rabs ((l - r) - det) <= u * Rabs det -> Rabs l + Rabs r <= (1 + u) * S -> 0 < S ->
  (3 * u + 16 * u * u) * S <= (1 + u) * E -> E <= det \/ E <= - det -> same_sign det (L - R).
Proof.
  intros HL HR Hd HS S0 HE C. rewrite u_val in *.
  assert (E0 : 0 < E) by lra.
  pose proof (Rle_abs (L - l)). pose proof (Rle_abs (- (L - l))). pose proof (Rle_abs (R - r)). pose proof (Rle_abs (- (R - r))).
  rewrite Rabs_Ropp in *.
  pose proof (Rle_abs ((l - r) - det)). pose proof (Rle_abs (- ((l - r) - det))). rewrite Rabs_Ropp in *.
  unfold same_sign. destruct C as [C|C]; [rewrite (Rabs_pos_eq det) in * by lra|rewrite (Rabs_left1 det) in * by lra]; lra.
Qed.
Lemma estimateB_sign l r p q L R S det E :
  Rabs (L - p) <= (2 * u + u * u) * Rabs p -> Rabs (R - q) <= (2 * u + u * u) * Rabs q ->
  Rabs (p - l) <= u * Rabs l -> Rabs (q - r) <= u * Rabs r ->
  Rabs (det - (p - q)) <= 201 / 100 * u * Rabs det -> Rabs l + Rabs r <= (1 + u) * S -> 0 < S ->
  (2 * u + 12 * u * u) * S <= (1 + u) * E -> E <= det \/ E <= - det -> same_sign det (L - R).
Proof.
  intros HL HR Hp Hq Hd HS S0 HE C. rewrite u_val in *.
  assert (E0 : 0 < E) by lra.
  assert (Ap : Rabs p <= Rabs l + Rabs (p - l)).
  { pose proof (Rabs_triang l (p - l)) as Z. replace (l + (p - l)) with p in Z by lra. exact Z. }
  assert (Aq : Rabs q <= Rabs r + Rabs (q - r)).
  { pose proof (Rabs_triang r (q - r)) as Z. replace (r + (q - r)) with q in Z by lra. exact Z. }
  pose proof (Rle_abs (L - p)). pose proof (Rle_abs (- (L - p))). pose proof (Rle_abs (R - q)). pose proof (Rle_abs (- (R - q))).
  rewrite !Rabs_Ropp in *.
  pose proof (Rle_abs (det - (p - q))). pose proof (Rle_abs (- (det - (p - q)))). rewrite Rabs_Ropp in *.
  unfold same_sign. destruct C as [C|C]; [rewrite (Rabs_pos_eq det) in * by lra|rewrite (Rabs_left1 det) in * by lra]; lra.
Qed.
Lemma close_sign det D c : 0 <= c < 1 -> Rabs (det - D) <= c * Rabs det -> same_sign det D.
Proof.
  intros Hc H. pose proof (Rle_abs (det - D)). pose proof (Rle_abs (- (det - D))). rewrite Rabs_Ropp in *.
  destruct (Rtotal_order det 0) as [Z|[Z|Z]].
  - rewrite (Rabs_left det) in H by lra. split; split; intros; nra.
  - subst det. rewrite Rabs_R0 in H. split; split; intros; nra.
  - rewrite (Rabs_pos_eq det) in H by lra. split; split; intros; nra.
Qed.
Lemma tri a b : Rabs a <= Rabs b + Rabs (a - b).
Proof. pose proof (Rabs_triang b (a - b)) as Z. replace (b + (a - b)) with a in Z by lra. exact Z. Qed.
Lemma tri10 a1 a2 a3 a4 a5 a6 a7 a8 a9 a10 a11 :
  Rabs (a1 + (a2 + (a3 + (a4 + (a5 + (a6 + (a7 + (a8 + (a9 + (a10 + a11)))))))))) <=
  Rabs a1 + (Rabs a2 + (Rabs a3 + (Rabs a4 + (Rabs a5 + (Rabs a6 + (Rabs a7 + (Rabs a8 + (Rabs a9 + (Rabs a10 + Rabs a11))))))))).
Proof. do 10 (eapply Rle_trans; [apply Rabs_triang|]; apply Rplus_le_compat_l). apply Rle_refl. Qed.
Lemma estimateC_sign l r p q k1 k2 k3 k4 m1 m2 r1 r2 r3 r4 s1 s2 t S det det' e1 e2 E :
  Rabs (p - l) <= u * Rabs l -> Rabs (q - r) <= u * Rabs r ->
  Rabs k1 <= u * Rabs p -> Rabs k2 <= u * Rabs p -> Rabs k3 <= u * Rabs q -> Rabs k4 <= u * Rabs q ->
  Rabs m1 <= u * u * Rabs p -> Rabs m2 <= u * u * Rabs q ->
  Rabs (r1 - k1) <= u * Rabs k1 -> Rabs (r2 - k2) <= u * Rabs k2 -> Rabs (r3 - k3) <= u * Rabs k3 -> Rabs (r4 - k4) <= u * Rabs k4 ->
  Rabs (s1 - (r1 + r2)) <= u * Rabs (r1 + r2) -> Rabs (s2 - (r3 + r4)) <= u * Rabs (r3 + r4) ->
  Rabs (t - (s1 - s2)) <= u * Rabs (s1 - s2) -> Rabs ((det + t) - det') <= u * Rabs det' ->
  Rabs (det - (p - q)) <= 201 / 100 * u * Rabs det -> Rabs l + Rabs r <= (1 + u) * S -> 0 < S ->
  (9 * u * u + 64 * u * u * u) * S <= (1 + u) * e1 -> (3 * u + 8 * u * u) * Rabs det <= (1 + u) * e2 -> e1 + e2 <= (1 + u) * E ->
  E <= det' \/ E <= - det' ->
  same_sign det' ((p - q) + (k1 + k2) - (k3 + k4) + (m1 - m2)).
Proof.
  intros Hp Hq K1 K2 K3 K4 M1 M2 R1 R2 R3 R4 S1 S2 T Hd' Hd HS S0 H1 H2 HE C.
  pose proof (tri p l) as Ap. pose proof (tri q r) as Aq.
  pose proof (tri r1 k1) as A1. pose proof (tri r2 k2) as A2. pose proof (tri r3 k3) as A3. pose proof (tri r4 k4) as A4.
  pose proof (Rabs_triang r1 r2) as B1. pose proof (Rabs_triang r3 r4) as B2.
  pose proof (tri s1 (r1 + r2)) as B3. pose proof (tri s2 (r3 + r4)) as B4.
  pose proof (Rabs_triang s1 (- s2)) as B5. rewrite Rabs_Ropp in B5. change (s1 + - s2) with (s1 - s2) in B5.
  pose proof (Rabs_pos det) as P0. pose proof (Rabs_pos l) as P1. pose proof (Rabs_pos r) as P2. pose proof (Rabs_pos p) as P3. pose proof (Rabs_pos q) as P4.
  rewrite u_val in *.
  set (al := Rabs l) in *. set (ar := Rabs r) in *. set (ap := Rabs p) in *. set (aq := Rabs q) in *. set (ad := Rabs det) in *.
  assert (W1 : ap <= (1 + / 9007199254740992) * al) by lra. assert (W2 : aq <= (1 + / 9007199254740992) * ar) by lra.
  set (v := / 9007199254740992) in *.
  assert (V : v = / 9007199254740992) by reflexivity. clearbody v.
  assert (X1 : Rabs (r1 + r2) <= 2001 / 1000 * v * ap) by (subst v; lra).
  assert (X2 : Rabs (r3 + r4) <= 2001 / 1000 * v * aq) by (subst v; lra).
  assert (X3 : Rabs (s1 - s2) <= 2002 / 1000 * v * (ap + aq)) by (subst v; lra).
  assert (Y : Rabs (det' - ((p - q) + (k1 + k2) - (k3 + k4) + (m1 - m2))) <= v * Rabs det' + 201 / 100 * v * ad + 701 / 100 * v * v * (ap + aq)).
  { replace (det' - ((p - q) + (k1 + k2) - (k3 + k4) + (m1 - m2)))
      with (- ((det + t) - det') + ((det - (p - q)) + ((t - (s1 - s2)) + ((s1 - (r1 + r2)) + (- (s2 - (r3 + r4)) + ((r1 - k1) + ((r2 - k2) + (- (r3 - k3) + (- (r4 - k4) + (- m1 + m2)))))))))) by lra.
    eapply Rle_trans; [apply tri10|]. rewrite !Rabs_Ropp.
    subst v; lra. }
  assert (E0 : 0 < E) by (subst v; lra).
  set (D := (p - q) + (k1 + k2) - (k3 + k4) + (m1 - m2)) in *. clearbody D.
  pose proof (Rle_abs (det' - D)). pose proof (Rle_abs (- (det' - D))). rewrite Rabs_Ropp in *.
  unfold same_sign. destruct C as [C|C]; [rewrite (Rabs_pos_eq det') in * by lra|rewrite (Rabs_left1 det') in * by lra]; subst v; lra.
Qed.
