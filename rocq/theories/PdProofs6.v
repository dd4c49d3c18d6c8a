(* Runs that end with two samples, used as witnesses. *)
From Coq Require Import Reals Lra Psatz.
From Verif Require Import Prelude PdModel PdSpec PdProofs PdProofs2 PdProofs3 PdProofs5.
Local Open Scope R_scope.

Definition two_draws (v0 v1 : pt) (n : nat) : nat * (nat -> pt) :=
  (0%nat, fun _ => match n with O => v0 | S _ => v1 end).
Lemma two_point_run r lo hi per feasible alloc draws v0 v1 p0 p1 g0 g1 c :
  get (make_grid alloc (cell_numbers r lo hi) (-1)) [2; 3]%Z = Some c ->
  first_point lo hi feasible draws = Some p0 ->
  set (make_grid alloc (cell_numbers r lo hi) (-1)) [fst (cell r lo p0); snd (cell r lo p0)] 0 = Some g0 ->
  candidate r lo hi per p0 v0 = p1 -> feasible p1 = true ->
  check_distance r lo hi per p1 g0 [p0] = Some true ->
  set g0 [fst (cell r lo p1); snd (cell r lo p1)] 1 = Some g1 ->
  feasible (candidate r lo hi per p0 v1) = false -> feasible (candidate r lo hi per p1 v1) = false ->
  sample2 r lo hi 1 per feasible alloc draws (two_draws v0 v1) 3 = Finished [p0; p1].
Proof.
  intros G F S0 C1 F1 K S1 N0 N1. unfold sample2. rewrite G, F, S0.
  assert (R1 : round r lo hi per feasible 0 [v0] (State [p0] [0%nat] g0) = Some (State [p0; p1] [0%nat; 1%nat] g1)).
  { assert (A : attempts r lo hi per feasible p0 [v0] (State [p0] [0%nat] g0) false = Some (State [p0; p1] [0%nat; 1%nat] g1, true)).
    { unfold attempts, attempt. rewrite C1, F1. cbn [negb grid samples]. rewrite K. cbn [length]. change (Z.of_nat 1) with 1%Z. rewrite S1. reflexivity. }
    unfold round. cbn [active samples grid length]. change (0 mod 1)%nat with 0%nat. cbn [nth_error].
    change (swap_last 0 [0%nat]) with (Some [0%nat]). cbv iota. rewrite A. reflexivity. }
  assert (Q : forall c act, feasible (candidate r lo hi per c v1) = false ->
    attempts r lo hi per feasible c [v1] (State [p0; p1] act g1) false = Some (State [p0; p1] act g1, false)).
  { intros d act N. unfold attempts, attempt. rewrite N. reflexivity. }
  assert (R2 : round r lo hi per feasible 0 [v1] (State [p0; p1] [0%nat; 1%nat] g1) = Some (State [p0; p1] [1%nat] g1)).
  { unfold round. cbn [active samples grid length]. change (0 mod 2)%nat with 0%nat. cbn [nth_error].
    change (swap_last 0 [0%nat; 1%nat]) with (Some [1%nat; 0%nat]). cbv iota. rewrite (Q p0 _ N0). reflexivity. }
  assert (R3 : round r lo hi per feasible 0 [v1] (State [p0; p1] [1%nat] g1) = Some (State [p0; p1] [] g1)).
  { unfold round. cbn [active samples grid length]. change (0 mod 1)%nat with 0%nat. cbn [nth_error].
    change (swap_last 0 [1%nat]) with (Some [1%nat]). cbv iota. rewrite (Q p1 _ N1). reflexivity. }
  cbn [rounds active two_draws fst snd seq map]. rewrite R1. cbn [active]. rewrite R2. cbn [active]. rewrite R3. reflexivity.
Qed.
Lemma scan_accept r lo hi per g l p cells :
  (forall i j, In (i, j) cells -> let '(i', j', s) := look lo hi per g i j in
     exists k, get g [i'; j'] = Some k /\ (k = (-1)%Z \/ k <> (-1)%Z /\ exists q, nth_error l (Z.to_nat k) = Some q /\ ~ close r p (shift q s))) ->
  scan r lo hi per g l p cells = Some true.
Proof.
  induction cells as [|[a b] rest IH]; intros H; [reflexivity|]. cbn [scan].
  pose proof (H a b (or_introl eq_refl)) as Hab. unfold look in Hab.
  destruct (if per then wrap (domain g 0) (fst lo) (fst hi) a else (a, 0)) as [i1 sx].
  destruct (if per then wrap (domain g 1) (snd lo) (snd hi) b else (b, 0)) as [j1 sy].
  destruct Hab as (k & -> & Hk). destruct (Z.eqb_spec k (-1)).
  - apply IH. intros i j I. apply H. now right.
  - destruct Hk as [|(_ & q & -> & N)]; [contradiction|]. destruct (Rlt_dec _ _) as [C|_]; [exfalso; exact (N C)|].
    apply IH. intros i j I. apply H. now right.
Qed.
Lemma div_mul a b : b <> 0 -> a / b * b = a.
Proof. intros. now field. Qed.
Lemma h_sqrt2 : h (sqrt 2) = 1.
Proof. unfold h. field. pose proof (sqrt_lt_R0 2). lra. Qed.
Lemma sqrt2_bounds : 1.414 < sqrt 2 < 1.4143.
Proof.
  split.
  - rewrite <- (sqrt_square 1.414) by lra. apply sqrt_lt_1_alt. lra.
  - rewrite <- (sqrt_square 1.4143) by lra. apply sqrt_lt_1_alt. lra.
Qed.
Lemma sqrt2_sqr : sqrt 2 * sqrt 2 = 2.
Proof. apply sqrt_sqrt. lra. Qed.
Lemma cell_is x y i j : IZR i <= x < IZR i + 1 -> IZR j <= y < IZR j + 1 -> cell (sqrt 2) (0, 0) (x, y) = (i, j).
Proof.
  intros Hi Hj. unfold cell. rewrite h_sqrt2. cbn [fst snd]. f_equal; apply floor_unique; lra.
Qed.
Lemma ceil_is x k : IZR k - 1 < x <= IZR k -> ceil x = k.
Proof. intros H. unfold ceil. rewrite (floor_unique (- x) (- k)); [lia|]. rewrite opp_IZR. lra. Qed.

(* a sample beyond the corner *)
Definition far_hi : pt := (1.5, 1.5).
Definition far_ok (p : pt) : bool := if Req_EM_T (fst p) 0.75 then true else if Req_EM_T (fst p) 1.9 then true else false.
Definition far_v : pt := (1.15 / (sqrt 2 * 2), 1.15 / (sqrt 2 * 2)).
Definition away_v : pt := (1/2, 0).
Definition twenty (_ : list Z) : Z := 20.
Lemma far_run : sample2 (sqrt 2) (0, 0) far_hi 1 false far_ok twenty [] (two_draws far_v away_v) 3 = Finished [(0.75, 0.75); (1.9, 1.9)].
Proof.
  pose proof sqrt2_bounds as B.
  assert (CN : cell_numbers (sqrt 2) (0, 0) far_hi = [2; 2]%Z).
  { unfold cell_numbers. rewrite h_sqrt2. cbn. rewrite (ceil_is _ 2) by (cbn; lra). reflexivity. }
  assert (C0 : cell (sqrt 2) (0, 0) (0.75, 0.75) = (0, 0)%Z) by (apply cell_is; lra).
  assert (C1 : cell (sqrt 2) (0, 0) (1.9, 1.9) = (1, 1)%Z) by (apply cell_is; lra).
  eapply two_point_run; rewrite ?CN, ?C0, ?C1.
  - vm_compute. reflexivity.
  - unfold first_point. cbn [find map]. unfold far_ok, far_hi. cbn [fst snd].
    replace (1 / 2 * (1.5 + 0)) with 0.75 by lra. destruct (Req_EM_T 0.75 0.75) as [_|N]; [reflexivity|exfalso; apply N; reflexivity].
  - vm_compute. reflexivity.
  - unfold candidate, far_v. cbn [fst snd]. rewrite div_mul by lra. f_equal; lra.
  - unfold far_ok. cbn [fst]. destruct (Req_EM_T 1.9 0.75); [reflexivity|]. destruct (Req_EM_T 1.9 1.9) as [_|N]; [reflexivity|exfalso; apply N; reflexivity].
  - unfold check_distance. rewrite C1. apply scan_accept. cbn. intros i j I.
    repeat destruct I as [I|I]; try contradiction; injection I as <- <-; cbn.
    + exists 0%Z. split; [reflexivity|]. right. split; [lia|]. exists (0.75, 0.75). split; [reflexivity|].
      unfold close, norm_sqr, shift. cbn. rewrite sqrt2_sqr. lra.
    + exists (-1)%Z. split; [reflexivity|]. now left.
    + exists (-1)%Z. split; [reflexivity|]. now left.
    + exists (-1)%Z. split; [reflexivity|]. now left.
  - vm_compute. reflexivity.
  - unfold far_ok, candidate, away_v. cbn [fst]. destruct (Req_EM_T _ 0.75); [lra|]. destruct (Req_EM_T _ 1.9); [lra|reflexivity].
  - unfold far_ok, candidate, away_v. cbn [fst]. destruct (Req_EM_T _ 0.75); [lra|]. destruct (Req_EM_T _ 1.9); [lra|reflexivity].
Qed.

(* two samples too close to each other across the seam *)
Definition seam_hi : pt := (3.1, 3.1).
Definition seam_ok (p : pt) : bool := if Req_EM_T (fst p) 1 then true else if Req_EM_T (fst p) 2.95 then true else false.
Definition seam_v : pt := (1.95 / (sqrt 2 * 2), 0).
Definition seam_draws : list pt := [(10/31, 10/31)].
Lemma seam_run : sample2 (sqrt 2) (0, 0) seam_hi 1 true seam_ok twenty seam_draws (two_draws seam_v away_v) 3 = Finished [(1, 1); (2.95, 1)].
Proof.
  pose proof sqrt2_bounds as B.
  assert (CN : cell_numbers (sqrt 2) (0, 0) seam_hi = [4; 4]%Z).
  { unfold cell_numbers. rewrite h_sqrt2. cbn. rewrite (ceil_is _ 4) by (cbn; lra). reflexivity. }
  assert (C0 : cell (sqrt 2) (0, 0) (1, 1) = (1, 1)%Z) by (apply cell_is; lra).
  assert (C1 : cell (sqrt 2) (0, 0) (2.95, 1) = (2, 1)%Z) by (apply cell_is; lra).
  eapply two_point_run; rewrite ?CN, ?C0, ?C1.
  - vm_compute. reflexivity.
  - unfold first_point, seam_draws. cbn [find map]. unfold seam_ok, seam_hi. cbn [fst snd].
    destruct (Req_EM_T (1 / 2 * (3.1 + 0)) 1); [lra|]. destruct (Req_EM_T (1 / 2 * (3.1 + 0)) 2.95); [lra|].
    replace (0 + (3.1 - 0) * (10 / 31)) with 1 by lra. destruct (Req_EM_T 1 1) as [_|N]; [reflexivity|exfalso; apply N; reflexivity].
  - vm_compute. reflexivity.
  - unfold candidate, seam_v, pull. cbn [fst snd].
    rewrite div_mul by lra. replace (1.95 + 1) with 2.95 by lra. replace (0 * (sqrt 2 * 2) + 1) with 1 by lra.
    destruct (Rlt_dec 2.95 0); [lra|]. destruct (Rlt_dec 1 0); [lra|]. cbn. destruct (Rlt_dec 3.1 2.95); [lra|]. destruct (Rlt_dec 3.1 1); [lra|]. reflexivity.
  - unfold seam_ok. cbn [fst]. destruct (Req_EM_T 2.95 1); [reflexivity|]. destruct (Req_EM_T 2.95 2.95) as [_|N]; [reflexivity|exfalso; apply N; reflexivity].
  - unfold check_distance. rewrite C1. apply scan_accept. intros i j I. unfold look. cbn in I |- *.
    repeat destruct I as [I|I]; try contradiction; injection I as <- <-; cbn;
      first [exists (-1)%Z; split; [reflexivity|now left] | idtac].
    exists 0%Z. split; [reflexivity|]. right. split; [lia|]. exists (1, 1). split; [reflexivity|].
    unfold close, norm_sqr, shift. cbn. rewrite sqrt2_sqr. lra.
  - vm_compute. reflexivity.
  - unfold seam_ok, candidate, away_v, pull. cbn [fst snd].
    replace (1 / 2 * (sqrt 2 * 2) + 1) with (sqrt 2 + 1) by lra.
    destruct (Rlt_dec _ _); [lra|]. cbn. destruct (Rlt_dec 3.1 _); [lra|]. destruct (Req_EM_T _ 1); [lra|]. destruct (Req_EM_T _ 2.95); [lra|reflexivity].
  - unfold seam_ok, candidate, away_v, pull. cbn [fst snd].
    replace (1 / 2 * (sqrt 2 * 2) + 2.95) with (sqrt 2 + 2.95) by lra.
    destruct (Rlt_dec _ _); [lra|]. cbn. destruct (Rlt_dec 3.1 _); [|lra]. destruct (Req_EM_T _ 1); [lra|]. destruct (Req_EM_T _ 2.95); [lra|reflexivity].
Qed.
