(* Properties of the conjugate residual solver. *)
From Coq Require Import Field.
From mathcomp Require Import all_ssreflect all_algebra.
From Verif Require Import CgModel CgSpec CgProofs CgProofs2 CrProofs FieldTac.
Import GRing.Theory Num.Theory Order.Theory.
Set Implicit Arguments.
Unset Strict Implicit.
Unset Printing Implicit Defensive.
Local Open Scope ring_scope.

Section Props.
Variable T : rcfType.
Variable n : nat.
Variable S : system T n.
Notation A := (multiply S).
Notation P := (project S).
Notation M := (precondition S).
Implicit Types (x b : 'cV[T]_n).

Section Spd.
Hypothesis spd : spd_system A P M.
Variables (maxIters : nat) (tol : T).

Lemma cr_run x b x' it tol' :
  cr_solve S maxIters tol x b = (x', it, tol') ->
  [/\ (it <= maxIters)%N, x' = tx S x b it,
      (forall k, (k < it)%N -> tz S x b k != 0) /\ (forall k, (k < it)%N -> td S x b k != 0),
      tol' = Num.min (tol * dot b b) tol &
      (it < maxIters)%N -> let e := ct S x b it in
        dot (krr e) (krr e) <= tol' \/ tz S x b it = 0 \/ td S x b it = 0].
Proof.
rewrite /cr_solve.
set t := (if _ then _ else _).
have et : t = Num.min (tol * dot b b) tol.
  by rewrite /t dotProductE minElt.
have [k kl [-> h1 h2] [<- <- <-]] := cr_loopE S maxIters 0 t (cr_init S x b).
rewrite add0n; split=> //.
by split=> j /h1 [].
Qed.

(* The tolerance kept for the next call is the one tested: the smaller of the
   old one and its multiple by the squared size of b. *)
Theorem C65_tolerance x b x' it tol' :
  cr_solve S maxIters tol x b = (x', it, tol') -> tol' = Num.min (tol * dot b b) tol.
Proof. by case/cr_run. Qed.

(* If the solver stops before the limit, the free residual of the returned
   vector meets the tolerance. *)
Theorem C65_residual x b x' it tol' :
  0 <= tol ->
  cr_solve S maxIters tol x b = (x', it, tol') ->
  (it <= maxIters)%N /\
  ((it < maxIters)%N -> dot (residual A P b x') (residual A P b x') <= tol').
Proof.
move=> tol0 /cr_run [h1 -> [hz hd] et h2]; split=> // /h2 /=.
have tol'0 : 0 <= tol' by rewrite et le_minr tol0 mulr_ge0 ?dot_ge0.
case=> [h|h].
  apply: le_trans h; rewrite -(residual_r spd hz (leqnn it)).
  by apply: proj_le; case: spd.
have z0 : tz S x b it = 0 by case: h => // h; apply: (cr_d spd hz hd).
by rewrite (cr_zero spd hz z0) dot0l.
Qed.

(* With room for as many iterations as there are free dofs it always does. *)
Theorem C65_converges x b x' it tol' :
  0 <= tol -> (\rank P <= maxIters)%N ->
  cr_solve S maxIters tol x b = (x', it, tol') ->
  (it <= \rank P)%N /\ dot (residual A P b x') (residual A P b x') <= tol'.
Proof.
move=> tol0 hm e; have [_ h2] := C65_residual tol0 e.
have [h1 ex [hz hd] et _] := cr_run e.
have tol'0 : 0 <= tol' by rewrite et le_minr tol0 mulr_ge0 ?dot_ge0.
have hr : (it <= \rank P)%N by apply: (cr_rank spd hz hd (leqnSn it) hz).
split=> //; case: (ltnP it maxIters) => [/h2 //|hle].
have eit : it = \rank P by apply/eqP; rewrite eqn_leq hr /= (leq_trans hm hle).
have zit : tz S x b it = 0.
  apply/eqP; apply/negPn/negP => nz.
  have : (it.+1 <= \rank P)%N.
    apply: (cr_rank spd hz hd (leqnn it.+1)) => k.
    rewrite (ltnS k it) (leq_eqVlt k it) => /orP[/eqP -> //|]; exact: hz.
  by rewrite -eit ltnn.
by rewrite ex (cr_zero spd hz zit) dot0l.
Qed.

(* With tolerance 0 the system of the free dofs is solved. *)
Theorem C65_exact x b x' it tol' :
  tol = 0 -> (\rank P <= maxIters)%N ->
  cr_solve S maxIters tol x b = (x', it, tol') -> P *m (A *m x') = P *m b.
Proof.
move=> t0 hm e.
have tol0 : 0 <= tol by rewrite t0.
have [_ h] := C65_converges tol0 hm e.
have et : tol' = 0 by rewrite (C65_tolerance e) t0 mul0r minxx.
have r0 : residual A P b x' = 0.
  by apply: dot_eq0; apply/eqP; rewrite eq_le dot_ge0 andbT -et.
by move: r0; rewrite /residual mulmxBr => /eqP; rewrite subr_eq0 => /eqP.
Qed.

(* Fixed dofs are left as they were. *)
Theorem C65_fixed_dofs x b x' it tol' :
  cr_solve S maxIters tol x b = (x', it, tol') -> free P (x' - x).
Proof.
move=> /cr_run [h1 -> [hz hd] et h2].
rewrite tx_sum; have : forall m, (m <= it)%N ->
    free P (\sum_(j < m) (tz S x b j / td S x b j) *: tp S x b j).
  elim=> [|m IH] mK; first by rewrite big_ord0 /free mulmx0.
  rewrite big_ord_recr /= /free mulmxDr IH; last exact: ltnW.
  by rewrite -scalemxAr (free_tp spd hz (ltnW mK)).
by apply.
Qed.

(* Whenever it stops, the returned vector is in the search space of that many
   iterations and no vector of that space has a smaller residual, measured with
   the preconditioner. *)
Theorem C65_optimal x b x' it tol' :
  cr_solve S maxIters tol x b = (x', it, tol') ->
  let size y := dot (residual A P b y) (M *m residual A P b y) in
  krylov A P M b x it (x' - x) /\
  (forall v, krylov A P M b x it v -> size x' <= size (x + v)).
Proof.
move=> /cr_run [h1 -> [hz hd] et h2] /=.
have kin := cr_in spd hz.
split=> // v kv.
have -> : x + v = tx S x b it + (v - (tx S x b it - x)).
  by rewrite opprB [RHS]addrCA (addrC (tx S x b it)) subrK addrC.
apply: (cr_min spd hz hd).
rewrite -scaleN1r; apply: span_D; first exact: (cr_krylov spd hz hd kv).
by apply: span_Z; exact: (cr_krylov spd hz hd kin).
Qed.
End Spd.
End Props.

Print Assumptions C65_tolerance.
Print Assumptions C65_residual.
Print Assumptions C65_converges.
Print Assumptions C65_exact.
Print Assumptions C65_fixed_dofs.
Print Assumptions C65_optimal.

Section Refuted.
Variable T : rcfType.

(* Solving one system changes the result of the next: after b = 0 the tolerance
   is 0 for ever. *)
Theorem C65_independent_refuted :
  exists (S : system T 1) (x b1 b2 : 'cV[T]_1) (tol : T) (maxIters : nat),
    [/\ spd_system (multiply S) (project S) (precondition S), 0 < tol &
      let '(_, _, tol') := cr_solve S maxIters tol x b1 in
      cr_solve S maxIters tol x b2 = (0, 0%N, tol) /\
      (exists y, cr_solve S maxIters tol' x b2 = (y, 1%N, 0))].
Proof.
have one : positive_on 1%:M (1%:M : 'M[T]_1).
  move=> v _ nz; rewrite mul1mx lt_def dot_ge0 andbT; apply/eqP => e; apply: nz; exact: dot_eq0.
exists (System 1%:M 1%:M 1%:M), 0, 0, (const_mx 1), 1, 1%N; split.
- by rewrite /=; split; rewrite /symmetric ?trmx1 //; split; rewrite /symmetric ?trmx1 ?mul1mx.
- exact: ltr01.
rewrite /cr_solve /= !dotProductE dot0l mulr0 ltr01 mul0r ltxx mul1r.
have b2 : dot (const_mx 1 : 'cV[T]_1) (const_mx 1) = 1 by rewrite /dot big_ord1 !mxE mulr1.
have i0 : minus (const_mx 1) (1%:M *m 0) = (const_mx 1 : 'cV[T]_1) by rewrite minusE mulmx0 subr0.
have rf : (0 < 0 :> T) = false by exact: ltxx.
rewrite b2 ltxx /= i0 !mul1mx b2 lexx; split=> //.
rewrite cr_stepE /s_rAr /s_d /s_Ap /= i0 !mul1mx b2 eqxx /= ?mul1mx ?b2 ler10.
rewrite oner_eq0 /=; eexists; reflexivity.
Qed.

End Refuted.
Print Assumptions C65_independent_refuted.

(* three dofs, the last one fixed but coupled to the first *)
Section Coupled.
Variable T : rcfType.
Let F : fieldType := [fieldType of T].
Add Field ff : (cfield F).
Ltac fld := to_fld F; field.
Definition v3 (a b c : T) : 'cV[T]_3 := \col_i nth 0 [:: a; b; c] i.
Definition A3 : 'M[T]_3 :=
  \matrix_(i, j) nth 0 (nth [::] [:: [:: 1; 0; 1]; [:: 0; 2%:R; 0]; [:: 1; 0; 2%:R]] i) j.
Definition P3 : 'M[T]_3 :=
  \matrix_(i, j) nth 0 (nth [::] [:: [:: 1; 0; 0]; [:: 0; 1; 0]; [:: 0; 0; 0]] i) j.
Definition S3 : system T 3 := System A3 P3 P3.

Lemma eq3 (u v : 'cV[T]_3) : u ord0 0 = v ord0 0 -> u (lift ord0 ord0) 0 = v (lift ord0 ord0) 0 ->
  u (lift ord0 (lift ord0 ord0)) 0 = v (lift ord0 (lift ord0 ord0)) 0 -> u = v.
Proof.
move=> h0 h1 h2; apply/colP => i; case: i => [[|[|[|//]]] hi].
- by rewrite (_ : Ordinal hi = ord0) //; exact: val_inj.
- by rewrite (_ : Ordinal hi = lift ord0 ord0) //; exact: val_inj.
- by rewrite (_ : Ordinal hi = lift ord0 (lift ord0 ord0)) //; exact: val_inj.
Qed.
Lemma dot3 a b c a' b' c' : dot (v3 a b c) (v3 a' b' c') = a * a' + b * b' + c * c'.
Proof. by rewrite /dot !big_ord_recl big_ord0 !mxE /= addr0 addrA. Qed.
Lemma A3E a b c : A3 *m v3 a b c = v3 (a + c) (2%:R * b) (a + 2%:R * c).
Proof. by apply: eq3; rewrite !mxE !big_ord_recl big_ord0 !mxE /=; fld. Qed.
Lemma P3E a b c : P3 *m v3 a b c = v3 a b 0.
Proof. by apply: eq3; rewrite !mxE !big_ord_recl big_ord0 !mxE /=; fld. Qed.
Lemma v3D a b c a' b' c' : v3 a b c + v3 a' b' c' = v3 (a + a') (b + b') (c + c').
Proof. by apply/eq3; rewrite !mxE. Qed.
Lemma v3Z k a b c : k *: v3 a b c = v3 (k * a) (k * b) (k * c).
Proof. by apply/eq3; rewrite !mxE. Qed.
Lemma v3_split (v : 'cV[T]_3) : v = v3 (v ord0 0) (v (lift ord0 ord0) 0) (v (lift ord0 (lift ord0 ord0)) 0).
Proof. by apply/eq3; rewrite !mxE. Qed.
Lemma v3N a b c : - v3 a b c = v3 (- a) (- b) (- c).
Proof. by apply/eq3; rewrite !mxE. Qed.

Lemma spd3 : spd_system A3 P3 P3.
Proof.
have sq (a : T) : 0 <= a * a by rewrite -expr2 sqr_ge0.
have pos (a b : T) : v3 a b 0 <> 0 -> 0 < a * a + b * b.
  move=> nz; rewrite lt_def addr_ge0 ?sq // andbT paddr_eq0 ?sq // -!expr2 !sqrf_eq0.
  apply/negP => /andP[/eqP a0 /eqP b0]; apply: nz; rewrite a0 b0.
  by apply/eq3; rewrite !mxE.
have sym (B : 'M[T]_3) : (forall i j : 'I_3, B i j = B j i) -> B^T = B.
  by move=> h; apply/matrixP => i j; rewrite mxE.
have PP : P3 *m P3 = P3.
  apply/matrixP => i j; rewrite !mxE !big_ord_recl big_ord0 !mxE /=.
  by case: i => [[|[|[|//]]] hi]; case: j => [[|[|[|//]]] hj] /=; rewrite ?(mulr0, mul0r, mulr1, addr0, add0r).
have sP : symmetric P3.
  by apply: sym => i j; rewrite !mxE; case: i => [[|[|[|//]]] hi]; case: j => [[|[|[|//]]] hj].
split=> //.
- by apply: sym => i j; rewrite !mxE; case: i => [[|[|[|//]]] hi]; case: j => [[|[|[|//]]] hj].
- move=> v; rewrite (v3_split v) /free P3E => <- /pos h.
  rewrite A3E dot3 mul0r addr0 addr0; apply: lt_le_trans h _.
  by rewrite ler_add2l mulrCA mulr_natl mulr2n ler_addl sq.
- split=> // v; rewrite (v3_split v) /free P3E => <- /pos h.
  by rewrite dot3 mul0r addr0.
Qed.

Lemma five0 : (5%:R : T) <> 0. Proof. by apply/eqP; rewrite pnatr_eq0. Qed.
Lemma five0' : (1 + (1 + 1) * (1 + 1) : T) <> 0.
Proof. have -> : 1 + (1 + 1) * (1 + 1) = 5%:R :> T by rewrite (natrD _ 1 4) (natrM _ 2 2). exact: five0. Qed.

(* The tested residual keeps the reactions of the fixed dofs (the first product
   with the matrix is not projected), so the solver goes on after the residual of
   the free dofs meets the tolerance: it needs a second iteration here, although
   one is enough. *)
Theorem C65_stops_when_met_refuted :
  exists (S : system T 3) (x b : 'cV[T]_3) (tol : T),
    [/\ spd_system (multiply S) (project S) (precondition S), 0 < tol &
      exists x1 x2,
        [/\ cr_solve S 1 tol x b = (x1, 1%N, tol),
            let r1 := residual (multiply S) (project S) b x1 in dot r1 r1 <= tol &
            cr_solve S 2 tol x b = (x2, 2%N, tol)]].
Proof.
exists S3, 0, (v3 1 1 0), (5%:R^-1); split.
- exact: spd3.
- by rewrite invr_gt0 ltr0n.
have bb : dot (v3 1 1 0) (v3 1 1 0) = 2%:R by rewrite dot3; fld.
have t0 : (0 : T) < 5%:R^-1 by rewrite invr_gt0 ltr0n.
have tl : (5%:R^-1 * 2%:R < (5%:R^-1 : T)) = false.
  apply/negbTE; rewrite -leNgt ler_pemulr ?ler1n //; exact: ltW.
have n12 : (1 : T) <= 2%:R by rewrite ler1n.
set s0 := cr_init S3 0 (v3 1 1 0).
have e0 : s0 = Cres 0 (v3 1 1 0) (v3 1 1 0) (v3 1 1 0) (v3 1 2%:R 1) 0.
  rewrite /s0 /cr_init /= mulmx0 minusE subr0 !P3E A3E; congr (Cres _ _ _ _ (v3 _ _ _) _); fld.
have r0 : s_rAr S3 s0 = 3%:R.
  by rewrite e0 /s_rAr /= A3E P3E dot3; fld.
have d0 : s_d S3 s0 = 5%:R.
  by rewrite e0 /s_d /s_Ap /= eqxx /= P3E dot3; fld.
pose t : T := 5%:R^-1.
have e1 : s_next S3 s0 = Cres (v3 (3%:R * t) (3%:R * t) 0) (v3 (2%:R * t) (- t) (- (3%:R * t)))
   (v3 (2%:R * t) (- t) 0) (v3 1 1 0) (v3 1 2%:R 1) 3%:R.
  rewrite /s_next r0 d0 e0 /s_dir /s_Ap /= eqxx /= add0r P3E !v3Z !v3N !v3D.
  congr (Cres (v3 _ _ _) (v3 _ _ _) (v3 _ _ _) _ _ _); rewrite /t; fld; first [exact five0' | done | idtac].
have q0 : cr_step S3 s0 = Some (s_next S3 s0).
  by rewrite cr_stepE r0 d0 !pnatr_eq0.
set s1 := s_next S3 s0 in e1 q0.
have r1 : s_rAr S3 s1 = 6%:R * (t * t).
  by rewrite e1 /s_rAr /= A3E P3E dot3; fld.
have d1 : s_d S3 s1 != 0.
  apply/eqP => e.
  have zK : forall k, (k < 1)%N -> tz S3 0 (v3 1 1 0) k != 0.
    by case=> [|k] // _; rewrite /tz /ct /= -/s0 r0 pnatr_eq0.
  have dK : forall k, (k < 1)%N -> td S3 0 (v3 1 1 0) k != 0.
    by case=> [|k] // _; rewrite /td /ct /= -/s0 d0 pnatr_eq0.
  have := @cr_d T 3 S3 0 (v3 1 1 0) spd3 1 zK dK e; rewrite /tz /ct /= -/s0 -/s1 r1 => /eqP.
  by rewrite mulf_eq0 mulf_eq0 pnatr_eq0 /= orbb invr_eq0 pnatr_eq0.
have q1 : cr_step S3 s1 = Some (s_next S3 s1).
  by rewrite cr_stepE (negbTE d1) r1 mulf_eq0 mulf_eq0 pnatr_eq0 /= orbb invr_eq0 pnatr_eq0.
have cn0 : (dot (krr s0) (krr s0) <= t) = false.
  apply/negbTE; rewrite -ltNge e0 /= bb; apply: lt_le_trans n12.
  by rewrite /t invf_lt1 ?ltr0n // ltr1n.
have cn1 : (dot (krr s1) (krr s1) <= t) = false.
  apply/negbTE; rewrite -ltNge e1 /= dot3.
  have -> : 2%:R * t * (2%:R * t) + - t * - t + - (3%:R * t) * - (3%:R * t) = t + 9%:R * t * t.
    by rewrite /t; fld; first [exact five0' | done | idtac].
  by rewrite ltr_addl !mulr_gt0 ?ltr0n.
exists (kx s1), (kx (s_next S3 s1)); split.
- by rewrite /cr_solve !dotProductE bb tl /= !dotProductE -/s0 cn0 q0.
- rewrite e1 /= /residual A3E v3N v3D P3E dot3.
  rewrite le_eqVlt; apply/orP; left; apply/eqP; rewrite /t; fld; first [exact five0' | done | idtac].
- by rewrite /cr_solve !dotProductE bb tl /= !dotProductE -/s0 cn0 q0 dotProductE cn1 q1.
Qed.
End Coupled.
Print Assumptions C65_stops_when_met_refuted.
