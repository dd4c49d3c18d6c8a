(* Proofs about Jacobi's method: the loop. *)
From mathcomp Require Import all_ssreflect all_algebra zify.
From Coq Require Import Field.
From Verif Require Import FieldTac MatModel MatSpec MatProofs MatProofs2 RotModel RotSpec RotProofs SvdModel SvdSpec SvdProofs SvdProofs2 SvdProofs4 SvdProofs5 EigModel EigSpec EigProofs EigProofs2 EigProofs3.
Set Implicit Arguments.
Unset Strict Implicit.
Unset Printing Implicit Defensive.
Import GRing.Theory Num.Theory Order.Theory.
Local Open Scope ring_scope.

Section Loop.
Variable T : rcfType.
Let F : fieldType := [fieldType of T].
Add Field ff : (cfield F).
Ltac fld := to_fld F; field; try exact (@two_neq0 T).
Notation mat := (nat -> nat -> T).
Notation vec := (nat -> T).
Implicit Types (S M : mat) (j : jac T).

Lemma jupdate_keep k t j : [/\ jS (jupdate k t j) = jS j, jE (jupdate k t j) = jE j,
  jind (jupdate k t j) = jind j & je (jupdate k t j) = vset (je j) k (je j k + t)].
Proof. by rewrite /jupdate; case: ifP => _; last case: ifP. Qed.
Lemma jupdate_flag k t j : jch j k -> t != 0 -> jch (jupdate k t j) = jch j /\ jst (jupdate k t j) = jst j.
Proof.
move=> ck t0; rewrite /jupdate ck /= /vset eqxx.
by rewrite -[X in X == _]addr0 (inj_eq (addrI _)) eq_sym (negbTE t0).
Qed.

Lemma maxind_bound n S k : (k.+1 < n)%N -> (k < maxind n S k < n)%N.
Proof.
move=> kn; rewrite /maxind.
apply: (range_ind (P := fun i m => (k < m < n)%N)); [lia | lia |].
by move=> i m hi hm; case: ifP => _; lia.
Qed.
Lemma pivot_bound n j : (1 < n)%N -> ((jpivot n j).+1 < n)%N.
Proof.
move=> n1; rewrite /jpivot.
apply: (range_ind (P := fun i m => (m.+1 < n)%N)); [lia | lia |].
by move=> i m hi hm; case: ifP => _; lia.
Qed.

Section Inv.
Variables (n : nat) (M : 'M[T]_n).
Hypothesis n1 : (1 < n)%N.

Definition jD j : 'M[T]_n := mx n n (symD (je j) (jS j)).
Definition jinv j : Prop :=
  [/\ jst j = n, forall k, (k < n)%N -> jch j k, forall k, (k.+1 < n)%N -> (k < jind j k < n)%N,
      (mx n n (jE j))^T *m mx n n (jE j) = 1%:M
    & mx n n (jE j) *m jD j *m (mx n n (jE j))^T = M].
Definition sumsq (e : vec) : T := \sum_(i < n) e i ^+ 2.

Lemma sweep_inv j k l (ek := je j k) (el := je j l) (p := jS j k l)
    (y := (el - ek) / 2%:R) (d := `|y| + Num.sqrt (p * p + y * y)) (r := Num.sqrt (p * p + d * d))
    (s := if y < 0 then - (p / r) else p / r) (c := d / r) (t := if y < 0 then - (p * p / d) else p * p / d) :
  (k < l)%N -> (l < n)%N -> p != 0 -> jinv j ->
  jinv (jsweep n k l s c t j) /\ sumsq (je (jsweep n k l s c t j)) = sumsq (je j) + 2%:R * p ^+ 2.
Proof.
move=> kl ln p0 [st ch ind o E].
have [[_ _ u] h1 h2 h3 [sq t0]] := @rot_eqs T ek el p p0.
rewrite -/y -/d -/r -/c -/s -/t in u h1 h2 h3 sq t0.
move: (c) (s) (t) u h1 h2 h3 sq t0 => {}c {}s {}t u h1 h2 h3 sq t0.
have kn : (k < n)%N by lia.
have nkl : l != k by lia.
rewrite /jsweep; set j0 := Jac (mset _ _ _ _) _ _ _ _ _.
have [a1 a2 a3 a4] := jupdate_keep k (- t) j0; have [b1 b2 b3 b4] := jupdate_keep l t (jupdate k (- t) j0).
have nt0 : - t != 0 by rewrite oppr_eq0.
have [f1 f2] := @jupdate_flag k (- t) j0 (ch _ kn) nt0.
have [g1 g2] : jch (jupdate l t (jupdate k (- t) j0)) = jch (jupdate k (- t) j0) /\
    jst (jupdate l t (jupdate k (- t) j0)) = jst (jupdate k (- t) j0).
  by apply: jupdate_flag; rewrite // f1 /= ch.
set j1 := jupdate l t _ in b1 b2 b3 b4 g1 g2 *.
have eE a : je j1 a = sweepe k l t (je j) a.
  rewrite b4 a4 /vset /sweepe /=; case: (eqVneq a l) => [->|//]; by rewrite (negbTE nkl).
have -> : jE j1 = jE j by rewrite b2 a2.
have -> : jS j1 = mset (jS j) k l 0 by rewrite b1 a1.
have -> : jind j1 = jind j by rewrite b3 a3.
rewrite -/(sweepS n k l s c (jS j)).
set g := Giv k l c s.
have v : valid n g by rewrite /valid /= ln kn; lia.
have ug : unit_g g by [].
set E' := loop n _ (jE j); have EE : E' = columnRotation n g (jE j) by [].
split.
- split=> /=.
  + by rewrite g2 f2.
  + by move=> a ha; rewrite g1 f1 /=; apply: ch.
  + move=> a ha; rewrite /aset; case: (eqVneq a l) => [e|_]; first by rewrite e; apply: maxind_bound; lia.
    case: (eqVneq a k) => [e|_]; first by rewrite e; apply: maxind_bound; lia.
    exact: ind.
  + rewrite EE tr_row // trmx_mul trmxK mulmxA -(mulmxA (gmx n g)) o mulmx1.
    exact: gmx_orth'.
  + rewrite EE tr_row //.
    have -> : jD {| jS := sweepS n k l s c (jS j); je := je j1; jE := E';
      jind := aset (aset (jind j) k (maxind n (sweepS n k l s c (jS j)) k)) l (maxind n (sweepS n k l s c (jS j)) l);
      jch := jch j1; jst := jst j1 |} = gmx n g *m jD j *m (gmx n g)^T.
      rewrite /jD /= -row_ok // -tr_row //; apply/matrixP => a b; rewrite !mxE.
      rewrite -(@sweep_rot T n k l s c t) //; rewrite /symD; by case: eqP => [ab|_]; rewrite ?eE.
    rewrite trmx_mul trmxK !mulmxA -(mulmxA (mx n n (jE j)) (gmx n g)^T) gmx_orth // mulmx1.
    by rewrite -(mulmxA _ (gmx n g)^T (gmx n g)) gmx_orth // mulmx1.
- rewrite /sumsq /=.
  have ne : Ordinal kn != Ordinal ln by apply/eqP => -[]; lia.
  rewrite (bigD1 (Ordinal kn)) // (bigD1 (Ordinal ln)) /=; last by rewrite eq_sym.
  rewrite [in RHS](bigD1 (Ordinal kn)) // [in RHS](bigD1 (Ordinal ln)) /=; last by rewrite eq_sym.
  rewrite !addrA !eE /sweepe eqxx (negbTE nkl) eqxx sq [RHS]addrAC; congr (_ + _).
  apply: eq_bigr => i /andP[ik il]; rewrite eE /sweepe.
  have -> : (i : nat) == k = false by apply/negP => /eqP h; move/eqP: ik; apply; exact: val_inj.
  by have -> : (i : nat) == l = false by apply/negP => /eqP h; move/eqP: il; apply; exact: val_inj.
Qed.

Lemma inv_frob j : jinv j -> frob2 (jD j) = frob2 M.
Proof. by move=> [_ _ _ o <-]; rewrite frob_conj. Qed.
Lemma symD_sym e S : (mx n n (symD e S))^T = mx n n (symD e S).
Proof. by apply/matrixP => a b; rewrite !mxE /symD; case: ltngtP => // ->. Qed.

Lemma off_pair j k l : (k < l)%N -> (l < n)%N -> sumsq (je j) + 2%:R * jS j k l ^+ 2 <= frob2 (jD j).
Proof.
move=> kl ln; have kn : (k < n)%N by lia.
pose ko := Ordinal kn; pose lo := Ordinal ln.
have ne : ko != lo by apply/eqP => -[]; lia.
have -> : 2%:R * jS j k l ^+ 2 = \sum_(i < n) (if (i == ko) || (i == lo) then jS j k l ^+ 2 else 0).
  rewrite -big_mkcond /= (bigD1 ko) /= ?eqxx // (bigD1 lo) /= ?eqxx ?orbT //; last by rewrite eq_sym ne.
  rewrite big1 ?addr0; last by move=> i /andP[/andP[/orP[/eqP->|/eqP->]]]; rewrite ?eqxx.
  by rewrite mulr2n mulrDl mul1r.
rewrite -big_split /=; apply: ler_sum => i _.
case: ifP => [h|_]; last first.
  rewrite addr0 (bigD1 i) //= mxE /symD eqxx ler_addl; apply: sumr_ge0 => x _; exact: sqr_ge0.
rewrite (bigD1 i) //= mxE /symD eqxx ler_add2l.
case/orP: h => /eqP ->.
- rewrite (bigD1 lo) //=; last by rewrite eq_sym.
  rewrite mxE /symD /= (ltn_eqF kl) kl ler_addl; apply: sumr_ge0 => x _; exact: sqr_ge0.
- rewrite (bigD1 ko) //= mxE /symD /= (gtn_eqF kl) ltnNge (ltnW kl) /= ler_addl; apply: sumr_ge0 => x _; exact: sqr_ge0.
Qed.

Variables (tiny mS : T).
Hypothesis tol0 : 0 < mS * tiny.

Definition jdone (r : option (jres T)) (sq : T) : Prop :=
  exists e E D, [/\ r = Some (JDone e E), (mx n n E)^T *m mx n n E = 1%:M,
    mx n n E *m mx n n (symD e D) *m (mx n n E)^T = M & sq <= sumsq e].

Lemma jloop_ok fuel j sq : jinv j -> sq <= sumsq (je j) ->
  frob2 M < sumsq (je j) + 2%:R * fuel.+1%:R * (mS * tiny) ^+ 2 ->
  jdone (jloop fuel n tiny mS j) sq.
Proof.
elim: fuel j => [|fuel IH] j inv les lt /=; have [st ch ind o E] := inv.
all: have -> : jst j == 0%N = false by rewrite st; lia.
all: set k := jpivot n j; set l := jind j k.
all: have kn := pivot_bound j n1; rewrite -/k in kn.
all: have /andP[kl ln] := ind _ kn; rewrite -/l in kl ln.
all: have -> : (n <= l)%N = false by lia.
all: case: ifP => [_|/negbT]; first by exists (je j), (jE j), (jS j).
all: rewrite -leNgt absE => gt.
all: have pn : 0 < `|jS j k l| by exact: lt_le_trans gt.
all: have p0 : jS j k l != 0 by rewrite -normr_gt0.
all: have [[/negbTE d0 /negbTE r0 _] _ _ _ _] := @rot_eqs T (je j k) (je j l) (jS j k l) p0.
all: rewrite absE d0 r0 /=.
all: have pp : (mS * tiny) ^+ 2 <= jS j k l ^+ 2
  by rewrite -[X in _ <= X]real_normK ?num_real // ler_sqr ?nnegrE // ltW.
- exfalso; move: lt; rewrite -(inv_frob inv) ltNge => /negP; apply.
  apply: le_trans (off_pair j kl ln); by rewrite mulr1 ler_add2l ler_wpmul2l ?ler0n.
- have [inv' sE] := sweep_inv kl ln p0 inv.
  apply: IH => //.
    by rewrite sE (le_trans les) // ler_addl mulr_ge0 ?ler0n ?sqr_ge0.
  rewrite sE; apply: (lt_le_trans lt); rewrite -addrA ler_add2l.
  have -> : 2%:R * fuel.+2%:R * (mS * tiny) ^+ 2 = 2%:R * (mS * tiny) ^+ 2 + 2%:R * fuel.+1%:R * (mS * tiny) ^+ 2.
    by rewrite -[fuel.+2]add1n natrD; set x := (fuel.+1%:R : T); fld.
  by rewrite ler_add2r ler_wpmul2l ?ler0n.
Qed.
End Inv.

Lemma jinit_ok n M : jS (jinit n M) = M /\ jE (jinit n M) = @identity T /\ jst (jinit n M) = n /\
  forall k, (k < n)%N -> [/\ je (jinit n M) k = M k k, jind (jinit n M) k = maxind n M k & jch (jinit n M) k].
Proof.
rewrite /jinit.
apply: (loop_ind (P := fun m j => jS j = M /\ jE j = @identity T /\ jst j = n /\
  forall k, (k < m)%N -> [/\ je j k = M k k, jind j k = maxind n M k & jch j k])) => //.
move=> i j hi [h1 [h2 [h3 h4]]] /=; do 3!split=> //; move=> k; rewrite ltnS leq_eqVlt /vset /aset h1.
case: (eqVneq k i) => [->|_] //=; exact: h4.
Qed.

Lemma jmax_ok n M a b : (a < n)%N -> (b < n)%N -> `|M a b| <= jmax n M.
Proof.
move=> ha hb; rewrite /jmax.
have inner : forall i r, r <= loop n (fun q r => max_ r (abs (M i q))) r /\
    forall b, (b < n)%N -> `|M i b| <= loop n (fun q r => max_ r (abs (M i q))) r.
  move=> i r; apply: (loop_ind (P := fun m r' => r <= r' /\ forall b, (b < m)%N -> `|M i b| <= r')) => //.
  move=> x s hx [le IH]; split; first by apply: (le_trans le); exact: EigProofs.max_l.
  move=> y; rewrite ltnS leq_eqVlt => /orP[/eqP->|h]; first by rewrite -absE; exact: EigProofs.max_r.
  apply: (le_trans (IH _ h)); exact: EigProofs.max_l.
move: a b ha hb.
suff: forall a b, (a < n)%N -> (b < n)%N -> `|M a b| <= loop n (fun i r => loop n (fun q r => max_ r (abs (M i q))) r) 0 by [].
apply: (loop_ind (P := fun m r => forall a b, (a < m)%N -> (b < n)%N -> `|M a b| <= r)) => // i s hi IH a b.
have [le h] := inner i s.
rewrite ltnS leq_eqVlt => /orP[/eqP->|ha] hb; first exact: h.
by apply: (le_trans (IH _ _ ha hb)).
Qed.
Lemma jmax_ge0 n M : 0 <= jmax n M.
Proof.
rewrite /jmax; apply: (loop_ind (P := fun m r => 0 <= r)) => // i s _ h.
by apply: (loop_ind (P := fun m r => 0 <= r)) => // x r _ h2; apply: (le_trans h2); exact: EigProofs.max_l.
Qed.

Lemma jacobi_ok fuel n tiny M : (1 < n)%N -> 0 < tiny ->
  symmetric (mx n n M) -> mx n n M <> 0 -> n%:R ^+ 2 <= 2%:R * fuel%:R * tiny ^+ 2 ->
  jdone (mx n n M) (jacobi fuel n tiny M) (\sum_(i < n) M i i ^+ 2).
Proof.
move=> n1 t0 sy nz fu.
have [h1 [h2 [h3 h4]]] := jinit_ok n M.
have m0 : 0 < jmax n M.
  rewrite lt_def jmax_ge0 andbT; apply/eqP => z; apply: nz; apply/matrixP => a b; rewrite !mxE.
  by have := @jmax_ok n M a b (ltn_ord a) (ltn_ord b); rewrite z normr_le0 => /eqP.
have tol : 0 < jmax n M * tiny by rewrite mulr_gt0.
have D0 : mx n n (symD (je (jinit n M)) M) = mx n n M.
  apply/matrixP => a b; rewrite !mxE /symD.
  have [e _ _] := h4 _ (ltn_ord a); rewrite e; case: (ltngtP a b) => // [_|->] //.
  by move/matrixP: sy => /(_ a b); rewrite !mxE.
have sE : sumsq n (je (jinit n M)) = \sum_(i < n) M i i ^+ 2.
  by apply: eq_bigr => i _; have [-> _ _] := h4 _ (ltn_ord i).
apply: jloop_ok => //.
- split=> //.
  + by move=> k hk; have [] := h4 _ hk.
  + by move=> k hk; have [_ -> _] := h4 _ (ltnW hk); apply: maxind_bound.
  + by rewrite h2 mx_id trmx1 mulmx1.
  + by rewrite h2 mx_id trmx1 mulmx1 mul1mx /jD h1 D0.
- by rewrite sE.
- apply: (le_lt_trans (y := (n%:R * jmax n M) ^+ 2)).
    have -> : (n%:R * jmax n M) ^+ 2 = \sum_(i < n) \sum_(k < n) jmax n M ^+ 2.
      move: (jmax n M) => x.
      by rewrite !sumr_const card_ord -mulrnA -[RHS]mulr_natl natrM exprMn [n%:R ^+ 2]expr2.
    apply: ler_sum => i _; apply: ler_sum => k _; rewrite mxE -[X in X <= _]real_normK ?num_real //.
    by rewrite ler_sqr ?nnegrE ?jmax_ge0 //; apply: jmax_ok.
  apply: (lt_le_trans (y := 2%:R * fuel.+1%:R * (jmax n M * tiny) ^+ 2)); last first.
    by rewrite ler_addr sumr_ge0 // => i _; exact: sqr_ge0.
  have -> : 2%:R * fuel.+1%:R * (jmax n M * tiny) ^+ 2 = 2%:R * fuel.+1%:R * tiny ^+ 2 * jmax n M ^+ 2.
    by rewrite exprMn [jmax n M ^+ 2 * _]mulrC mulrA.
  rewrite exprMn ltr_pmul2r ?exprn_gt0 //.
  by apply: (le_lt_trans fu); rewrite ltr_pmul2r ?exprn_gt0 // ltr_pmul2l ?ltr0n // ltr_nat.
Qed.
End Loop.
