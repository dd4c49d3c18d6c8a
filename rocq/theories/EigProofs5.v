(* Jacobi's method: where it fails. *)
From mathcomp Require Import all_ssreflect all_algebra zify.
From Coq Require Import Field.
From Verif Require Import FieldTac MatModel MatSpec MatProofs MatProofs2 RotModel RotSpec RotProofs SvdModel SvdSpec SvdProofs SvdProofs2 SvdProofs4 SvdProofs5 EigModel EigSpec EigProofs EigProofs2 EigProofs3 EigProofs4.
Set Implicit Arguments.
Unset Strict Implicit.
Unset Printing Implicit Defensive.
Import GRing.Theory Num.Theory Order.Theory.
Local Open Scope ring_scope.

Section Fail.
Variable T : rcfType.
Let F : fieldType := [fieldType of T].
Add Field ff : (cfield F).
Ltac fld := to_fld F; field; try exact (@two_neq0 T).
Notation mat := (nat -> nat -> T).
Notation vec := (nat -> T).
Implicit Types (S M : mat) (j : jac T).

Lemma residual n (M E : 'M[T]_n) e D : E^T *m E = 1%:M -> E *m mx n n (symD e D) *m E^T = M ->
  frob2 (M - E *m diag n e *m E^T) = frob2 M - \sum_(i < n) e i ^+ 2.
Proof.
move=> o <-; rewrite -mulmxBl -mulmxBr !frob_conj //.
rewrite /frob2 -sumrB; apply: eq_bigr => i _.
have h k : (mx n n (symD e D) - diag n e) i k = if k == i then 0 else mx n n (symD e D) i k.
  rewrite mxE [X in _ + X]mxE diagE eq_sym; case: eqP => [->|_]; last by rewrite subr0.
  by rewrite mxE /symD eqxx subrr.
rewrite (bigD1 i) //= [in RHS](bigD1 i) //= h eqxx expr0n /= add0r mxE /symD eqxx [RHS]addrC addKr.
by apply: eq_bigr => k ki; rewrite h (negbTE ki).
Qed.

Definition zmat : mat := fun _ _ => 0.
Lemma jacobi_zero fuel n tiny : (1 < n)%N -> jacobi fuel n tiny zmat = Some (JDivZero T).
Proof.
move=> n1; have [h1 [h2 [h3 h4]]] := jinit_ok n zmat.
have m0 : jmax n zmat = 0.
  apply: (loop_ind (P := fun m r => r = 0)) => // i s _ ->.
  by apply: (loop_ind (P := fun m r => r = 0)) => // x r _ ->; rewrite /max_ absE normr0 ltxx.
have kn := pivot_bound (jinit n zmat) n1.
rewrite /jacobi m0; case: fuel => [|fuel] /=.
all: rewrite h3; have -> : n == 0%N = false by lia.
all: set k := jpivot _ _ in kn *; have [e1 i1 _] := h4 _ (ltnW kn); rewrite i1.
all: have /andP[kl ln] := maxind_bound zmat kn.
all: have -> : (n <= maxind n zmat k)%N = false by lia.
all: have [e2 _ _] := h4 _ ln; rewrite h1 e1 e2 absE normr0 mul0r ltxx subrr mul0r absE normr0 mulr0 addr0 sqrtr0 addr0 eqxx.
all: by [].
Qed.
Lemma jacobi_one fuel tiny M : jacobi fuel 1 tiny M = Some (JOutside T).
Proof. by rewrite /jacobi; case: fuel. Qed.

(* a matrix on which a stale index ends the iteration *)
Definition stale : mat := fun i k =>
  match i, k with
  | 0%N, 2%N | 2%N, 0%N | 0%N, 3%N | 3%N, 0%N => 1
  | 2%N, 3%N | 3%N, 2%N => 2%:R
  | _, _ => 0
  end.
Lemma stale_sym : (mx 4 4 stale)^T = mx 4 4 stale.
Proof. by apply/matrixP => -[[|[|[|[|i]]]] hi] [[|[|[|[|k]]]] hk] //; rewrite !mxE. Qed.
Lemma frob4 M : frob2 (mx 4 4 M) = \sum_(i < 4) \sum_(k < 4) M i k ^+ 2.
Proof. by apply: eq_bigr => i _; apply: eq_bigr => k _; rewrite mxE. Qed.
Lemma stale_frob : frob2 (mx 4 4 stale) = 12%:R.
Proof.
rewrite frob4 !big_ord_recl !big_ord0 /stale /= !(expr0n, expr1n, addr0, add0r) /=; by fld.
Qed.
Lemma pivot4 j : jpivot 4 j =
  let m := if abs (jS j 0%N (jind j 0%N)) < abs (jS j 1%N (jind j 1%N)) then 1%N else 0%N in
  if abs (jS j m (jind j m)) < abs (jS j 2%N (jind j 2%N)) then 2%N else m.
Proof. by []. Qed.
Lemma maxind4_0 S : maxind 4 S 0 =
  let m := if abs (S 0%N 1%N) < abs (S 0%N 2%N) then 2%N else 1%N in
  if abs (S 0%N m) < abs (S 0%N 3%N) then 3%N else m.
Proof. by []. Qed.
Lemma maxind4_1 S : maxind 4 S 1 = if abs (S 1%N 2%N) < abs (S 1%N 3%N) then 3%N else 2%N.
Proof. by []. Qed.

Lemma jmax_stale : jmax 4 stale = 2%:R.
Proof.
apply/eqP; rewrite eq_le; apply/andP; split; last first.
  by have := @jmax_ok T 4 stale 2%N 3%N isT isT; rewrite /= ger0_norm ?ler0n.
have le : forall i k, abs (stale i k) <= 2%:R.
  by move=> [|[|[|[|i]]]] [|[|[|[|k]]]]; rewrite absE /= ?normr0 ?normr1 ?ler0n ?ler1n // ger0_norm ?ler0n.
apply: (loop_ind (P := fun m r => r <= 2%:R)); rewrite ?ler0n // => i s _ h.
by apply: (loop_ind (P := fun m r => r <= 2%:R)) => // x r _ h2; rewrite /max_; case: ifP.
Qed.

Lemma stale_run fuel tiny : 0 < tiny -> tiny <= 1 -> exists e E,
  jacobi fuel.+1 4 tiny stale = Some (JDone e E) /\ [/\ e 0%N = 0, e 1%N = 0, e 2%N = - 2%:R & e 3%N = 2%:R].
Proof.
move=> t0 t1; rewrite /jacobi jmax_stale.
have a0 : abs (0 : T) = 0 by rewrite absE normr0.
have a1 : abs (1 : T) = 1 by rewrite absE normr1.
have a2 : abs (2%:R : T) = 2%:R by rewrite absE ger0_norm ?ler0n.
have [h1 [h2 [h3 h4]]] := jinit_ok 4 stale.
move: (jinit 4 stale) h1 h2 h3 h4 => j h1 h2 h3 h4.
have [e0' i0 c0] := h4 0%N isT; have [e1' i1 c1] := h4 1%N isT; have [e2' i2 c2] := h4 2%N isT; have [e3' i3 c3] := h4 3%N isT.
have I0 : jind j 0%N = 2%N by rewrite i0 maxind4_0 /= a0 a1 ltr01 /= ?a1 ltxx.
have I1 : jind j 1%N = 2%N by rewrite i1 maxind4_1 /= ltxx.
have I2 : jind j 2%N = 3%N by rewrite i2.
have P : jpivot 4 j = 2%N.
  by rewrite pivot4 h1 I0 I1 I2 /= a0 a1 a2 ltr10 /= I0 /= a1 ltr1n.
rewrite [jloop _ _ _ _ _]/= h3 P I2 h1 e2' e3' /= a2.
have -> : 2%:R < 2%:R * tiny = false.
  by apply/negbTE; rewrite -leNgt -[X in _ <= X]mulr1 ler_wpmul2l ?ler0n.
rewrite subrr mul0r a0 mulr0 addr0 add0r ltxx.
have -> : Num.sqrt (2%:R * 2%:R) = 2%:R :> T by rewrite -expr2 sqrtr_sqr ger0_norm ?ler0n.
set r := Num.sqrt _.
have -> : (2%:R == 0 :> T) = false by rewrite pnatr_eq0.
have r0 : r == 0 = false.
  by apply/negbTE; rewrite sqrtr_eq0 -ltNge -natrM -natrD ltr0n.
rewrite r0 /=; set c := 2%:R / r.
have -> : 2%:R * 2%:R / 2%:R = 2%:R :> T by rewrite mulfK // pnatr_eq0.
have tn : (2%:R : T) != 0 by rewrite pnatr_eq0.
have ntn : - (2%:R : T) != 0 by rewrite oppr_eq0.
set j2 := jsweep 4 2 3 c c 2%:R j.
set j0 := Jac (mset (jS j) 2 3 0) (je j) (jE j) (jind j) (jch j) (jst j).
have [a1' a2' a3' a4'] := jupdate_keep 2 (- 2%:R) j0; have [b1 b2 b3 b4] := jupdate_keep 3 2%:R (jupdate 2 (- 2%:R) j0).
have [f1 f2] := @jupdate_flag T 2 (- 2%:R) j0 c2 ntn.
have [g1 g2] : jch (jupdate 3 2%:R (jupdate 2 (- 2%:R) j0)) = jch (jupdate 2 (- 2%:R) j0) /\
    jst (jupdate 3 2%:R (jupdate 2 (- 2%:R) j0)) = jst (jupdate 2 (- 2%:R) j0).
  by apply: jupdate_flag; rewrite // f1 /=.
have S2 : jS j2 = sweepS 4 2 3 c c stale by rewrite /j2 /jsweep /= b1 a1' /= h1.
have J2 : jst j2 = 4%N by rewrite /j2 /jsweep /= g2 f2 /=.
have E2 : je j2 = vset (vset (je j) 2 (je j 2%N - 2%:R)) 3 (je j 3%N + 2%:R).
  by rewrite /j2 /jsweep /= b4 a4' /= /vset /=.
have N0 : jind j2 0%N = 2%N by rewrite /j2 /jsweep /= b3 a3' /= /aset /= I0.
have N1 : jind j2 1%N = 2%N by rewrite /j2 /jsweep /= b3 a3' /= /aset /= I1.
have N2 : jind j2 2%N = 3%N by rewrite /j2 /jsweep /= /aset /=.
have z02 : jS j2 0%N 2%N = 0 by rewrite S2 sweepS_ok //= mulr1 subrr.
have z12 : jS j2 1%N 2%N = 0 by rewrite S2 sweepS_ok //= mulr0 subrr.
have z23 : jS j2 2%N 3%N = 0 by rewrite S2 sweepS_ok.
clearbody j2.
have P2 : jpivot 4 j2 = 0%N.
  rewrite pivot4 N0 N1 N2 z02 z12 z23 a0 ltxx; cbv zeta. by rewrite N0 z02 a0 ltxx.
exists (je j2), (jE j2); split.
  have -> : forall f, jloop f 4 tiny 2%:R j2 = Some (JDone (je j2) (jE j2)); last by [].
  by case=> [|f]; rewrite /= J2 P2 N0 /= z02 a0 mulr_gt0 ?ltr0n.
rewrite E2 /vset /= e0' e1' e2' e3' /=; split=> //; by rewrite add0r.
Qed.

(* integer matrices: the entries of the scaled matrix are truncated *)
Lemma eigen2_int (store : T -> T) eps : store 0 = 0 -> store (1 / 2%:R) = 0 -> store (- (1 / 2%:R)) = 0 ->
  forall e E, eigen2 store eps (fun i k => (if i == k then i.+1 else 0%N)%:R) = (e, E) ->
  e 0%N = 3%:R / 2%:R /\ e 1%N = 3%:R / 2%:R.
Proof.
move=> s0 sp sn e E; rewrite /eigen2.
have sh : (1 + 2%:R) / 2%:R = 3%:R / 2%:R :> T by fld.
rewrite /= sh.
set S3 := mset (mset _ 0 0 _) 1 1 _.
have s00 : S3 0%N 0%N = 0.
  by rewrite /S3 /mset /= -sn; congr store; fld.
have s11 : S3 1%N 1%N = 0.
  by rewrite /S3 /mset /= -sp; congr store; fld.
have s01 : S3 0%N 1%N = 0 by [].
have s10 : S3 1%N 0%N = 0 by [].
have m0 : maxabs 2 S3 = 0.
  by rewrite /maxabs /loop /= s00 s01 s10 s11 !absE normr0 /max_ !ltxx.
rewrite m0 ltxx s00 s10 s11 => -[<- _]; rewrite /vset /=.
by rewrite !mulr0 !add0r.
Qed.
End Fail.
