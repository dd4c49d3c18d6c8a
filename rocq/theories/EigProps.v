(* Properties C69 and C70: eigendecompositions and the projection to positive
   semi-definite matrices. *)
From mathcomp Require Import all_ssreflect all_algebra.
From Verif Require Import MatModel MatSpec RotModel RotSpec SvdModel SvdSpec EigModel EigSpec.
From Verif Require SvdProofs2 SvdProofs5 EigProofs EigProofs2 EigProofs3 EigProofs4 EigProofs5.
Set Implicit Arguments.
Unset Strict Implicit.
Unset Printing Implicit Defensive.
Import GRing.Theory Num.Theory Order.Theory.
Local Open Scope ring_scope.

(* ---- C69: 2 x 2 matrices ---- *)

(* eigen_decomposition of a symmetric 2 x 2 matrix of floating point type: an
   orthonormal basis of eigenvectors, the smaller eigenvalue first. *)
Lemma sym_entry (T : rcfType) (M : nat -> nat -> T) : symmetric (mx 2 2 M) -> M 0%N 1%N = M 1%N 0%N.
Proof. by move/matrixP => /(_ (@Ordinal 2 1 isT) (@Ordinal 2 0 isT)); rewrite !mxE. Qed.
Theorem C69_eigen2_partial (T : rcfType) (eps : T) (M : nat -> nat -> T) : eps < 2%:R -> symmetric (mx 2 2 M) ->
  let: (e, E) := eigen2 id eps M in eigenbasis (mx 2 2 M) e (mx 2 2 E) /\ e 0%N <= e 1%N.
Proof.
move=> el /sym_entry s; have := EigProofs.eigen2_ok el s; case: (eigen2 id eps M) => e E [o eM le].
by split=> //; apply: EigProofs2.basis_of.
Qed.
Print Assumptions C69_eigen2_partial.

(* a symmetric matrix that is not diagonal *)
Example C69_symmetric (T : rcfType) : symmetric (mx 2 2 (fun i j => (i + j)%:R : T)) /\
  ~ is_diag_mx (mx 2 2 (fun i j => (i + j)%:R : T)).
Proof.
split; first by apply/matrixP => i j; rewrite !mxE addnC.
move/is_diag_mxP => /(_ (@Ordinal 2 0 isT) (@Ordinal 2 1 isT) isT) /eqP.
by rewrite mxE /= oner_eq0.
Qed.

(* The function also takes integer matrices, but then truncates the entries of
   its working copy: of the matrix diag (1, 2) it returns the eigenvalues 3/2
   and 3/2.  [store] is any way to store -1/2, 0 and 1/2 in an integer as 0. *)
Theorem C69_integer_refuted (T : rcfType) (store : T -> T) (eps : T) :
  store 0 = 0 -> store (1 / 2%:R) = 0 -> store (- (1 / 2%:R)) = 0 ->
  exists M : nat -> nat -> nat, let: (e, E) := eigen2 store eps (fun i j => (M i j)%:R) in
    symmetric (mx 2 2 (fun i j => (M i j)%:R : T)) /\ forall E', ~ eigenbasis (mx 2 2 (fun i j => (M i j)%:R)) e E'.
Proof.
move=> s0 sp sn; exists (fun i j => if i == j then i.+1 else 0%N).
have h := EigProofs5.eigen2_int s0 sp sn.
case r : (eigen2 store eps _) => [e E]; have [e0 e1] := h eps e E r; split.
  by apply/matrixP => i j; rewrite !mxE eq_sym; case: eqP => // ->.
move=> E' b; have := EigProofs2.of_basis b; case: b => o _.
have -> : diag 2 e = (3%:R / 2%:R)%:M.
  apply/matrixP => i j; rewrite EigProofs2.diagE !mxE; case: eqP => [->|] //=; rewrite ?mulr1n ?mulr0n //.
  by case: j => [[|[|k]] hk] /=; rewrite ?e0 ?e1.
rewrite mul_mx_scalar -scalemxAl (mulmx1C o) => /matrixP /(_ (@Ordinal 2 0 isT) (@Ordinal 2 0 isT)).
rewrite !mxE /= mulr1 => /eqP; rewrite eq_sym -subr_eq0.
rewrite -[X in _ - X](@mulfK T 2%:R) ?pnatr_eq0 // -mulrBl mulf_eq0 invr_eq0 pnatr_eq0 orbF mul1r.
by rewrite -natrB // pnatr_eq0.
Qed.
Print Assumptions C69_integer_refuted.

(* make_pd of a symmetric 2 x 2 matrix: the result is positive semi-definite,
   no positive semi-definite matrix is nearer by more than the cut-off eps
   allows, and a matrix whose eigenvalues are at least eps is left alone. *)
Theorem C69_make_pd (T : rcfType) (eps : T) (M : nat -> nat -> T) : 0 <= eps -> eps < 2%:R -> symmetric (mx 2 2 M) ->
  [/\ psd (mx 2 2 (make_pd2 eps M)),
      forall P, psd P -> frob2 (mx 2 2 (make_pd2 eps M) - mx 2 2 M) <= frob2 (P - mx 2 2 M) + 2%:R * eps ^+ 2
    & (forall x : 'cV_2, eps * (x^T *m x) 0 0 <= quadratic (mx 2 2 M) x) -> mx 2 2 (make_pd2 eps M) = mx 2 2 M].
Proof.
move=> e0 el /sym_entry s; have := EigProofs.eigen2_ok el s; rewrite /make_pd2.
case: (eigen2 id eps M) => e E [o eM _]; move: (mx 2 2 M) eM => Mm eM.
split; first exact: EigProofs2.rebuild_psd.
- by move=> P p; rewrite eM; apply: EigProofs2.rebuild_near.
- by move=> h; rewrite [RHS]eM; apply: EigProofs2.rebuild_same => // x; rewrite -eM.
Qed.
Print Assumptions C69_make_pd.

(* orthogonal of a vector with three entries: perpendicular, and not zero when
   the vector is not *)
Theorem C69_orthogonal (T : rcfType) (v : nat -> T) : dot 3 v (orthogonal3 v) = 0 /\
  ((exists i, (i < 3)%N /\ v i != 0) -> exists i, (i < 3)%N /\ orthogonal3 v i != 0).
Proof. exact: EigProofs2.orth3_ok. Qed.
Print Assumptions C69_orthogonal.

(* ---- C70: Jacobi's method for the sizes 4, 5, ... ---- *)

(* On every symmetric matrix other than zero, of every size from 2 on, it
   terminates, after a number of sweeps that depends on the size and the
   constant 1e-11 alone.  The columns of E are orthonormal.  What E diag(e) E^T
   leaves of M is never more than the part of M off the diagonal; it is not
   always small, see the next theorem. *)
Theorem C70_jacobi_partial (T : rcfType) fuel n (tiny : T) (M : nat -> nat -> T) :
  (1 < n)%N -> 0 < tiny -> symmetric (mx n n M) -> mx n n M <> 0 ->
  n%:R ^+ 2 <= 2%:R * fuel%:R * tiny ^+ 2 ->
  exists e E, [/\ jacobi fuel n tiny M = Some (JDone e E), orthonormal (mx n n E),
    frob2 (mx n n M - mx n n E *m diag n e *m (mx n n E)^T) = frob2 (mx n n M) - \sum_(i < n) e i ^+ 2
    & \sum_(i < n) M i i ^+ 2 <= \sum_(i < n) e i ^+ 2].
Proof.
move=> n1 t0 sy nz fu; have [e [E [D [r o eM le]]]] := EigProofs4.jacobi_ok n1 t0 sy nz fu.
by exists e, E; split=> //; apply: EigProofs5.residual eM.
Qed.
Print Assumptions C70_jacobi_partial.

(* the hypotheses can be met, for N = 10^11 in particular *)
Example C70_fuel (T : rcfType) N : (0 < N)%N -> exists fuel, 4%:R ^+ 2 <= 2%:R * fuel%:R * (1 / N%:R) ^+ 2 :> T.
Proof.
move=> N0; exists (8 * N ^ 2)%N.
rewrite natrM natrX expr_div_n expr1n mulrA -mulrA mul1r divff; last by rewrite expf_neq0 // pnatr_eq0 -lt0n.
by rewrite mulr1 -natrX -natrM ler_nat.
Qed.
Example C70_matrix (T : rcfType) : symmetric (mx 4 4 (@EigProofs5.stale T)) /\ mx 4 4 (@EigProofs5.stale T) <> 0.
Proof.
split; first exact: EigProofs5.stale_sym.
by move/matrixP => /(_ (@Ordinal 4 0 isT) (@Ordinal 4 2 isT)) /eqP; rewrite !mxE /= oner_eq0.
Qed.

(* Only the rows of the last pivot get a new search for their largest entry, so
   the iteration can end while entries off the diagonal are large.  For the
   symmetric matrix of size 4 with entries 1, 1 and 2 at (0,2), (0,3) and (2,3)
   it returns, after one sweep, 0, 0, -2 and 2: these are not the eigenvalues,
   and a third of the squared norm of M is missing. *)
Theorem C70_stale_refuted (T : rcfType) fuel (tiny : T) : 0 < tiny -> tiny <= 1 -> 
  exists M : nat -> nat -> T, symmetric (mx 4 4 M) /\
  exists e E, [/\ jacobi fuel.+1 4 tiny M = Some (JDone e E),
    frob2 (mx 4 4 M) = 12%:R, \sum_(i < 4) e i ^+ 2 = 8%:R & forall E', ~ eigenbasis (mx 4 4 M) e E'].
Proof.
move=> t0 t1; exists (@EigProofs5.stale T); split; first exact: EigProofs5.stale_sym.
have [e [E [r [e0 e1 e2 e3]]]] := EigProofs5.stale_run fuel t0 t1.
have s : \sum_(i < 4) e i ^+ 2 = 8%:R.
  rewrite !big_ord_recl big_ord0 /= e0 e1 e2 e3 expr0n /= !add0r sqrrN addr0 -natrX -natrD //.
exists e, E; split=> //; first exact: EigProofs5.stale_frob.
move=> E' b; have eM := EigProofs2.of_basis b; case: b => o _.
have := EigProofs5.stale_frob T; rewrite eM EigProofs2.frob_conj // EigProofs2.frob_diag s => /eqP.
by rewrite eqr_nat.
Qed.
Print Assumptions C70_stale_refuted.

(* The zero matrix makes it divide by zero, whatever the size. *)
Theorem C70_zero_refuted (T : rcfType) fuel n (tiny : T) : (1 < n)%N ->
  jacobi fuel n tiny (fun _ _ => 0) = Some (JDivZero T).
Proof. exact: EigProofs5.jacobi_zero. Qed.
Print Assumptions C70_zero_refuted.
(* A 1 x 1 matrix makes it read outside of the matrix. *)
Theorem C70_one_refuted (T : rcfType) fuel (tiny : T) M : jacobi fuel 1 tiny M = Some (JOutside T).
Proof. exact: EigProofs5.jacobi_one. Qed.
Print Assumptions C70_one_refuted.

(* make_pd returns a positive semi-definite matrix all the same. *)
Theorem C70_make_pd (T : rcfType) fuel n (tiny eps : T) (M M' : nat -> nat -> T) : 0 <= eps ->
  make_pdn fuel n tiny eps M = Some M' -> psd (mx n n M').
Proof.
move=> e0; rewrite /make_pdn; case: (jacobi fuel n tiny M) => [[e E||]|] // [<-].
exact: EigProofs2.rebuild_psd.
Qed.
Print Assumptions C70_make_pd.
Theorem C70_make_pd_terminates (T : rcfType) fuel n (tiny eps : T) (M : nat -> nat -> T) :
  (1 < n)%N -> 0 < tiny -> symmetric (mx n n M) -> mx n n M <> 0 ->
  n%:R ^+ 2 <= 2%:R * fuel%:R * tiny ^+ 2 -> exists M', make_pdn fuel n tiny eps M = Some M'.
Proof.
move=> n1 t0 sy nz fu; have [e [E [r _ _ _]]] := C70_jacobi_partial n1 t0 sy nz fu.
by rewrite /make_pdn r; eexists.
Qed.
Print Assumptions C70_make_pd_terminates.
