(* Properties of the conjugate gradient solver. *)
From mathcomp Require Import all_ssreflect all_algebra.
From Verif Require Import CgModel CgSpec CgProofs CgProofs2.
Import GRing.Theory Num.Theory Order.Theory.
Set Implicit Arguments.
Unset Strict Implicit.
Unset Printing Implicit Defensive.
Local Open Scope ring_scope.

Section Props.
Variable T : rcfType.
Variable n : nat.
Variable S : system T n.
Notation A := (multiply S).
Notation P := (project S).
Notation M := (precondition S).
Implicit Types (x b : 'cV[T]_n).

(* the size of the preconditioned residual of the free dofs *)
Definition rnorm b x : T :=
  Num.sqrt (dot (residual A P b x) (M *m residual A P b x)).

Lemma st_norm x b k : cnorm (st S x b k) = rnorm b (sx S x b k).
Proof. by rewrite snE szE /sq sr_residual. Qed.

(* The returned iteration count does not pass the limit, and if the solver
   stopped before the limit the returned vector meets the tolerance: whatever the
   system is. *)
Theorem C64_residual maxIters (tol relTol : T) x b x' it :
  cg_solve S maxIters tol relTol x b = (x', it) ->
  (it <= maxIters)%N /\
  ((it < maxIters)%N -> rnorm b x' <= Num.min (relTol * rnorm b x) tol).
Proof.
rewrite /cg_solve.
have [k kl [-> _ h] [<- <-]] := loopE S maxIters 0 (Num.min (relTol * cnorm (cg_init S x b)) tol)
  (cg_init S x b).
rewrite /= add0n; split=> // /h.
by rewrite -/(st S x b k) st_norm (st_norm x b 0).
Qed.

(* Fixed dofs are left as they were, given a projected preconditioner. *)
Theorem C64_fixed_dofs maxIters (tol relTol : T) x b x' it :
  P *m M = M ->
  cg_solve S maxIters tol relTol x b = (x', it) ->
  free P (x' - x).
Proof.
move=> pm; rewrite /cg_solve.
have [k kl [-> _ _] [<- _]] := loopE S maxIters 0 (Num.min (relTol * cnorm (cg_init S x b)) tol)
  (cg_init S x b).
exact: (free_x x b pm k).
Qed.

Section Spd.
Hypothesis spd : spd_system A P M.
Variables (maxIters : nat) (tol relTol : T).
Hypothesis tol0 : 0 <= tol.
Hypothesis rel0 : 0 <= relTol.

Lemma tol_ge0 x b : 0 <= Num.min (relTol * rnorm b x) tol.
Proof. by rewrite le_minr tol0 mulr_ge0 // sqrtr_ge0. Qed.

Lemma solve_run x b x' it :
  cg_solve S maxIters tol relTol x b = (x', it) ->
  [/\ (it <= maxIters)%N, x' = sx S x b it,
      forall k, (k < it)%N -> sz S x b k != 0 &
      (it < maxIters)%N -> rnorm b x' <= Num.min (relTol * rnorm b x) tol].
Proof.
move=> e; have [h1 h2] := C64_residual e; split=> //.
  move: e; rewrite /cg_solve.
  have [k kl [-> _ _] [<- <-]] := loopE S maxIters 0 (Num.min (relTol * cnorm (cg_init S x b)) tol)
    (cg_init S x b).
  by rewrite add0n.
move: e; rewrite /cg_solve.
have [k kl [-> h _] [_ <-]] := loopE S maxIters 0 (Num.min (relTol * cnorm (cg_init S x b)) tol)
  (cg_init S x b).
rewrite add0n => j jk; have := h j jk; rewrite -/(st S x b j) snE.
rewrite (st_norm x b 0) => hlt; apply/eqP => e0; move: hlt.
by rewrite e0 sqrtr0 ltNge tol_ge0.
Qed.

(* On a system that is symmetric positive definite on the free dofs, with room
   for as many iterations as there are free dofs, the solver always stops within
   that many and meets the tolerance. *)
Theorem C64_converges x b x' it :
  (\rank P <= maxIters)%N ->
  cg_solve S maxIters tol relTol x b = (x', it) ->
  (it <= \rank P)%N /\ rnorm b x' <= Num.min (relTol * rnorm b x) tol.
Proof.
move=> hm /solve_run [h1 ex hz h2].
have hr : (it <= \rank P)%N by apply: (run_rank spd hz (leqnSn it) hz).
split=> //; case: (ltnP it maxIters) => [/h2 //|hle].
have eit : it = \rank P by apply/eqP; rewrite eqn_leq hr /= (leq_trans hm hle).
have zit : sz S x b it = 0.
  apply/eqP; apply/negPn/negP => nz.
  have : (it.+1 <= \rank P)%N.
    apply: (run_rank spd hz (leqnn it.+1)) => k.
    rewrite (ltnS k it) (leq_eqVlt k it) => /orP[/eqP -> //|]; exact: hz.
  by rewrite -eit ltnn.
have -> : rnorm b x' = 0.
  by rewrite ex -st_norm snE zit sqrtr0.
exact: tol_ge0.
Qed.

(* Whenever it stops, the returned vector is the best one reachable: it is the
   start plus a vector of the search space of that many iterations, and no other
   vector of that space gives a smaller energy. *)
Theorem C64_optimal x b x' it :
  cg_solve S maxIters tol relTol x b = (x', it) ->
  krylov A P M b x it (x' - x) /\
  (forall v, krylov A P M b x it v -> energy A b x' <= energy A b (x + v)).
Proof.
move=> /solve_run [h1 -> hz _]; split; first exact: run_in.
move=> v kv.
have -> : x + v = sx S x b it + (v - (sx S x b it - x)).
  by rewrite opprB [RHS]addrCA (addrC (sx S x b it)) subrK addrC.
have sv := run_krylov spd hz kv.
have sv2 := run_krylov spd hz (run_in S x b it).
have s : in_span (sp S x b) it (v - (sx S x b it - x)).
  by rewrite -scaleN1r; apply: span_D => //; apply: span_Z.
apply: (energy_min spd); last by rewrite -sr_residual; exact: (run_orth spd hz s).
have [c ->] := s.
apply: (@free_sum T n S it (fun j => c j *: sp S x b j)) => j.
by apply: free_Z; apply: free_p; exact: PM spd.
Qed.

(* So no iteration makes the energy worse. *)
Theorem C64_energy x b x' it :
  cg_solve S maxIters tol relTol x b = (x', it) -> energy A b x' <= energy A b x.
Proof.
move=> /C64_optimal [_ h]; have := h 0 (krylov_0 _ _ _ _).
by rewrite addr0; apply.
Qed.
End Spd.

(* With tolerance 0 the solver solves the system of the free dofs exactly, and
   the result has the least energy among all the vectors with these fixed dofs. *)
Theorem C64_exact maxIters (relTol : T) x b x' it :
  spd_system A P M -> 0 <= relTol -> (\rank P <= maxIters)%N ->
  cg_solve S maxIters 0 relTol x b = (x', it) ->
  P *m (A *m x') = P *m b /\
  (forall y, free P (y - x) -> energy A b x' <= energy A b y).
Proof.
move=> spd rel0 hm e.
have [_ h] := C64_converges spd (lexx 0) rel0 hm e.
have [h1 ex hz _] := solve_run (lexx 0) rel0 e.
have z0 : sz S x b it = 0.
  apply/eqP; apply/negPn/negP => nz.
  have : 0 < rnorm b x' by rewrite ex -st_norm snE sqrtr_gt0; exact: (z_pos spd).
  rewrite ltNge; move/negP; apply; apply: le_trans h _.
  by rewrite le_minl lexx orbT.
have r0 : residual A P b x' = 0 by rewrite ex -sr_residual; exact: (z_eq0 spd).
split.
  by move: r0; rewrite /residual mulmxBr => /eqP; rewrite subr_eq0 => /eqP.
move=> y fy.
have fx : free P (x' - x) by apply: C64_fixed_dofs e; case: spd => _ _ _ _ [].
have -> : y = x' + (y - x - (x' - x)).
  by rewrite opprB (addrA (y - x)) subrK addrC subrK.
apply: (energy_min spd); last by rewrite r0 dot0l.
by rewrite /free mulmxBr fy fx.
Qed.

(* Without constraints: the solution of the system. *)
Theorem C64_solves maxIters (relTol : T) x b x' it :
  P = 1%:M -> symmetric A -> symmetric M ->
  (forall v, v <> 0 -> 0 < dot v (A *m v)) -> (forall v, v <> 0 -> 0 < dot v (M *m v)) ->
  0 <= relTol -> (n <= maxIters)%N ->
  cg_solve S maxIters 0 relTol x b = (x', it) ->
  A *m x' = b.
Proof.
move=> p1 sA sM pA pM rel0 hm e.
have spd : spd_system A P M.
  rewrite p1; split=> //; first by split; rewrite /symmetric ?trmx1 ?mul1mx.
  - by move=> v _; exact: pA.
  - by split; [move=> v _; exact: pM | rewrite mul1mx].
have hr : (\rank P <= maxIters)%N by rewrite p1 mxrank1.
by have [] := C64_exact spd rel0 hr e; rewrite p1 !mul1mx.
Qed.
End Props.

Print Assumptions C64_residual.
Print Assumptions C64_fixed_dofs.
Print Assumptions C64_converges.
Print Assumptions C64_optimal.
Print Assumptions C64_energy.
Print Assumptions C64_exact.
Print Assumptions C64_solves.

(* two coupled dofs, the second one fixed *)
Definition demo_A (T : rcfType) : 'M[T]_2 := \matrix_(i, j) (if i == j then 2%:R else 1).
Definition demo_P (T : rcfType) : 'M[T]_2 := delta_mx 0 0.
Definition demo (T : rcfType) : system T 2 := System (demo_A T) (demo_P T) (demo_P T).

Example C64_nonvacuous (T : rcfType) :
  spd_system (demo_A T) (demo_P T) (demo_P T) /\ \rank (demo_P T) = 1%N.
Proof.
have pP : projection (demo_P T).
  by split; rewrite /symmetric /demo_P ?trmx_delta // mul_delta_mx.
have fr : forall v : 'cV[T]_2, free (demo_P T) v -> v <> 0 -> v 1 0 = 0 /\ 0 < v 0 0 * v 0 0.
  move=> v fv nz.
  have v1 : v 1 0 = 0.
    by rewrite -fv mxE big_ord_recl big_ord1 !mxE /= !mul0r addr0.
  split=> //; rewrite -expr2 lt_def sqr_ge0 andbT sqrf_eq0; apply/eqP => v0.
  apply: nz; apply/colP => i; rewrite mxE.
  case: i => [[|[|//]] hi]; [rewrite -[RHS]v0 | rewrite -[RHS]v1]; congr (v _ _); exact: val_inj.
split; last by rewrite /demo_P mxrank_delta.
split=> //.
- by apply/matrixP => i j; rewrite !mxE eq_sym.
- move=> v fv nz; have [v1 v0] := fr v fv nz.
  rewrite /dot big_ord_recl big_ord1 !mxE !big_ord_recl !big_ord0 !mxE /=.
  have -> : lift ord0 ord0 = 1 :> 'I_2 by exact: val_inj.
  rewrite v1 mul0r !mulr0 !addr0 mulrCA mulr_gt0 // ?ltr0n //.
- by case: pP.
- split; last by case: pP.
  move=> v fv nz; have [v1 v0] := fr v fv nz.
  rewrite fv /dot big_ord_recl big_ord1.
  have -> : lift ord0 ord0 = 1 :> 'I_2 by exact: val_inj.
  by rewrite v1 mul0r addr0.
Qed.
