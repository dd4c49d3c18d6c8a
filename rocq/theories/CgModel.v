(* Conjugate gradients and conjugate residuals.
   math/linear/ConjugateGradient.hpp, math/linear/ConjugateResidual.hpp,
   math/linear/LinearOperators.hpp.

   Element types are abstract real closed fields: rounding is not modelled.
   The system object A is given by the three linear maps it applies: multiply,
   project and precondition; they are matrices here.  Vectors of dofs are
   column vectors with numDofs entries; the views and execution policies are
   not modelled.  Printing and getchar() are left out. *)
From mathcomp Require Import all_ssreflect all_algebra.
Import GRing.Theory Num.Theory Order.Theory.
Set Implicit Arguments.
Unset Strict Implicit.
Unset Printing Implicit Defensive.
Local Open Scope ring_scope.

Section Solvers.
Variable T : rcfType.
Variable numDofs : nat.
Notation vec := 'cV[T]_numDofs.

(* LinearOperators.hpp 32-39, 41-72: LinearCombineOp(m), second factor 1, applied
   to every pair of entries *)
Definition linear_combine (m : T) (a b : vec) : vec := \col_i (m * a i 0 + 1 * b i 0).
(* LinearOperators.hpp 41-72 with minus *)
Definition minus (a b : vec) : vec := \col_i (a i 0 - b i 0).
(* ConjugateGradient.hpp 60-69 (ConjugateResidual.hpp 59-68): dotProduct, the products of the entries summed
   from 0 *)
Definition dotProduct (a b : vec) : T :=
  let dofSqr := \col_i (a i 0 * b i 0) in
  foldl (fun s i => s + dofSqr i 0) 0 (enum 'I_numDofs).

(* the system object *)
Record system := System {
  multiply : 'M[T]_numDofs;
  project : 'M[T]_numDofs;
  precondition : 'M[T]_numDofs }.
Variable A : system.

(* the variables of the loop *)
Record cg := Cg { cx : vec; cr : vec; cp : vec; cz : T; cnorm : T }.

(* ConjugateGradient.hpp 76-120: before the loop *)
Definition cg_init (xin b : vec) : cg :=
  let x := xin in
  let temp := multiply A *m x in
  let r := minus b temp in
  let r := project A *m r in
  let q := precondition A *m r in
  let p := q in
  let zTrk := dotProduct r q in
  Cg x r p zTrk (Num.sqrt zTrk).

(* ConjugateGradient.hpp 126-157: the body of the loop *)
Definition cg_step (s : cg) : cg :=
  let temp := multiply A *m cp s in
  let temp := project A *m temp in
  let alpha := cz s / dotProduct temp (cp s) in
  let x := linear_combine alpha (cp s) (cx s) in
  let r := linear_combine (- alpha) temp (cr s) in
  let q := precondition A *m r in
  let zTrkLast := cz s in
  let zTrk := dotProduct q r in
  let beta := zTrk / zTrkLast in
  let p := linear_combine beta (cp s) q in
  Cg x r p zTrk (Num.sqrt zTrk).

(* ConjugateGradient.hpp 122-125, 159: iterations left, iterations done *)
Fixpoint cg_loop (left iter : nat) (localTol : T) (s : cg) : cg * nat :=
  match left with
  | 0 => (s, iter)
  | left'.+1 =>
    if cnorm s <= localTol then (s, iter)
    else cg_loop left' iter.+1 localTol (cg_step s)
  end.

(* ConjugateGradient.hpp 71-162: solve; the result and the number of
   iterations *)
Definition cg_solve (maxIters : nat) (tol relTol : T) (xinout b : vec) : vec * nat :=
  let s := cg_init xinout b in
  let localTol := Num.min (relTol * cnorm s) tol in
  let sn := cg_loop maxIters 0 localTol s in
  (cx sn.1, sn.2).

(* ConjugateResidual.hpp 78-81: rr is the residual, r the preconditioned one,
   krAr is rArprev *)
Record cres := Cres { kx : vec; krr : vec; kr : vec; kp : vec; kAp : vec; krAr : T }.

(* ConjugateResidual.hpp 75-108: before the loop; rArprev is 0 *)
Definition cr_init (xin b : vec) : cres :=
  let x := xin in
  let Ap := multiply A *m x in
  let rr := minus b Ap in
  let rr := project A *m rr in
  let r := precondition A *m rr in
  let p := r in
  let Ap := multiply A *m r in
  Cres x rr r p Ap 0.

(* ConjugateResidual.hpp 122-146: the body after the test of the residual;
   None if the loop is left by one of the two breaks (x is unchanged then) *)
Definition cr_step (s : cres) : option cres :=
  let Ar := multiply A *m kr s in
  let Ar := project A *m Ar in
  let rAr := dotProduct (kr s) Ar in
  if rAr == 0 then None
  else
    let '(p, Ap) :=
      if krAr s != 0 then
        let beta := rAr / krAr s in
        (linear_combine beta (kp s) (kr s), linear_combine beta (kAp s) Ar)
      else (kp s, kAp s) in
    let MAp := precondition A *m Ap in
    let ApMAp := dotProduct MAp Ap in
    if ApMAp == 0 then None
    else
      let alpha := rAr / ApMAp in
      Some (Cres (linear_combine alpha p (kx s))
                 (linear_combine (- alpha) Ap (krr s))
                 (linear_combine (- alpha) MAp (kr s)) p Ap rAr).

(* ConjugateResidual.hpp 112-121, 147: the loop *)
Fixpoint cr_loop (left iter : nat) (tol : T) (s : cres) : cres * nat :=
  match left with
  | 0 => (s, iter)
  | left'.+1 =>
    if dotProduct (krr s) (krr s) <= tol then (s, iter)
    else match cr_step s with
         | None => (s, iter)
         | Some s' => cr_loop left' iter.+1 tol s'
         end
  end.

(* ConjugateResidual.hpp 70-151: solve; the result, the number of iterations
   and the new value of the member tol (110-111) *)
Definition cr_solve (maxIters : nat) (tol : T) (xinout b : vec) : vec * nat * T :=
  let s := cr_init xinout b in
  let cn0 := dotProduct b b in
  let tol := if tol * cn0 < tol then tol * cn0 else tol in
  let sn := cr_loop maxIters 0 tol s in
  (kx sn.1, sn.2, tol).
End Solvers.
