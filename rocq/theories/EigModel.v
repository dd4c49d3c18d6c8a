(* Eigendecompositions of symmetric matrices and the projection to positive
   semi-definite matrices.
   math/matrix/Eigen.hpp; math/VecInterface.hpp (orthogonal).

   As in SvdModel: matrices are accessors, element types abstract real closed
   fields, so rounding is not modelled and square roots are exact. *)
From mathcomp Require Import all_ssreflect all_algebra.
From Verif Require Import MatModel RotModel SvdModel.
Import GRing.Theory Num.Theory Order.Theory.
Set Implicit Arguments.
Unset Strict Implicit.
Unset Printing Implicit Defensive.
Local Open Scope ring_scope.

(* assignment to an entry of an array of indices or flags *)
Definition aset (A : Type) (v : nat -> A) (i : nat) (x : A) : nat -> A :=
  fun a => if a == i then x else v a.
(* for (i = a; i < b; ++i) f *)
Definition range (S : Type) (a b : nat) (f : nat -> S -> S) (s : S) : S :=
  foldl (fun s i => f i s) s (iota a (b - a)).

Section Eig.
Variable T : rcfType.
Notation vec := (nat -> T).
Notation mat := (nat -> nat -> T).

(* VecInterface.hpp 551-563: orthogonal of a vector with two entries *)
Definition orthogonal2 (v : vec) : vec :=
  normalized 2 (vset (vset (@vnew T) 0 (- v 1%N)) 1 (v 0%N)).
(* VecInterface.hpp 564-588: orthogonal of a vector with three entries; not
   normalised *)
Definition orthogonal3 (v : vec) : vec :=
  let x := abs (v 0%N) in
  let y := abs (v 1%N) in
  let z := abs (v 2%N) in
  let r := if x < y then (if x < z then vset (@vnew T) 0 1 else vset (@vnew T) 2 1)
           else (if y < z then vset (@vnew T) 1 1 else vset (@vnew T) 2 1) in
  cross3 v r.

(* VecInterface.hpp 590-598 and 513-520: M.abs().max() of an m x m matrix, the
   entries taken row by row *)
Definition maxabs (m : nat) (M : mat) : T :=
  loop m (fun i r => loop m (fun j r => max_ r (abs (M i j))) r) (abs (M 0%N 0%N)).

(* Eigen.hpp 20-77: eigen_decomposition of a 2 x 2 matrix.  [scaledMat] has the
   element type of M: [store] is what an assignment to one of its entries does
   to the value, the identity for floating point matrices, truncation for
   integers. *)
Definition eigen2 (store : T -> T) (eps : T) (M : mat) : vec * mat :=
  let shift := (M 0%N 0%N + M 1%N 1%N) / 2%:R in
  let S := mset M 0 1 (M 1%N 0%N) in
  let S := mset S 0 0 (store (S 0%N 0%N - shift)) in
  let S := mset S 1 1 (store (S 1%N 1%N - shift)) in
  let scale := maxabs 2 S in
  let S := if 0 < scale then fun i j => store (S i j / scale) else S in
  let t0 := 1 / 2%:R * Num.sqrt ((S 0%N 0%N - S 1%N 1%N) ^+ 2 + 4%:R * (S 1%N 0%N) ^+ 2) in
  let t1 := 1 / 2%:R * (S 0%N 0%N + S 1%N 1%N) in
  let e0 := t1 - t0 in
  let e1 := t1 + t0 in
  let E :=
    if e1 - e0 <= abs e1 * eps then @identity T
    else
      let S := mset S 0 0 (store (S 0%N 0%N - e1)) in
      let S := mset S 1 1 (store (S 1%N 1%N - e1)) in
      let a2 := (S 0%N 0%N) ^+ 2 in
      let c2 := (S 1%N 1%N) ^+ 2 in
      let b2 := (S 1%N 0%N) ^+ 2 in
      let E := if c2 < a2 then
          let coeff := Num.sqrt (a2 + b2) in
          mset (mset (@mnew T) 0 1 (- S 1%N 0%N / coeff)) 1 1 (S 0%N 0%N / coeff)
        else
          let coeff := Num.sqrt (c2 + b2) in
          mset (mset (@mnew T) 0 1 (- S 1%N 1%N / coeff)) 1 1 (S 1%N 0%N / coeff) in
      let c0 := orthogonal2 (fun i => E i 1%N) in
      mset (mset E 0 0 (c0 0%N)) 1 0 (c0 1%N) in
  (vset (vset (@vnew T) 0 (e0 * scale + shift)) 1 (e1 * scale + shift), E).

(* ---- Eigen.hpp 221-312: Jacobi's method, for sizes other than 2 and 3 ---- *)

(* the variables S, e, E, ind, changed, state *)
Record jac := Jac { jS : mat; je : vec; jE : mat; jind : nat -> nat; jch : nat -> bool; jst : nat }.

(* how the function may end: with a result; with a read outside the matrix;
   with a division by zero *)
Inductive jres := JDone (e : vec) (E : mat) | JOutside | JDivZero.

(* Eigen.hpp 250-256: maxind *)
Definition maxind (n : nat) (S : mat) (k : nat) : nat :=
  range k.+2 n (fun i m => if abs (S k m) < abs (S k i) then i else m) k.+1.
(* Eigen.hpp 257-267: update; the variable y is not used afterwards *)
Definition jupdate (k : nat) (t : T) (j : jac) : jac :=
  let y := je j k in
  let e := vset (je j) k (y + t) in
  if jch j k && (y == e k) then Jac (jS j) e (jE j) (jind j) (aset (jch j) k false) (jst j).-1
  else if ~~ jch j k && (y != e k) then Jac (jS j) e (jE j) (jind j) (aset (jch j) k true) (jst j).+1
  else Jac (jS j) e (jE j) (jind j) (jch j) (jst j).
(* Eigen.hpp 268-273: rotate *)
Definition jrotate (k l i j : nat) (s c : T) (S : mat) : mat :=
  let Skl := S k l in
  let Sij := S i j in
  mset (mset S k l (c * Skl - s * Sij)) i j (s * Skl + c * Sij).
(* Eigen.hpp 243-245: max_S *)
Definition jmax (n : nat) (M : mat) : T :=
  loop n (fun i r => loop n (fun j r => max_ r (abs (M i j))) r) 0.
(* Eigen.hpp 240-249 and 274-278: the initial state *)
Definition jinit (n : nat) (M : mat) : jac :=
  loop n (fun k j => Jac (jS j) (vset (je j) k (jS j k k)) (jE j)
                       (aset (jind j) k (maxind n (jS j) k)) (aset (jch j) k true) (jst j))
    (Jac M (@vnew T) (@identity T) (fun _ => 0%N) (fun _ => false) n).
(* Eigen.hpp 280-282: the row of the pivot *)
Definition jpivot (n : nat) (j : jac) : nat :=
  range 1 n.-1 (fun k m => if abs (jS j m (jind j m)) < abs (jS j k (jind j k)) then k else m) 0%N.
(* Eigen.hpp 297-309: one sweep over the pivot (k, l) *)
Definition jsweep (n : nat) (k l : nat) (s c t : T) (j : jac) : jac :=
  let j := Jac (mset (jS j) k l 0) (je j) (jE j) (jind j) (jch j) (jst j) in
  let j := jupdate k (- t) j in
  let j := jupdate l t j in
  let S := range 0 k (fun i S => jrotate i k i l s c S) (jS j) in
  let S := range k.+1 l (fun i S => jrotate k i i l s c S) S in
  let S := range l.+1 n (fun i S => jrotate k i l i s c S) S in
  let E := loop n (fun i E =>
    let Eik := E i k in
    let Eil := E i l in
    mset (mset E i k (c * Eik - s * Eil)) i l (s * Eik + c * Eil)) (jE j) in
  let ind := aset (jind j) k (maxind n S k) in
  let ind := aset ind l (maxind n S l) in
  Jac S (je j) E ind (jch j) (jst j).
(* Eigen.hpp 279-310: the loop.  [tiny] is 1e-11, [None] means that the fuel
   did not suffice. *)
Fixpoint jloop (fuel n : nat) (tiny max_S : T) (j : jac) : option jres :=
  if jst j == 0%N then Some (JDone (je j) (jE j))
  else
    let k := jpivot n j in
    let l := jind j k in
    if (n <= l)%N then Some JOutside
    else
      let p := jS j k l in
      if abs p < max_S * tiny then Some (JDone (je j) (jE j))
      else
        let y := (je j l - je j k) / 2%:R in
        let d := abs y + Num.sqrt (p * p + y * y) in
        let r := Num.sqrt (p * p + d * d) in
        if (d == 0) || (r == 0) then Some JDivZero
        else
          let c := d / r in
          let s := p / r in
          let t := p * p / d in
          let s' := if y < 0 then - s else s in
          let t' := if y < 0 then - t else t in
          match fuel with
          | 0%N => None
          | fuel.+1 => jloop fuel n tiny max_S (jsweep n k l s' c t' j)
          end.
Definition jacobi (fuel n : nat) (tiny : T) (M : mat) : option jres :=
  jloop fuel n tiny (jmax n M) (jinit n M).

(* Eigen.hpp 314-343: make_pd, after eigen_decomposition has returned *)
Definition rebuild (n : nat) (eps : T) (e : vec) (E : mat) : mat :=
  let e := loop n (fun i e => if e i < eps then vset e i 0 else e) e in
  loop n (fun i M => loop n (fun j M => loop n (fun k M =>
    mset M i k (M i k + E i j * e j * E k j)) M) M) (@mnew T).
Definition make_pd2 (eps : T) (M : mat) : mat :=
  let '(e, E) := eigen2 id eps M in rebuild 2 eps e E.
Definition make_pdn (fuel n : nat) (tiny eps : T) (M : mat) : option mat :=
  match jacobi fuel n tiny M with
  | Some (JDone e E) => Some (rebuild n eps e E)
  | _ => None
  end.
End Eig.
