(** Adaptive orientation predicates: geometry/Predicates.hpp (init_exact, the
    error-free transforms, fast_expansion_sum_zeroelim, orient2d with orient2dadapt, the first stage of orient3d).

    The code is written over any floating-point arithmetic [fops]; the theorems are
    about [dbl]: binary64 with gradual underflow and rounding to nearest even.
    SIMPLIFICATIONS: no overflow, infinities, NaN and signed zero; the later
    stages of orient3d (orient3dadapt) are not modelled. *)
From Coq Require Import Reals.
From Flocq Require Import Core.
From Verif Require Import Prelude.
Open Scope Z_scope.

(** the floating-point operations used by Predicates.hpp *)
Record fops (T : Type) := mkF {
  fadd : T -> T -> T; fsub : T -> T -> T; fmul : T -> T -> T; fopp : T -> T;
  fgt : T -> T -> bool; fge : T -> T -> bool; feq : T -> T -> bool;
  lit : Z -> T; half : T }.
Arguments fadd {T}. Arguments fsub {T}. Arguments fmul {T}. Arguments fopp {T}.
Arguments fgt {T}. Arguments fge {T}. Arguments feq {T}. Arguments lit {T}. Arguments half {T}.

Section Code.
Context {T : Type} (o : fops T).
Notation "a ⊕ b" := (fadd o a b) (at level 50, left associativity).
Notation "a ⊖ b" := (fsub o a b) (at level 50, left associativity).
Notation "a ⊗ b" := (fmul o a b) (at level 40, left associativity).
Notation "0f" := (lit o 0).

(** init_exact, lines 124-140: the do-while loop; None: still running *)
Fixpoint init_loop (fuel : nat) (check : T) (every_other : bool) (epsilon splitter : T) : option (T * T) :=
  match fuel with
  | O => None
  | S fuel' =>
    let lastcheck := check in
    let epsilon := epsilon ⊗ half o in
    let splitter := if every_other then splitter ⊗ lit o 2 else splitter in
    let check := lit o 1 ⊕ epsilon in
    if negb (feq o check (lit o 1)) && negb (feq o check lastcheck)
    then init_loop fuel' check (negb every_other) epsilon splitter
    else Some (epsilon, splitter ⊕ lit o 1)
  end.
Definition init_exact (fuel : nat) : option (T * T) := init_loop fuel (lit o 1) true (lit o 1) (lit o 1).

Section Consts.
Variables epsilon splitter : T.     (* g_epsilon, g_splitter: lines 193-194 *)
(** lines 142-151 *)
Definition resulterrbound := (lit o 3 ⊕ lit o 8 ⊗ epsilon) ⊗ epsilon.
Definition ccwerrboundA := (lit o 3 ⊕ lit o 16 ⊗ epsilon) ⊗ epsilon.
Definition ccwerrboundB := (lit o 2 ⊕ lit o 12 ⊗ epsilon) ⊗ epsilon.
Definition ccwerrboundC := (lit o 9 ⊕ lit o 64 ⊗ epsilon) ⊗ epsilon ⊗ epsilon.
Definition o3derrboundA := (lit o 7 ⊕ lit o 56 ⊗ epsilon) ⊗ epsilon.

(** line 209 *)
Definition absolute (a : T) : T := if fge o a 0f then a else fopp o a.
(** lines 211-221 *)
Definition two_diff_tail (a b x : T) : T :=
  let bvirt := a ⊖ x in
  let avirt := x ⊕ bvirt in
  let bround := bvirt ⊖ b in
  let around := a ⊖ avirt in
  around ⊕ bround.
Definition two_diff (a b : T) : T * T := let x := a ⊖ b in (x, two_diff_tail a b x).
(** lines 224-234 *)
Definition two_sum_tail (a b x : T) : T :=
  let bvirt := x ⊖ a in
  let avirt := x ⊖ bvirt in
  let bround := b ⊖ bvirt in
  let around := a ⊖ avirt in
  around ⊕ bround.
Definition two_sum (a b : T) : T * T := let x := a ⊕ b in (x, two_sum_tail a b x).
(** lines 235-242 *)
Definition fast_two_sum_tail (a b x : T) : T := let bvirt := x ⊖ a in b ⊖ bvirt.
Definition fast_two_sum (a b : T) : T * T := let x := a ⊕ b in (x, fast_two_sum_tail a b x).
(** lines 245-250 *)
Definition split (a : T) : T * T :=
  let c := splitter ⊗ a in
  let abig := c ⊖ a in
  let ahi := c ⊖ abig in
  (ahi, a ⊖ ahi).
(** lines 251-264 *)
Definition two_product_tail (a b x : T) : T :=
  let '(ahi, alo) := split a in
  let '(bhi, blo) := split b in
  let err1 := x ⊖ (ahi ⊗ bhi) in
  let err2 := err1 ⊖ (alo ⊗ bhi) in
  let err3 := err2 ⊖ (ahi ⊗ blo) in
  alo ⊗ blo ⊖ err3.
Definition two_product (a b : T) : T * T := let x := a ⊗ b in (x, two_product_tail a b x).
(** lines 273-278 *)
Definition two_one_diff (a1 a0 b : T) : T * T * T :=
  let '(i, x0) := two_diff a0 b in
  let '(x2, x1) := two_sum a1 i in
  (x2, x1, x0).
(** lines 309-314; the components in increasing order of their index *)
Definition two_two_diff (a1 a0 b1 b0 : T) : list T :=
  let '(j, z, x0) := two_one_diff a1 a0 b0 in
  let '(x3, x2, x1) := two_one_diff j z b1 in
  [x0; x1; x2; x3].
(** lines 324-333 *)
Definition estimate (e : list T) : T :=
  match e with [] => 0f | x :: r => fold_left (fun Q x => Q ⊕ x) r x end.

(** h[hindex++] = hh if hh != 0 *)
Definition emit (h : list T) (hh : T) : list T := if feq o hh 0f then h else h ++ [hh].
(** lines 383-386, 465-468: the last component *)
Definition finish (Q : T) (h : list T) : list T := if negb (feq o Q 0f) || match h with [] => true | _ => false end then h ++ [Q] else h.

(** fast_expansion_sum_zeroelim, lines 399-470.  Elements beyond the end of e or
    f, which the code reads, are [junk]; [bad] records such a read. *)
Section Merge.
Variables (e f : list T) (junk : T).
Record mst := mkM { mQ : T; mei : nat; mfi : nat; men : T; mfn : T; mh : list T; bad : bool }.
Definition rd (l : list T) (i : nat) : T := nth i l junk.
Definition oob (l : list T) (i : nat) : bool := Nat.leb (length l) i.
Definition pick_e (en fn : T) : bool := Bool.eqb (fgt o fn en) (fgt o fn (fopp o en)).
(** add the current component of e (or f) to Q by [sum2], write the roundoff *)
Definition take (fast : bool) (fromE : bool) (s : mst) : mst :=
  if fromE then
    let '(Qnew, hh) := if fast then fast_two_sum (men s) (mQ s) else two_sum (mQ s) (men s) in
    mkM Qnew (S (mei s)) (mfi s) (rd e (S (mei s))) (mfn s) (emit (mh s) hh) (bad s || oob e (S (mei s)))
  else
    let '(Qnew, hh) := if fast then fast_two_sum (mfn s) (mQ s) else two_sum (mQ s) (mfn s) in
    mkM Qnew (mei s) (S (mfi s)) (men s) (rd f (S (mfi s))) (emit (mh s) hh) (bad s || oob f (S (mfi s))).
Definition hasE (s : mst) : bool := Nat.ltb (mei s) (length e).
Definition hasF (s : mst) : bool := Nat.ltb (mfi s) (length f).
(** lines 409-420 *)
Definition start : mst :=
  let en := rd e 0 in
  let fn := rd f 0 in
  let b := oob e 0 || oob f 0 in
  if pick_e en fn then mkM en 1 0 (rd e 1) fn [] (b || oob e 1)
  else mkM fn 0 1 en (rd f 1) [] (b || oob f 1).
(** the three loops, lines 432-464 *)
Fixpoint loop_both (fuel : nat) (s : mst) : mst :=
  match fuel with
  | O => s
  | S n => if hasE s && hasF s then loop_both n (take false (pick_e (men s) (mfn s)) s) else s
  end.
Fixpoint loop_e (fuel : nat) (s : mst) : mst :=
  match fuel with O => s | S n => if hasE s then loop_e n (take false true s) else s end.
Fixpoint loop_f (fuel : nat) (s : mst) : mst :=
  match fuel with O => s | S n => if hasF s then loop_f n (take false false s) else s end.
Definition merge_fuel : nat := length e + length f.
Definition fast_expansion_sum_state : mst :=
  let s := start in
  let s := if hasE s && hasF s then loop_both merge_fuel (take true (pick_e (men s) (mfn s)) s) else s in
  loop_f merge_fuel (loop_e merge_fuel s).
Definition fast_expansion_sum : list T := let s := fast_expansion_sum_state in finish (mQ s) (mh s).
End Merge.

(** the arguments of orient2d (Predicates.hpp 560-592) *)
Record pt2 := mkP2 { p0 : T; p1 : T }.
(** where orient2d returned, and its value *)
Inductive outcome := Filter (det : T) | EstimateB (det : T) | NoTails (det : T) | EstimateC (det : T) | Exact (D : list T).
Definition value (r : outcome) : T :=
  match r with
  | Filter d | EstimateB d | NoTails d | EstimateC d => d
  | Exact D => last D 0f
  end.
(** orient2dadapt, lines 492-558 *)
Definition orient2dadapt (junk : T) (pa pb pc : pt2) (detsum : T) : outcome :=
  let acx := p0 pa ⊖ p0 pc in
  let bcx := p0 pb ⊖ p0 pc in
  let acy := p1 pa ⊖ p1 pc in
  let bcy := p1 pb ⊖ p1 pc in
  let '(detleft, detlefttail) := two_product acx bcy in
  let '(detright, detrighttail) := two_product acy bcx in
  let B := two_two_diff detleft detlefttail detright detrighttail in
  let det := estimate B in
  let errbound := ccwerrboundB ⊗ detsum in
  if fge o det errbound || fge o (fopp o det) errbound then EstimateB det
  else
    let acxtail := two_diff_tail (p0 pa) (p0 pc) acx in
    let bcxtail := two_diff_tail (p0 pb) (p0 pc) bcx in
    let acytail := two_diff_tail (p1 pa) (p1 pc) acy in
    let bcytail := two_diff_tail (p1 pb) (p1 pc) bcy in
    if feq o acxtail 0f && feq o acytail 0f && feq o bcxtail 0f && feq o bcytail 0f then NoTails det
    else
      let errbound := ccwerrboundC ⊗ detsum ⊕ resulterrbound ⊗ absolute det in
      let det := det ⊕ ((acx ⊗ bcytail ⊕ bcy ⊗ acxtail) ⊖ (acy ⊗ bcxtail ⊕ bcx ⊗ acytail)) in
      if fge o det errbound || fge o (fopp o det) errbound then EstimateC det
      else
        let '(s1, s0) := two_product acxtail bcy in
        let '(t1, t0) := two_product acytail bcx in
        let u := two_two_diff s1 s0 t1 t0 in
        let C1 := fast_expansion_sum B u junk in
        let '(s1, s0) := two_product acx bcytail in
        let '(t1, t0) := two_product acy bcxtail in
        let u := two_two_diff s1 s0 t1 t0 in
        let C2 := fast_expansion_sum C1 u junk in
        let '(s1, s0) := two_product acxtail bcytail in
        let '(t1, t0) := two_product acytail bcxtail in
        let u := two_two_diff s1 s0 t1 t0 in
        Exact (fast_expansion_sum C2 u junk).
(** orient2d, lines 560-592 *)
Definition orient2d (junk : T) (pa pb pc : pt2) : outcome :=
  let detleft := (p0 pa ⊖ p0 pc) ⊗ (p1 pb ⊖ p1 pc) in
  let detright := (p1 pa ⊖ p1 pc) ⊗ (p0 pb ⊖ p0 pc) in
  let det := detleft ⊖ detright in
  let filter detsum :=
    let errbound := ccwerrboundA ⊗ detsum in
    if fge o det errbound || fge o (fopp o det) errbound then Filter det else orient2dadapt junk pa pb pc detsum in
  if fgt o detleft 0f then
    if fge o 0f detright then Filter det else filter (detleft ⊕ detright)
  else if fgt o 0f detleft then
    if fge o detright 0f then Filter det else filter (fopp o detleft ⊖ detright)
  else Filter det.

(** the arguments of orient3d (Predicates.hpp) *)
Record pt3 := mkP3 { q0 : T; q1 : T; q2 : T }.
(** orient3d, lines 1029-1065: the first stage; None: orient3dadapt is called *)
Definition orient3d_filter (pa pb pc pd : pt3) : option T :=
  let adx := q0 pa ⊖ q0 pd in
  let bdx := q0 pb ⊖ q0 pd in
  let cdx := q0 pc ⊖ q0 pd in
  let ady := q1 pa ⊖ q1 pd in
  let bdy := q1 pb ⊖ q1 pd in
  let cdy := q1 pc ⊖ q1 pd in
  let adz := q2 pa ⊖ q2 pd in
  let bdz := q2 pb ⊖ q2 pd in
  let cdz := q2 pc ⊖ q2 pd in
  let bdxcdy := bdx ⊗ cdy in
  let cdxbdy := cdx ⊗ bdy in
  let cdxady := cdx ⊗ ady in
  let adxcdy := adx ⊗ cdy in
  let adxbdy := adx ⊗ bdy in
  let bdxady := bdx ⊗ ady in
  let det := adz ⊗ (bdxcdy ⊖ cdxbdy) ⊕ bdz ⊗ (cdxady ⊖ adxcdy) ⊕ cdz ⊗ (adxbdy ⊖ bdxady) in
  let permanent := (absolute bdxcdy ⊕ absolute cdxbdy) ⊗ absolute adz
                   ⊕ (absolute cdxady ⊕ absolute adxcdy) ⊗ absolute bdz
                   ⊕ (absolute adxbdy ⊕ absolute bdxady) ⊗ absolute cdz in
  let errbound := o3derrboundA ⊗ permanent in
  if fgt o det errbound || fgt o (fopp o det) errbound then Some det else None.
End Consts.
End Code.

(** ** binary64 *)
Definition rnd (x : R) : R := round radix2 (FLT_exp (-1074) 53) ZnearestE x.
Definition dbl : fops R :=
  mkF R (fun a b => rnd (a + b)) (fun a b => rnd (a - b)) (fun a b => rnd (a * b)) Ropp
      (fun a b => Rlt_bool b a) (fun a b => Rle_bool b a) Req_bool IZR (/ 2)%R.
