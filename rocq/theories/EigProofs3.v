(* Proofs about Jacobi's method: one sweep. *)
From mathcomp Require Import all_ssreflect all_algebra zify.
From Coq Require Import Field.
From Verif Require Import FieldTac MatModel MatSpec MatProofs MatProofs2 RotModel RotSpec RotProofs SvdModel SvdSpec SvdProofs SvdProofs2 SvdProofs4 SvdProofs5 EigModel EigSpec EigProofs EigProofs2.
Set Implicit Arguments.
Unset Strict Implicit.
Unset Printing Implicit Defensive.
Import GRing.Theory Num.Theory Order.Theory.
Local Open Scope ring_scope.

Lemma range_ind (A : Type) (P : nat -> A -> Prop) a b f (s : A) :
  (a <= b)%N -> P a s -> (forall i s, (a <= i < b)%N -> P i s -> P i.+1 (f i s)) -> P b (range a b f s).
Proof.
move=> ab h0 hs; rewrite /range.
have h : forall m, (a + m <= b)%N -> P (a + m)%N (foldl (fun s i => f i s) s (iota a m)).
  elim=> [|m IH] le; first by rewrite addn0.
  rewrite -addn1 iotaD foldl_cat /= addnA addn1; apply: hs.
    by rewrite leq_addr /= -addnS.
  by apply: IH; apply: leq_trans le; rewrite leq_add2l.
by have := h (b - a)%N; rewrite subnKC //; apply.
Qed.
Lemma range_nil (A : Type) a b f (s : A) : (b <= a)%N -> range a b f s = s.
Proof. by rewrite /range -subn_eq0 => /eqP ->. Qed.

(* case distinctions on index comparisons; impossible cases go away at once *)
Ltac conds :=
  repeat match goal with |- context [if ?b then _ else _] =>
    lazymatch b with
    | context [if _ then _ else _] => fail
    | _ => let h := fresh "h" in case h : b; try by (exfalso; lia)
    end end.
Ltac eqs :=
  repeat match goal with
  | h : (_ && _) = true |- _ => let h1 := fresh "h" in move: h => /andP[h h1]
  | h : is_true (_ && _) |- _ => let h1 := fresh "h" in move: h => /andP[h h1]
  | h : (?x == ?y) = true |- _ => move/eqP: h => h; subst
  | h : is_true (?x == ?y) |- _ => move/eqP: h => h; subst
  end.
Section Sweep.
Variable T : rcfType.
Let F : fieldType := [fieldType of T].
Add Field ff : (cfield F).
Ltac fld := to_fld F; field; try exact (@two_neq0 T).
Notation mat := (nat -> nat -> T).
Notation vec := (nat -> T).
Implicit Types (S M : mat) (j : jac T).

Lemma r1 k l (s c : T) S a b : (k < l)%N ->
  range 0 k (fun i S => jrotate i k i l s c S) S a b =
  if (a < k)%N && (b == k) then c * S a k - s * S a l
  else if (a < k)%N && (b == l) then s * S a k + c * S a l else S a b.
Proof.
move=> kl.
apply: (range_ind (P := fun m r => forall a b, r a b =
  if (a < m)%N && (b == k) then c * S a k - s * S a l
  else if (a < m)%N && (b == l) then s * S a k + c * S a l else S a b)) => //.
by move=> i r ik IH x y; rewrite /jrotate /mset !IH; conds; eqs.
Qed.
Lemma r2 k l (s c : T) S a b : (k < l)%N ->
  range k.+1 l (fun i S => jrotate k i i l s c S) S a b =
  if (a == k) && (k < b < l)%N then c * S k b - s * S b l
  else if (k < a < l)%N && (b == l) then s * S k a + c * S a l else S a b.
Proof.
move=> kl.
apply: (range_ind (P := fun m r => forall a b, r a b =
  if (a == k) && (k < b < m)%N then c * S k b - s * S b l
  else if (k < a < m)%N && (b == l) then s * S k a + c * S a l else S a b)) => //.
  by move=> x y; conds.
by move=> i r ik IH x y; rewrite /jrotate /mset !IH; conds; eqs.
Qed.
Lemma r3 n k l (s c : T) S a b : (k < l)%N -> (l < n)%N ->
  range l.+1 n (fun i S => jrotate k i l i s c S) S a b =
  if (a == k) && (l < b < n)%N then c * S k b - s * S l b
  else if (a == l) && (l < b < n)%N then s * S k b + c * S l b else S a b.
Proof.
move=> kl ln.
apply: (range_ind (P := fun m r => forall a b, r a b =
  if (a == k) && (l < b < m)%N then c * S k b - s * S l b
  else if (a == l) && (l < b < m)%N then s * S k b + c * S l b else S a b)) => //.
  by move=> x y; conds.
by move=> i r ik IH x y; rewrite /jrotate /mset !IH; conds; eqs.
Qed.

(* the symmetric matrix held in e and the upper triangle of S *)
Definition symD (e : vec) S : mat := fun a b => if a == b then e a else if (a < b)%N then S a b else S b a.

Definition sweepS n k l (s c : T) S : mat :=
  range l.+1 n (fun i S => jrotate k i l i s c S)
    (range k.+1 l (fun i S => jrotate k i i l s c S)
      (range 0 k (fun i S => jrotate i k i l s c S) (mset S k l 0))).
Definition sweepe k l (t : T) (e : vec) : vec := fun a => if a == k then e k - t else if a == l then e l + t else e a.

Lemma sweepS_ok n k l (s c : T) S a b : (k < l)%N -> (l < n)%N -> (a < b)%N -> (b < n)%N ->
  sweepS n k l s c S a b =
  if (a == k) && (b == l) then 0
  else if b == k then c * S a k - s * S a l
  else if b == l then (if (a < k)%N then s * S a k + c * S a l else s * S k a + c * S a l)
  else if a == k then (if (b < l)%N then c * S k b - s * S b l else c * S k b - s * S l b)
  else if a == l then s * S k b + c * S l b
  else S a b.
Proof.
move=> kl ln ab bn; rewrite /sweepS r3 // !r2 // !r1 // /mset.
by conds; eqs.
Qed.

Lemma sweep_rot n k l (s c t : T) e S (p := S k l) a b : (k < l)%N -> (l < n)%N ->
  c * (c * e k - s * p) - s * (c * p - s * e l) = e k - t ->
  s * (s * e k + c * p) + c * (s * p + c * e l) = e l + t ->
  s * (c * e k - s * p) + c * (c * p - s * e l) = 0 ->
  (a < n)%N -> (b < n)%N ->
  symD (sweepe k l t e) (sweepS n k l s c S) a b
  = columnRotation n (Giv k l c s) (rowRotation n (Giv k l c s) (symD e S)) a b.
Proof.
move=> kl ln; rewrite {}/p => h1 h2 h3 an bn.
have h3' : c * (s * e k + c * S k l) - s * (s * S k l + c * e l) = 0 by rewrite -h3; fld.
have ne : k != l by rewrite (ltn_eqF kl).
have kn : (k < n)%N by apply: ltn_trans ln.
rewrite columnRotationE //= !rowRotationE //= /symD /sweepe.
case: (ltngtP a b) => [ab|ab|ab].
- rewrite sweepS_ok //; conds; eqs => //; rewrite -?h3' -?h3; by fld.
- rewrite sweepS_ok //; conds; eqs => //; rewrite -?h3' -?h3; by fld.
- by subst b; conds; eqs => //; rewrite -?h1 -?h2; fld.
Qed.

(* the three equations *)
Lemma rot_eqs (ek el p : T) (y := (el - ek) / 2%:R) (d := `|y| + Num.sqrt (p * p + y * y)) (r := Num.sqrt (p * p + d * d))
    (s := if y < 0 then - (p / r) else p / r) (c := d / r) (t := if y < 0 then - (p * p / d) else p * p / d) : p != 0 ->
  [/\ [/\ d != 0, r != 0 & c * c + s * s = 1],
      c * (c * ek - s * p) - s * (c * p - s * el) = ek - t,
      s * (s * ek + c * p) + c * (s * p + c * el) = el + t,
      s * (c * ek - s * p) + c * (c * p - s * el) = 0
    & (ek - t) ^+ 2 + (el + t) ^+ 2 = ek ^+ 2 + el ^+ 2 + 2%:R * p ^+ 2 /\ t != 0].
Proof.
move=> p0.
have pp : 0 < p * p by rewrite -expr2 lt_def sqrf_eq0 p0 sqr_ge0.
have yy : 0 <= y * y by rewrite -expr2 sqr_ge0.
set w := Num.sqrt (p * p + y * y).
have ww : w * w = p * p + y * y by rewrite -expr2 sqr_sqrtr // addr_ge0 // ltW.
have w0 : 0 < w by rewrite sqrtr_gt0 ltr_paddr.
have d0 : 0 < d by rewrite /d -/w ltr_paddl // normr_ge0.
have dd : 0 < d * d by rewrite mulr_gt0.
have rr : r * r = p * p + d * d by rewrite -expr2 sqr_sqrtr // addr_ge0 // ltW.
have r0 : 0 < r by rewrite sqrtr_gt0 addr_gt0.
have dn : d <> 0 by apply/eqP; rewrite gt_eqF.
have rn : r <> 0 by apply/eqP; rewrite gt_eqF.
(* z = |y|, sg its sign *)
have [sg [sg2 yE sE tE]] : exists sg, [/\ sg * sg = 1, y = sg * `|y|, s = sg * (p / r) & t = sg * (p * p / d)].
  rewrite /s /t; case: (ltP y 0) => h.
    by exists (-1); rewrite mulrNN mulr1 !mulN1r ltr0_norm // opprK.
  by exists 1; rewrite !mul1r ger0_norm.
move: (normr_ge0 y) yE (erefl d); rewrite {2}/d -/w; set z := `|y| => z0 yE dE.
have zz : z * z = y * y by rewrite yE mulrACA sg2 mul1r.
have d2 : d * d = p * p + 2%:R * z * d.
  transitivity (w * w + z * z + 2%:R * z * w); first by rewrite dE; fld.
  by rewrite ww -zz dE; fld.
have elE : el = ek + 2%:R * sg * z.
  rewrite -mulrA -yE /y; fld.
have rr2 : r * r = 2%:R * (w * d).
  rewrite rr d2 dE; transitivity (2%:R * (p * p + z * z + z * w)); first by fld.
  by rewrite zz -ww; fld.
have wd : p * p + d * d = 2%:R * (w * d) by rewrite -rr.
have cc : c * c + s * s = 1.
  rewrite sE /c; transitivity ((d * d + sg * sg * (p * p)) / (r * r)); first by fld.
  by rewrite sg2 mul1r addrC -rr divff // mulf_neq0 //; apply/eqP.
have s2 : s * s = p * p / (r * r).
  rewrite sE; transitivity (sg * sg * (p * p / (r * r))); first by fld.
  by rewrite sg2 mul1r.
have cs : c * s = sg * (p * d / (r * r)) by rewrite sE /c; fld.
have sg1 : c * s * p - s * s * (sg * z) = t / 2%:R.
  rewrite cs s2 tE; transitivity (sg * (p * p) * (d - z) / (r * r)); first by fld.
  have -> : d - z = w by rewrite dE addrC addKr.
  rewrite rr2; have wn : w <> 0 by apply/eqP; rewrite gt_eqF.
  by fld; repeat split; try exact: two_neq0.
have ht : 2%:R * (c * s * p - s * s * (sg * z)) = t by rewrite sg1 mulrCA divff ?pnatr_eq0 ?mulr1.
have cE : c * c = 1 - s * s by rewrite -cc addrK.
split.
- by split=> //; apply/eqP.
- rewrite -ht; transitivity (c * c * ek - 2%:R * (c * s * p) + s * s * el); first by fld.
  by rewrite cE elE; fld.
- rewrite -ht; transitivity (s * s * ek + 2%:R * (c * s * p) + c * c * el); first by fld.
  by rewrite cE elE; fld.
- transitivity (c * s * (ek - el) + (c * c - s * s) * p); first by fld.
  rewrite cs s2 elE /c; transitivity (p / (r * r) * (d * d - p * p - 2%:R * (sg * sg) * z * d)); first by fld.
  by rewrite sg2 d2; fld.
- split; last by rewrite tE mulf_neq0 //; [apply/eqP => z'; move: sg2; rewrite z' mul0r => /eqP; rewrite eq_sym oner_eq0
    | rewrite mulf_neq0 ?mulf_neq0 ?invr_eq0 //; apply/eqP].
  transitivity (ek ^+ 2 + el ^+ 2 + 2%:R * (t * t + t * (el - ek))); first by fld.
  congr (_ + _ * _); rewrite elE tE.
  transitivity (sg * sg * (p * p) * (p * p + 2%:R * z * d) / (d * d)); first by fld.
  by rewrite sg2 mul1r -d2 mulfK ?expr2 // mulf_neq0 //; apply/eqP.
Qed.
End Sweep.
