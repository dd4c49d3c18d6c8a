(** * C110: the bounding box of a level set *)
From mathcomp Require Import all_ssreflect all_algebra.
From Verif Require Import LwModel LbModel LbProofs.
Import Order.TTheory GRing.Theory Num.Theory.
Set Implicit Arguments.
Unset Strict Implicit.
Local Open Scope ring_scope.

Section Props.
Variable F : realFieldType.
Variable n : nat.

(** The position of every index between _min and _max lies in the box, however the level set is turned,
    stretched or moved. *)
Theorem C110_box top bot c (p : place F n) (lo hi X : 'rV[F]_n) d : (forall j, lo 0 j <= X 0 j <= hi 0 j) ->
  (getBoundingBox top bot c p lo hi).1 0 d <= indexToWorld c p X 0 d <= (getBoundingBox top bot c p lo hi).2 0 d.
Proof.
move=> H. have [l L] := corner_low c p d H. have [h U] := corner_high c p d H.
rewrite /getBoundingBox. apply/andP; split.
- have /andP [A _] := fold_in (const_mx top, const_mx bot) d (corner_mem c p lo hi l). exact: le_trans A L.
- have /andP [_ B] := fold_in (const_mx top, const_mx bot) d (corner_mem c p lo hi h). exact: le_trans U B.
Qed.

(** It is the smallest such box, when positions are below the largest and above the lowest number: each of
    its bounds is that of the position of an index between _min and _max. *)
Theorem C110_box_tight top bot c (p : place F n) (lo hi : 'rV[F]_n) d : (forall j, lo 0 j <= hi 0 j) ->
  (forall X : 'rV[F]_n, (forall j, lo 0 j <= X 0 j <= hi 0 j) -> bot <= indexToWorld c p X 0 d <= top) ->
  (exists2 X : 'rV[F]_n, (forall j, lo 0 j <= X 0 j <= hi 0 j) &
     (getBoundingBox top bot c p lo hi).1 0 d = indexToWorld c p X 0 d) /\
  (exists2 X : 'rV[F]_n, (forall j, lo 0 j <= X 0 j <= hi 0 j) &
     (getBoundingBox top bot c p lo hi).2 0 d = indexToWorld c p X 0 d).
Proof.
move=> L T.
have C loc j : lo 0 j <= corner lo hi loc 0 j <= hi 0 j.
  rewrite !mxE. case: (loc j); rewrite ?mul1r ?mul0r ?addr0 ?lexx ?L //.
  by rewrite [lo 0 j + _]addrC subrK L lexx.
have LL j : lo 0 j <= lo 0 j <= hi 0 j by rewrite lexx L.
have /andP [A B] := C110_box top bot c p d LL. have /andP [T1 T2] := T lo LL.
split.
- case: (fold_is1 [seq indexToWorld c p (corner lo hi l) | l <- enum {ffun 'I_n -> bool}] (const_mx top, const_mx bot) d).
  + move=> E. exists lo => //. move: A. rewrite /getBoundingBox E mxE => A. by apply/le_anti; rewrite A T2.
  + by move=> [x /mapP [loc _ ->] E]; exists (corner lo hi loc).
- case: (fold_is2 [seq indexToWorld c p (corner lo hi l) | l <- enum {ffun 'I_n -> bool}] (const_mx top, const_mx bot) d).
  + move=> E. exists lo => //. move: B. rewrite /getBoundingBox E mxE => B. by apply/le_anti; rewrite B T1.
  + by move=> [x /mapP [loc _ ->] E]; exists (corner lo hi loc).
Qed.
End Props.
Print Assumptions C110_box.
Print Assumptions C110_box_tight.

(** A shifted level set of cell size 2 with indices from 0 to 3: positions stay between -100 and 100. *)
Example C110_ex_box (X : 'rV[rat]_2) d :
  let p := translate (@construct rat_fieldType 2 2%:Q) (const_mx 5%:Q) in
  (forall j, 0 <= X 0 j <= 3%:Q) -> -100%:Q <= indexToWorld false p X 0 d <= 100%:Q.
Proof.
move=> p /(_ d) /andP [A B].
rewrite /indexToWorld /p /= scalemx1 invmx_scalar invrK trmx1 mulmx1 add0r mul_mx_scalar !mxE.
apply/andP; split.
- by apply: (@le_trans _ _ 0) => //; apply: addr_ge0 => //; apply: mulr_ge0.
- by apply: (@le_trans _ _ (2%:Q * 3%:Q + 5%:Q)) => //; rewrite ler_add2r ler_pmul2l.
Qed.
