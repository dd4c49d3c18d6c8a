(* Rays against triangles and boxes. *)
From mathcomp Require Import all_ssreflect all_algebra.
From Coq Require Import Field.
From Verif Require Import FieldTac NraTac MatModel DistModel AlsModel DistSpec AlsSpec DistProofs2 DistProofs6.
Set Implicit Arguments.
Unset Strict Implicit.
Unset Printing Implicit Defensive.
Import Order.TTheory GRing.Theory Num.Theory.
Local Open Scope ring_scope.

Section Tri.
Variable T : realFieldType.
Let F : fieldType := [fieldType of T].
Add Field ffd : (cfield F).
Ltac fld := to_fld F; field.
Ltac nra := fnra_ T.
Ltac lra := flra_ T.
Notation vec := (nat -> T).
(* a vector of the plane of u and v in terms of u and v *)
Lemma plane_coords (u v w : vec) i : (i < 3)%N ->
  let uu := sdot 3 u u in let uv := sdot 3 u v in let vv := sdot 3 v v in
  let wu := sdot 3 w u in let wv := sdot 3 w v in
  (uv * uv - uu * vv) * w i = (uv * wv - vv * wu) * u i + (uv * wu - uu * wv) * v i
    - sdot 3 (cross3 u v) w * cross3 u v i.
Proof. case: i => [|[|[|//]]] _ /=; rewrite !sdot3 /cross3 /vset /=; by fld. Qed.
Lemma cross_norm (u v : vec) : sdot 3 u v * sdot 3 u v - sdot 3 u u * sdot 3 v v
  = - sdot 3 (cross3 u v) (cross3 u v).
Proof. rewrite !sdot3 /cross3 /vset /=; by fld. Qed.
Lemma cross_comb (u v w : vec) s t : (forall i, (i < 3)%N -> w i = s * u i + t * v i) ->
  [/\ sdot 3 (cross3 u v) w = 0,
   sdot 3 u v * sdot 3 w v - sdot 3 v v * sdot 3 w u = s * (sdot 3 u v * sdot 3 u v - sdot 3 u u * sdot 3 v v) &
   sdot 3 u v * sdot 3 w u - sdot 3 u u * sdot 3 w v = t * (sdot 3 u v * sdot 3 u v - sdot 3 u u * sdot 3 v v)].
Proof.
move=> h; rewrite !sdot3 !h // /cross3 /vset /=.
by split; fld.
Qed.
End Tri.

Section Ray.
Variable T : rcfType.
Let F : fieldType := [fieldType of T].
Add Field ffd2 : (cfield F).
Ltac fld := to_fld F; field.
Notation vec := (nat -> T).
Section One.
Variables (eps : T) (ro rd v0 v1 v2 : vec).
Let u := vsub v1 v0.
Let v := vsub v2 v0.
Let nn := cross3 u v.
Hypothesis e0 : 0 <= eps.
Let b := sdot 3 nn rd.
Lemma nn_pos : eps < `|b| -> b <> 0 /\ sdot 3 u v * sdot 3 u v - sdot 3 u u * sdot 3 v v <> 0.
Proof.
move=> h.
have bn : b <> 0 by move=> z; rewrite z normr0 ltNge e0 in h.
split=> // z; apply: bn; rewrite cross_norm in z; move/eqP: z; rewrite oppr_eq0 => /eqP z.
by have k := sdot_eq0 z; rewrite /b sdot3 /nn !k // !mul0r !addr0.
Qed.
Lemma ray_tri_sound r : ray_tri_intersect eps ro rd v0 v1 v2 = Some r ->
  exists s t, [/\ - eps <= s, s <= 1 + eps, - eps <= t, s + t <= 1 + eps * 2%:R &
    forall i, (i < 3)%N -> on_ray ro rd r i = tri_at v0 v1 v2 s t i].
Proof.
rewrite /ray_tri_intersect !dotE -/u -/v -/nn -/b; case: ifP => // /nn_pos[bn dn].
set w := vsub _ v0; set d := _ - sdot 3 u u * _ in dn *.
case: ifP => // /and4P[h1 h2 h3 h4] [e].
eexists _, _; split; [exact: h1|exact: h2|exact: h3|exact: h4|].
move=> i il; have := plane_coords u v w il; cbv zeta; rewrite -/nn.
have -> : sdot 3 nn w = 0.
  have -> : sdot 3 nn w = - sdot 3 nn (vsub v0 ro) + sdot 3 nn (vsub v0 ro) / b * b.
    rewrite /b !sdot3 /w /vsub /vadd /vscale /b sdot3; move: bn; rewrite /b sdot3 => bn; by fld.
  by rewrite divfK ?addNr //; apply/eqP.
rewrite mul0r subr0 -/d => k.
have {k} : w i = (sdot 3 u v * sdot 3 w v - sdot 3 v v * sdot 3 w u) * (1 / d) * u i
      + (sdot 3 u v * sdot 3 w u - sdot 3 u u * sdot 3 w v) * (1 / d) * v i.
  have dn' : d != 0 by apply/eqP.
  by apply: (mulfI dn'); rewrite k; fld.
set s := _ * (1 / d); set t := _ * (1 / d); rewrite {1}/w /vsub /vadd /vscale e => k.
rewrite /on_ray /tri_at.
have -> : ro i + r * rd i = v0 i + (ro i + r * rd i - v0 i) by fld.
by rewrite k /u /v /vsub; fld.
Qed.
Lemma ray_tri_complete r s t : eps < `|b| -> 0 <= s -> 0 <= t -> s + t <= 1 ->
  (forall i, (i < 3)%N -> on_ray ro rd r i = tri_at v0 v1 v2 s t i) ->
  ray_tri_intersect eps ro rd v0 v1 v2 = Some r.
Proof.
move=> big s0 t0 st hit; have [bn dn] := nn_pos big.
rewrite /ray_tri_intersect !dotE -/u -/v -/nn -/b big.
have hw i : (i < 3)%N -> vsub (vadd ro (vscale r rd)) v0 i = s * u i + t * v i.
  move=> il; have := hit i il; rewrite /on_ray /tri_at /vsub /vadd /vscale => ->; rewrite /u /v /vsub; by fld.
have [z es et] := cross_comb hw.
have er : sdot 3 nn (vsub v0 ro) / b = r.
  have -> : sdot 3 nn (vsub v0 ro) = r * b - sdot 3 nn (vsub (vadd ro (vscale r rd)) v0).
    rewrite /b !sdot3 /vsub /vadd /vscale; by fld.
  by rewrite z subr0 mulfK //; apply/eqP.
rewrite er es et mul1r !mulfK; try by apply/eqP.
have -> : - eps <= s by rewrite (le_trans _ s0) // oppr_le0.
have -> : - eps <= t by rewrite (le_trans _ t0) // oppr_le0.
have s1 : s <= s + t by rewrite ler_addl.
have -> : s <= 1 + eps by rewrite (le_trans s1) // (le_trans st) // ler_addl.
by have -> : s + t <= 1 + eps * 2%:R by rewrite (le_trans st) // ler_addl mulr_ge0 // ler0n.
Qed.
End One.
End Ray.

Section Box.
Variable T : realFieldType.
Lemma slab_pos (mi ma ro rd t : T) : 0 < rd ->
  (mi <= ro + t * rd <= ma) = ((mi - ro) * rd^-1 <= t <= (ma - ro) * rd^-1).
Proof. by move=> p; rewrite ler_pdivr_mulr // ler_pdivl_mulr // ler_subl_addl ler_subr_addl. Qed.
Lemma slab_neg (mi ma ro rd t : T) : rd < 0 ->
  (mi <= ro + t * rd <= ma) = ((ma - ro) * rd^-1 <= t <= (mi - ro) * rd^-1).
Proof. by move=> p; rewrite ler_ndivr_mulr // ler_ndivl_mulr // ler_subl_addl ler_subr_addl andbC. Qed.
End Box.

Section RayBox.
Variable T : rcfType.
Ltac nra := fnra_ T.
Ltac lra := flra_ T.
Notation vec := (nat -> T).
(* the interval of an axis: finite, everything, or empty *)
Inductive axis : ext T -> ext T -> (T -> Prop) -> Prop :=
| AxA a b (P : T -> Prop) : a <= b -> (forall t, P t <-> a <= t <= b) -> axis (Fin a) (Fin b) P
| AxB (P : T -> Prop) : (forall t, P t) -> axis (NInf T) (PInf T) P
| AxC (P : T -> Prop) : (forall t, ~ P t) -> axis (PInf T) (PInf T) P
| AxD (P : T -> Prop) : (forall t, ~ P t) -> axis (NInf T) (NInf T) P.
(* as well with NaN *)
Inductive axis' : ext T -> ext T -> (T -> Prop) -> Prop :=
| AxF lo hi P : axis lo hi P -> axis' lo hi P
| AxE lo hi (P : T -> Prop) : lo = NInf T \/ lo = NaN T -> hi = PInf T \/ hi = NaN T ->
   (forall t, P t) -> axis' lo hi P.
Definition finite (x : ext T) : bool := if x is Fin _ then true else false.
Definition test (lo hi : nat -> ext T) : bool :=
  let tmin := lo 0%N in
  let tmax := hi 0%N in
  let tymin := lo 1%N in
  let tymax := hi 1%N in
  if elt tymax tmin || elt tmax tymin then false else
  let tmin := if elt tmin tymin then tymin else tmin in
  let tmax := if elt tymax tmax then tymax else tmax in
  let tzmin := lo 2%N in
  let tzmax := hi 2%N in
  if elt tzmax tmin || elt tmax tzmin then false else
  let tmax := if elt tzmax tmax then tzmax else tmax in
  ege0 tmax.
Lemma testP lo hi (P0 P1 P2 : T -> Prop) :
  axis (lo 0%N) (hi 0%N) P0 -> axis' (lo 1%N) (hi 1%N) P1 -> axis' (lo 2%N) (hi 2%N) P2 ->
  finite (lo 0%N) || finite (lo 1%N) || finite (lo 2%N) ->
  test lo hi <-> exists t, [/\ 0 <= t, P0 t, P1 t & P2 t].
Proof.
rewrite /test.
move: (lo 0%N) (lo 1%N) (lo 2%N) (hi 0%N) (hi 1%N) (hi 2%N) => l0 l1 l2 h0 h1 h2.
move=> a0 a1 a2.
inversion a0 as [x0 y0 Q0 c0 q0|Q0 q0|Q0 q0|Q0 q0]; subst=> {a0};
(inversion a1 as [lo1 hi1 Q1 a1'|lo1 hi1 Q1 e1 e1' q1]; subst=> {a1};
  [inversion a1' as [x1 y1 Q1' c1 q1|Q1' q1|Q1' q1|Q1' q1]; subst=> {a1'}
  |case: e1 => ->; case: e1' => ->]);
(inversion a2 as [lo2 hi2 Q2 a2'|lo2 hi2 Q2 e2 e2' q2]; subst=> {a2};
  [inversion a2' as [x2 y2 Q2' c2 q2|Q2' q2|Q2' q2|Q2' q2]; subst=> {a2'}
  |case: e2 => ->; case: e2' => ->]); move=> //= _.
all: repeat match goal with |- context [if ?x < ?y then _ else _] => case: (ltrP x y) => ? /= end.
all: repeat match goal with |- context [(?x < ?y) || _] => case: (ltrP x y) => ? /= end.
all: repeat match goal with |- context [if ?x < ?y then _ else _] => case: (ltrP x y) => ? /= end.
all: try (by split=> // -[t [t0 p0 p1 p2]]; first [case: (q0 t p0)|case: (q1 t p1)|case: (q2 t p2)]).
all: split.
all: try (move=> g; match type of g with is_true (0 <= ?y) => exists y end; split=> //;
  first [exact: q0|exact: q1|exact: q2|apply/q0|apply/q1|apply/q2]; by apply/andP; split=> //; lra).
all: try discriminate.
all: try (move=> [t [t0 p0 p1 p2]];
  try (match type of q0 with forall t, _ <-> _ => case/q0/andP: p0 => ? ? | _ => clear q0 end);
  try (match type of q1 with forall t, _ <-> _ => case/q1/andP: p1 => ? ? | _ => clear q1 end);
  try (match type of q2 with forall t, _ <-> _ => case/q2/andP: p2 => ? ? | _ => clear q2 end);
  exfalso + idtac; lra).
Qed.

(* the interval of an axis *)
Lemma axis_ok (mi ma ro rd : T) (neg : bool) : mi <= ma -> (rd = 0 -> ro <> mi /\ ro <> ma) ->
  let invd := einv rd neg in
  let s := elt invd (Fin 0) in
  axis (emul ((if s then ma else mi) - ro) invd) (emul ((if s then mi else ma) - ro) invd)
    (fun t => mi <= ro + t * rd <= ma).
Proof.
move=> ok nf; rewrite /einv; case: eqP => [z|/eqP nz].
  have [n1 n2] := nf z.
  case: (ltrgtP ro mi) => c1; last by case: n1.
    have p1 : 0 < mi - ro by rewrite subr_gt0.
    have p2 : 0 < ma - ro by rewrite subr_gt0 (lt_le_trans c1).
    by case: neg; rewrite /= ?p1 ?p2; constructor => t; rewrite z mulr0 addr0 leNgt c1.
  have p1 : mi - ro < 0 by rewrite subr_lt0.
  case: (ltrgtP ro ma) => c2; last by case: n2.
    have p2 : 0 < ma - ro by rewrite subr_gt0.
    by case: neg; rewrite /= p1 p2 (lt_gtF p1); constructor => t; rewrite z mulr0 addr0 !ltW.
  have p2 : ma - ro < 0 by rewrite subr_lt0.
  by case: neg; rewrite /= ?p1 ?p2 (lt_gtF p1) (lt_gtF p2); constructor => t; rewrite z mulr0 addr0 andbC leNgt c2.
rewrite /= invr_lt0; case: ltrP => c.
  by constructor=> [|t]; [rewrite ler_nmul2r ?invr_lt0 // ler_add2r|rewrite -slab_neg].
have {}c : 0 < rd by rewrite lt_neqAle eq_sym nz.
by constructor=> [|t]; [rewrite ler_pmul2r ?invr_gt0 // ler_add2r|rewrite -slab_pos].
Qed.
Lemma axis_ok' (mi ma ro rd : T) (neg : bool) : mi <= ma ->
  let invd := einv rd neg in
  let s := elt invd (Fin 0) in
  axis' (emul ((if s then ma else mi) - ro) invd) (emul ((if s then mi else ma) - ro) invd)
    (fun t => mi <= ro + t * rd <= ma).
Proof.
move=> ok; case: (eqVneq rd 0) => [z|nz]; last by apply/AxF/axis_ok => // z; rewrite z eqxx in nz.
have [e|n1] := eqVneq ro mi; last first.
  have [e|n2] := eqVneq ro ma; last by apply/AxF/axis_ok => // _; split; apply/eqP.
  have p : mi - ro < 0 by rewrite subr_lt0 lt_neqAle eq_sym n1 e.
  have q : ma - ro = 0 by rewrite e subrr.
  rewrite /einv z eqxx; case: neg => /=; rewrite q ltxx p (lt_gtF p); apply: AxE; auto;
    by move=> t; rewrite mulr0 addr0 e ok lexx.
rewrite /einv z eqxx e; case: ltrgtP ok => // c _.
  have p : 0 < ma - mi by rewrite subr_gt0.
  by case: neg => /=; rewrite subrr ltxx p; apply: AxE; auto; move=> t; rewrite mulr0 addr0 lexx ltW.
by case: neg => /=; rewrite -c subrr ltxx; apply: AxE; auto; move=> t; rewrite mulr0 addr0 lexx.
Qed.
Lemma ray_box_ok (ro rd : vec) neg (box : vec * vec) : box_ok 3 box ->
  (exists2 i, (i < 3)%N & rd i <> 0) -> (rd 0%N = 0 -> ro 0%N <> box.1 0%N /\ ro 0%N <> box.2 0%N) ->
  ray_box_intersect ro rd neg box <-> exists2 t, 0 <= t & in_box 3 box (on_ray ro rd t).
Proof.
move=> ok [i il ni] nf.
set invd := fun i => einv (rd i) (neg i).
set sign := fun i => elt (invd i) (Fin 0).
set lo := fun i => emul ((if sign i then box.2 else box.1) i - ro i) (invd i).
set hi := fun i => emul ((if sign i then box.1 else box.2) i - ro i) (invd i).
have -> : ray_box_intersect ro rd neg box = test lo hi by [].
have sw j (a b : vec) : (if sign j then a else b) j = if sign j then a j else b j by case: (sign j).
have h0 := axis_ok (neg 0%N) (ok 0%N isT) nf.
have h1 := axis_ok' (ro 1%N) (rd 1%N) (neg 1%N) (ok 1%N isT).
have h2 := axis_ok' (ro 2%N) (rd 2%N) (neg 2%N) (ok 2%N isT).
have fin j : rd j <> 0 -> finite (lo j).
  by move=> nz; rewrite /lo /invd /einv; case: eqP.
rewrite (@testP lo hi (fun t => box.1 0%N <= ro 0%N + t * rd 0%N <= box.2 0%N)
   (fun t => box.1 1%N <= ro 1%N + t * rd 1%N <= box.2 1%N)
   (fun t => box.1 2%N <= ro 2%N + t * rd 2%N <= box.2 2%N)).
- split=> [[t [t0 a b c]]|[t t0 h]]; exists t => //.
    by case=> [|[|[|]]].
  by split=> //; [exact: (h 0%N)|exact: (h 1%N)|exact: (h 2%N)].
- by rewrite /lo /hi !sw.
- by rewrite /lo /hi !sw.
- by rewrite /lo /hi !sw.
by move: il (fin i ni); clear; case: i => [|[|[|//]]] _ ->; rewrite ?orbT.
Qed.
End RayBox.
