(* Broad phase of the continuous collision detection. *)
From mathcomp Require Import all_ssreflect all_algebra.
From Coq Require Import Field.
From Verif Require Import FieldTac NraTac MatModel DistModel AlsModel DistSpec AlsSpec DistProofs2 AlsProofs AlsProofs2 AlsProofs4.
Set Implicit Arguments.
Unset Strict Implicit.
Unset Printing Implicit Defensive.
Import Order.TTheory GRing.Theory Num.Theory.
Local Open Scope ring_scope.

Section Near.
Variable T : realFieldType.
Let F : fieldType := [fieldType of T].
Add Field ffd : (cfield F).
Ltac fld := to_fld F; field.
Ltac lra := flra_ T.
Notation vec := (nat -> T).
Lemma near_coord n (x y : vec) (e : T) i : (i < n)%N -> 0 <= e -> dist2 n x y <= e ^+ 2 ->
  x i - e <= y i /\ y i <= x i + e.
Proof.
move=> il e0 h; have := le_trans (dist2_coord x y il) h; move/(sqr_le e0)/andP=> [a b]; split; lra.
Qed.
Lemma tri_corner (a b c : vec) : [/\ on_tri a b c (tri_at a b c 0 0), on_tri a b c (tri_at a b c 1 0) & on_tri a b c (tri_at a b c 0 1)].
Proof.
have o1 : (1 : T) <= 1 + 0 by rewrite addr0.
by split; [exists 0, 0|exists 1, 0|exists 0, 1]; split=> //; rewrite ?ler01 ?addr0 ?add0r ?ler01.
Qed.
Lemma tri_cornerE (a b c : vec) i :
  [/\ tri_at a b c 0 0 i = a i, tri_at a b c 1 0 i = b i & tri_at a b c 0 1 i = c i].
Proof. rewrite /tri_at; split; by fld. Qed.
Lemma seg_end (a b : vec) : on_seg a b (seg_at a b 0) /\ on_seg a b (seg_at a b 1).
Proof. by split; eexists; split; [|reflexivity| |reflexivity]; rewrite ?lexx ?ler01. Qed.
Lemma seg_endE (a b : vec) i : seg_at a b 0 i = a i /\ seg_at a b 1 i = b i.
Proof. rewrite /seg_at; split; by fld. Qed.
Lemma at0 (a v : vec) i : at_time a v 0 i = a i.
Proof. rewrite /at_time; by fld. Qed.
End Near.

Section Phase.
Variable T : rcfType.
Notation vec := (nat -> T).
Notation box := (vec * vec)%type.
Definition cov (b : box) i (x : T) : Prop := b.1 i <= x <= b.2 i.
Lemma cov_old n (b : box) p i x : (i < n)%N -> cov b i x -> cov (merge n b p) i x.
Proof.
move=> il /andP[h k]; have [_ w _] := merge_ok n b p; have [w1 w2] := w i il.
by apply/andP; split; [apply: le_trans w1 h|apply: le_trans k w2].
Qed.
Lemma cov_new n (b : box) p i : (i < n)%N -> cov (merge n b p) i (p i).
Proof. by move=> il; have [h _ _] := merge_ok n b p; exact: h. Qed.
Lemma cov_bb (a b : vec) i : cov (get_bounding_box a b) i (a i) /\ cov (get_bounding_box a b) i (b i).
Proof. by have [h k _ _] := bounding_boxP a b i. Qed.
Lemma cov_move (b : box) i (x v : vec) tau toc : 0 <= tau <= toc ->
  cov b i (x i) -> cov b i (moved toc x v i) -> cov b i (at_time x v tau i).
Proof. exact: move_between. Qed.
Lemma overlaps_cov n (a b : box) e :
  (forall i, (i < n)%N -> exists x y, [/\ cov a i x, cov b i y, x - e <= y & y <= x + e]) ->
  overlaps n (fun i => a.1 i - e, fun i => a.2 i + e) b.
Proof.
move=> h; apply/allP => i; rewrite mem_iota add0n => /andP[_ il].
have [x [y [/andP[a1 a2] /andP[b1 b2] c1 c2]]] := h i il.
rewrite negb_or -!leNgt /=; apply/andP; split.
  by apply: le_trans b1 _; apply: le_trans c2 _; rewrite ler_add2r.
by apply: le_trans _ b2; apply: le_trans _ c1; rewrite ler_add2r.
Qed.
Lemma low_new n (b : box) p i (P : T -> Prop) : (i < n)%N -> P (b.1 i) -> P (p i) -> P ((merge n b p).1 i).
Proof. by move=> il h k; have [-> _] := mergeE b p il; have [_ [_ []]] := zminP (b.1 i) (p i) => ->. Qed.
Lemma high_new n (b : box) p i (P : T -> Prop) : (i < n)%N -> P (b.2 i) -> P (p i) -> P ((merge n b p).2 i).
Proof. by move=> il h k; have [_ ->] := mergeE b p il; have [_ [_ []]] := zmaxP (b.2 i) (p i) => ->. Qed.
Lemma bb_new (a b : vec) i (P : T -> Prop) : P (a i) -> P (b i) ->
  P ((get_bounding_box a b).1 i) /\ P ((get_bounding_box a b).2 i).
Proof. by move=> h k; have [_ _ [] -> [] ->] := bounding_boxP a b i. Qed.

Lemma pt_found n (p t0 t1 t2 dp dt0 dt1 dt2 : vec) (dist toc tau : T) (x : vec) :
  0 <= tau <= toc -> 0 <= dist ->
  on_tri (at_time t0 dt0 tau) (at_time t1 dt1 tau) (at_time t2 dt2 tau) x ->
  dist2 n (at_time p dp tau) x <= dist ^+ 2 ->
  pt_ccd_broadphase n p t0 t1 t2 dp dt0 dt1 dt2 dist toc.
Proof.
move=> tt e0 [s [t [s0 tt0 st ->]]] near; apply: overlaps_cov => i il.
exists (at_time p dp tau i), (tri_at (at_time t0 dt0 tau) (at_time t1 dt1 tau) (at_time t2 dt2 tau) s t i).
have [n1 n2] := near_coord il e0 near.
split=> //.
  by have [c1 c2] := cov_bb p (moved toc p dp) i; apply: (cov_move tt).
have [c1 c2] := cov_bb t0 (moved toc t0 dt0) i.
apply: tri_between => //; apply: (cov_move tt).
all: try by do !apply: cov_old.
all: by repeat (first [exact: cov_new|apply: cov_old]).
Qed.
Lemma ee_found n (ea0 ea1 eb0 eb1 dea0 dea1 deb0 deb1 : vec) (dist toc tau : T) (x y : vec) :
  0 <= tau <= toc -> 0 <= dist ->
  on_seg (at_time ea0 dea0 tau) (at_time ea1 dea1 tau) x ->
  on_seg (at_time eb0 deb0 tau) (at_time eb1 deb1 tau) y ->
  dist2 n x y <= dist ^+ 2 ->
  ee_ccd_broadphase n ea0 ea1 eb0 eb1 dea0 dea1 deb0 deb1 dist toc.
Proof.
move=> tt e0 [s [s0 ->]] [t [t0 ->]] near; apply: overlaps_cov => i il.
have [n1 n2] := near_coord il e0 near.
exists (seg_at (at_time ea0 dea0 tau) (at_time ea1 dea1 tau) s i),
  (seg_at (at_time eb0 deb0 tau) (at_time eb1 deb1 tau) t i).
have [c1 c2] := cov_bb ea0 (moved toc ea0 dea0) i.
have [c3 c4] := cov_bb eb0 (moved toc eb0 deb0) i.
split=> //; apply: seg_between => //; apply: (cov_move tt).
all: try by do !apply: cov_old.
all: by repeat (first [exact: cov_new|apply: cov_old]).
Qed.

(* separation along an axis *)
Lemma reject_up n (a b : box) e i : (i < n)%N -> a.2 i + e < b.1 i ->
  overlaps n (fun i => a.1 i - e, fun i => a.2 i + e) b = false.
Proof. by move=> il h; apply/negP => /allP/(_ i); rewrite mem_iota il => /(_ isT) /=; rewrite h. Qed.
Lemma reject_down n (a b : box) e i : (i < n)%N -> b.2 i + e < a.1 i ->
  overlaps n (fun i => a.1 i - e, fun i => a.2 i + e) b = false.
Proof. by move=> il h; apply/negP => /allP/(_ i); rewrite mem_iota il => /(_ isT) /=; rewrite ltr_subr_addr h orbT. Qed.
Lemma swept_pt_ends toc (p v : vec) : 0 <= toc -> swept_pt toc p v (at_time p v 0) /\ swept_pt toc p v (moved toc p v).
Proof. by move=> h; split; [exists 0|exists toc]; rewrite lexx h. Qed.

Section Tri.
Variables (n : nat) (p t0 t1 t2 dp dt0 dt1 dt2 : vec) (dist toc : T) (i : nat).
Hypotheses (il : (i < n)%N) (tc : 0 <= toc).
Lemma tri_points (P : T -> Prop) : (forall y, swept_tri toc t0 t1 t2 dt0 dt1 dt2 y -> P (y i)) ->
  [/\ P (t0 i), P (moved toc t0 dt0 i), P (t1 i), P (moved toc t1 dt1 i) & P (t2 i) /\ P (moved toc t2 dt2 i)].
Proof.
move=> h.
have k tau : 0 <= tau <= toc -> [/\ P (at_time t0 dt0 tau i), P (at_time t1 dt1 tau i) & P (at_time t2 dt2 tau i)].
  move=> tt; set a := at_time t0 dt0 tau; set b := at_time t1 dt1 tau; set c := at_time t2 dt2 tau.
  have [a1 a2 a3] := tri_corner a b c; have [e1 e2 e3] := tri_cornerE a b c i.
  by split; [rewrite -e1|rewrite -e2|rewrite -e3]; apply: h; exists tau.
have [|z0 z1 z2] := k 0; first by rewrite lexx.
have [|y0 y1 y2] := k toc; first by rewrite lexx tc.
by rewrite !at0 in z0 z1 z2.
Qed.
Lemma pt_points (P : T -> Prop) : (forall x, swept_pt toc p dp x -> P (x i)) -> P (p i) /\ P (moved toc p dp i).
Proof. by move=> h; have [a b] := swept_pt_ends p dp tc; split; [rewrite -(at0 p dp); apply: h|apply: h]. Qed.
Lemma pt_rejected :
  below i dist (swept_pt toc p dp) (swept_tri toc t0 t1 t2 dt0 dt1 dt2) \/
  below i dist (swept_tri toc t0 t1 t2 dt0 dt1 dt2) (swept_pt toc p dp) ->
  pt_ccd_broadphase n p t0 t1 t2 dp dt0 dt1 dt2 dist toc = false.
Proof.
case=> h; [apply: (reject_up il)|apply: (reject_down il)].
  pose P1 (u : T) := forall y, swept_tri toc t0 t1 t2 dt0 dt1 dt2 y -> u + dist < y i.
  have [u1 u2] : P1 (p i) /\ P1 (moved toc p dp i) by apply: pt_points => x sx y sy; exact: h.
  have [_ u] := bb_new u1 u2.
  have [z0 z1 z2 z3 [z4 z5]] := tri_points (P := fun v => _ + dist < v) u.
  by do !apply: (low_new (P := fun v => _ + dist < v)) => //; have [] := bb_new (P := fun v => _ + dist < v) z0 z1.
pose P1 (u : T) := forall y, swept_tri toc t0 t1 t2 dt0 dt1 dt2 y -> y i + dist < u.
have [u1 u2] : P1 (p i) /\ P1 (moved toc p dp i) by apply: pt_points => x sx y sy; exact: h.
have [u _] := bb_new u1 u2.
have [z0 z1 z2 z3 [z4 z5]] := tri_points (P := fun v => v + dist < _) u.
by do !apply: (high_new (P := fun v => v + dist < _)) => //; have [] := bb_new (P := fun v => v + dist < _) z0 z1.
Qed.
End Tri.
Section Seg.
Variables (n : nat) (i : nat) (toc dist : T).
Hypotheses (il : (i < n)%N) (tc : 0 <= toc).
Lemma seg_points (a b va vb : vec) (P : T -> Prop) : (forall y, swept_seg toc a b va vb y -> P (y i)) ->
  [/\ P (a i), P (moved toc a va i), P (b i) & P (moved toc b vb i)].
Proof.
move=> h.
have k tau : 0 <= tau <= toc -> P (at_time a va tau i) /\ P (at_time b vb tau i).
  move=> tt; have [a1 a2] := seg_end (at_time a va tau) (at_time b vb tau).
  have [e1 e2] := seg_endE (at_time a va tau) (at_time b vb tau) i.
  by split; [rewrite -e1|rewrite -e2]; apply: h; exists tau.
have [|z0 z1] := k 0; first by rewrite lexx.
have [|y0 y1] := k toc; first by rewrite lexx tc.
by rewrite !at0 in z0 z1.
Qed.
Lemma ee_rejected (ea0 ea1 eb0 eb1 dea0 dea1 deb0 deb1 : vec) :
  below i dist (swept_seg toc ea0 ea1 dea0 dea1) (swept_seg toc eb0 eb1 deb0 deb1) \/
  below i dist (swept_seg toc eb0 eb1 deb0 deb1) (swept_seg toc ea0 ea1 dea0 dea1) ->
  ee_ccd_broadphase n ea0 ea1 eb0 eb1 dea0 dea1 deb0 deb1 dist toc = false.
Proof.
case=> h; [apply: (reject_up il)|apply: (reject_down il)].
  pose P1 (u : T) := forall y, swept_seg toc eb0 eb1 deb0 deb1 y -> u + dist < y i.
  have [a0 a1 a2 a3] := seg_points (P := P1) (fun x sx y sy => h x y sx sy).
  have u : P1 ((merge n (merge n (get_bounding_box ea0 (moved toc ea0 dea0)) ea1) (moved toc ea1 dea1)).2 i).
    by do !apply: (high_new (P := P1)) => //; have [] := bb_new (P := P1) a0 a1.
  have [z0 z1 z2 z3] := seg_points (P := fun v => _ + dist < v) u.
  by do !apply: (low_new (P := fun v => _ + dist < v)) => //; have [] := bb_new (P := fun v => _ + dist < v) z0 z1.
pose P1 (u : T) := forall y, swept_seg toc eb0 eb1 deb0 deb1 y -> y i + dist < u.
have [a0 a1 a2 a3] := seg_points (P := P1) (fun x sx y sy => h y x sy sx).
have u : P1 ((merge n (merge n (get_bounding_box ea0 (moved toc ea0 dea0)) ea1) (moved toc ea1 dea1)).1 i).
  by do !apply: (low_new (P := P1)) => //; have [] := bb_new (P := P1) a0 a1.
have [z0 z1 z2 z3] := seg_points (P := fun v => v + dist < _) u.
by do !apply: (high_new (P := fun v => v + dist < _)) => //; have [] := bb_new (P := fun v => v + dist < _) z0 z1.
Qed.
End Seg.
End Phase.
