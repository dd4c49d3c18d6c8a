(* Axis and angle of a rotation matrix, yaw-pitch-roll angles, the rotation
   between two directions. *)
From mathcomp Require Import all_ssreflect all_algebra.
From Coq Require Import Field.
From Verif Require Import FieldTac MatModel MatSpec MatProofs MatProofs2 RotModel RotSpec RotProofs RotProofs2 RotProofs3.
Set Implicit Arguments.
Unset Strict Implicit.
Unset Printing Implicit Defensive.
Import GRing.Theory Num.Theory Order.Theory.
Local Open Scope ring_scope.

Section R.
Variable T : rcfType.
Let F : fieldType := [fieldType of T].
Add Field ff : (cfield F).
Ltac side := match goal with |- _ /\ _ => split; side | _ =>
  first [assumption | exact (@two_neq0 T) | exact (@two2_neq0 T)] end.
Ltac fld := to_fld F; field; try side.
Ltac hf H := match type of H with @eq _ ?l ?r => change (@eq (GRing.Field.sort F) l r) in H end.
Ltac ring2 := let H1 := fresh in let H2 := fresh in
  to_fld0 F => H1 H2; hf H1; hf H2; refine (@fsub_eq F _ _ _); ring [H1 H2].

Lemma ypr_back (A : nat -> nat -> T) (eps : T) :
  0 <= eps -> is_rotation (mx 3 3 A) ->
  (near_zero eps (- A 0%N 2%N - 1) -> - A 0%N 2%N = 1) ->
  (near_zero eps (- A 0%N 2%N + 1) -> - A 0%N 2%N = -1) ->
  let '(psi, theta, phi) := extract_ypr eps A in
  mx 3 3 (rot_ypr psi theta phi) = mx 3 3 A.
Proof.
  move=> He /rot_entries [O [O' K]] H1 H2. rewrite /extract_ypr.
  move: O O' K H1 H2 (erefl (mx 3 3 A)).
  set a := A 0%N 0%N. set b := A 0%N 1%N. set c := A 0%N 2%N.
  set d := A 1%N 0%N. set e := A 1%N 1%N. set f := A 1%N 2%N.
  set g := A 2%N 0%N. set h := A 2%N 1%N. set i := A 2%N 2%N.
  move=> O O' K H1 H2 _.
  have fin : forall M : nat -> nat -> T,
     M 0%N 0%N = a -> M 0%N 1%N = b -> M 0%N 2%N = c -> M 1%N 0%N = d -> M 1%N 1%N = e -> M 1%N 2%N = f ->
     M 2%N 0%N = g -> M 2%N 1%N = h -> M 2%N 2%N = i -> mx 3 3 M = mx 3 3 A.
    by move=> M *; apply: mx_ext => -[|[|[|?]]] [|[|[|?]]].
  case: ifP => N1.
  - have Hc : c = -1 by rewrite -[LHS]opprK H1.
    have [Ha Hb] : a = 0 /\ b = 0.
      apply: sum2_0. have := r00 O; rewrite Hc mulrNN mulr1 => E. by apply: (addIr 1); rewrite E add0r.
    have [Hf Hi] : f = 0 /\ i = 0.
      apply: sum2_0. have := r22 O'; rewrite Hc mulrNN mulr1 => E. by apply: (addIr 1); rewrite add0r -[RHS]E; fld.
    have E : g * g + h * h = 1 * 1 by rewrite mulr1 -(r22 O) Hi mulr0 addr0.
    rewrite (atan2E E) ?ltr01 // !divr1 /ang0 /g_half_pi.
    have Hd : d = - h by rewrite -(k10 K) Hc Hb; fld.
    have He' : e = g by rewrite -(k11 K) Hc Ha; fld.
    apply: fin; rewrite /rot_ypr /mat3 /mset /= ?Hd ?He' ?Ha ?Hb ?Hc ?Hf ?Hi; by fld.
  case: ifP => N2.
  - have Hc : c = 1 by rewrite -[LHS]opprK H2 // opprK.
    have [Ha Hb] : a = 0 /\ b = 0.
      apply: sum2_0. have := r00 O; rewrite Hc mulr1 => E. by apply: (addIr 1); rewrite E add0r.
    have [Hf Hi] : f = 0 /\ i = 0.
      apply: sum2_0. have := r22 O'; rewrite Hc mulr1 => E. by apply: (addIr 1); rewrite add0r -[RHS]E; fld.
    have E : - g * - g + - h * - h = 1 * 1 by rewrite !mulrNN mulr1 -(r22 O) Hi mulr0 addr0.
    rewrite (atan2E E) ?ltr01 // !divr1 /ang0 /g_half_pi /ang_opp.
    have Hd : d = h by rewrite -(k10 K) Hc Hb; fld.
    have He' : e = - g by rewrite -(k11 K) Hc Ha; fld.
    apply: fin; rewrite /rot_ypr /mat3 /mset /= ?Hd ?He' ?Ha ?Hb ?Hc ?Hf ?Hi; by fld.
  - have Hab : a * a + b * b = 1 - - c * - c by rewrite -(r00 O); fld.
    have Hif : i * i + f * f = 1 - - c * - c by rewrite -(r22 O'); fld.
    set s := Num.sqrt (1 - - c * - c).
    have Hp : 0 < 1 - - c * - c.
      rewrite lt_def -{2}Hab addr_ge0 ?sq_ge0 // andbT. apply/negP => /eqP E.
      have : (- c - 1) * (- c + 1) = 0 by rewrite -[RHS]oppr0 -E; fld.
      move/eqP; rewrite mulf_eq0 => /orP [] /eqP E'.
      + by move: N1; rewrite E' near_zero0.
      + by move: N2; rewrite E' near_zero0.
    have Hs : s * s = 1 - - c * - c by rewrite -expr2 sqr_sqrtr // ltW.
    have Hs0 : 0 < s by rewrite sqrtr_gt0.
    have Hsn : s <> 0 by apply/eqP; rewrite gt_eqF.
    rewrite -Hs in Hab Hif.
    rewrite (atan2E Hab) // (atan2E Hif) // /asin -/s.
    have gen (u v : T) : u = v * (1 - - c * - c) -> u / (s * s) = v.
      move=> ->. by rewrite -Hs mulfK // mulf_neq0 //; apply/eqP.
    have E1 : a * f = c * d - h by rewrite -(k21 K); fld.
    have E2 : b * i = c * h - d by rewrite -(k10 K); fld.
    have E3 : b * f = g + c * e by rewrite -(k20 K); fld.
    have E4 : a * i = e + c * g by rewrite -(k11 K); fld.
    apply: fin; rewrite /rot_ypr /mat3 /mset /=.
    + by fld.
    + by fld.
    + by fld.
    + transitivity ((- c * (a * f) - b * i) / (s * s)); first by fld.
      apply: gen. rewrite E1 E2. by fld.
    + transitivity ((- c * (b * f) + a * i) / (s * s)); first by fld.
      apply: gen. rewrite E3 E4. by fld.
    + by fld.
    + transitivity ((- c * (a * i) + b * f) / (s * s)); first by fld.
      apply: gen. rewrite E3 E4. by fld.
    + transitivity ((- c * (b * i) - a * f) / (s * s)); first by fld.
      apply: gen. rewrite E1 E2. by fld.
    + by fld.
Qed.

Lemma trace_3 (A : nat -> nat -> T) : trace 3 A = A 0%N 0%N + A 1%N 1%N + A 2%N 2%N.
Proof. by rewrite /trace loop_sum !big_ord_recl big_ord0 /= add0r addr0 addrA. Qed.

Lemma axis_unit (p : nat -> T) (al : angle T) i j : l2NormSqr 3 p = 1 ->
  (i < 3)%N -> (j < 3)%N ->
  rot_axis p al i j =
  cosA al * (i == j)%:R + (1 - cosA al) * (p i * p j)
  - sinA al * (mat3 0 (p 2%N) (- p 1%N) (- p 2%N) 0 (p 0%N) (p 1%N) (- p 0%N) 0) i j.
Proof. move=> U Hi Hj. by rewrite axis_entries // !normalized_id. Qed.

Lemma axis_back (A : nat -> nat -> T) (eps : T) :
  0 <= eps -> is_rotation (mx 3 3 A) ->
  (near_zero eps (1 / 2%:R * (trace 3 A - 1) - 1) -> trace 3 A = 3%:R) ->
  (near_zero eps (1 / 2%:R * (trace 3 A - 1) + 1) -> trace 3 A = - 1) ->
  (near_zero eps (Num.sqrt ((A 0%N 0%N + 1) * (1 / 2%:R))) -> A 0%N 0%N = - 1) ->
  let '(p, alpha) := extract_axis eps A in
  l2NormSqr 3 p = 1 /\ mx 3 3 (rot_axis p alpha) = mx 3 3 A.
Proof.
  move=> He /rot_entries [O [O' K]] H1 H2 H3.
  move: (ax00 O O' K) (ax11 O O' K) (ax22 O O' K) (ax01 O O' K) (ax02 O O' K) (ax12 O O' K).
  have fin : forall M : nat -> nat -> T,
     M 0%N 0%N = A 0%N 0%N -> M 0%N 1%N = A 0%N 1%N -> M 0%N 2%N = A 0%N 2%N -> 
     M 1%N 0%N = A 1%N 0%N -> M 1%N 1%N = A 1%N 1%N -> M 1%N 2%N = A 1%N 2%N ->
     M 2%N 0%N = A 2%N 0%N -> M 2%N 1%N = A 2%N 1%N -> M 2%N 2%N = A 2%N 2%N -> mx 3 3 M = mx 3 3 A.
    by move=> M *; apply: mx_ext => -[|[|[|?]]] [|[|[|?]]].
  move: O O' K H1 H2 H3 fin.
  rewrite /extract_axis !trace_3.
  set a := A 0%N 0%N. set b := A 0%N 1%N. set c := A 0%N 2%N.
  set d := A 1%N 0%N. set e := A 1%N 1%N. set f := A 1%N 2%N.
  set g := A 2%N 0%N. set h := A 2%N 1%N. set i := A 2%N 2%N.
  set t := a + e + i. set co := 1 / 2%:R * (t - 1).
  move=> O O' K H1 H2 H3 fin X00 X11 X22 X01 X02 X12.
  have tE : t = 2%:R * co + 1 by rewrite /co; fld.
  have tt : t = a + e + i by [].
  move: t co tE tt H1 H2 X00 X11 X22 X01 X02 X12 => t co tE tt H1 H2 X00 X11 X22 X01 X02 X12.
  case: ifP => N1.
  - (* no rotation *)
    have Ht := H1 N1.
    have four : (1 + 3%:R : T) <> 0 by apply/eqP; rewrite -(natrD _ 1 3) pnatr_eq0.
    have N : (h - f) * (h - f) + (c - g) * (c - g) + (d - b) * (d - b) = 0.
      rewrite X00 X11 X22. rewrite -[2%:R * a - _]/(2%:R * a - (t - 1)).
      have -> : (1 + t) * (2%:R * a - (t - 1)) + (1 + t) * (2%:R * e - (t - 1)) + (1 + t) * (2%:R * i - (t - 1))
        = (1 + t) * (2%:R * (a + e + i) - 3%:R * (t - 1)) by fld.
      rewrite -tt Ht. by fld.
    move: (sum3_0 N) => [Z1 [Z2 Z3]].
    have dg (x : T) : 0 = (1 + t) * (2%:R * x - (t - 1)) -> x = 1.
      move=> /esym/eqP; rewrite mulf_eq0 Ht => /orP [/eqP //|/eqP E].
      have : 2%:R * (x - 1) = 0 by rewrite -[RHS]E; fld.
      move/eqP; rewrite mulf_eq0 pnatr_eq0 /= subr_eq0 => /eqP //.
    have Ha : a = 1 by apply: dg; rewrite -X00 Z1 mul0r.
    have He' : e = 1 by apply: dg; rewrite -X11 Z2 mul0r.
    have Hi : i = 1 by apply: dg; rewrite -X22 Z3 mul0r.
    have [Hb Hc] : b = 0 /\ c = 0.
      apply: sum2_0. have := r00 O; rewrite Ha mulr1 => E. by apply: (addIr 1); rewrite add0r -[RHS]E; fld.
    have [Hd Hf] : d = 0 /\ f = 0.
      apply: sum2_0. have := r11 O; rewrite He' mulr1 => E. by apply: (addIr 1); rewrite add0r -[RHS]E; fld.
    have [Hg Hh] : g = 0 /\ h = 0.
      apply: sum2_0. have := r22 O; rewrite Hi mulr1 => E. by apply: (addIr 1); rewrite add0r -[RHS]E; fld.
    have U : l2NormSqr 3 (vset (@vnew T) 1 1) = 1 by rewrite l2_3 /vset /vnew /=; fld.
    split=> //. apply: fin; rewrite axis_unit // /mat3 /mset /vset /vnew /ang0 /= ?Ha ?Hb ?Hc ?Hd ?He' ?Hf ?Hg ?Hh ?Hi; by fld.
  case: ifP => N2.
  - (* a half turn *)
    have Ht := H2 N2.
    have Hco : co = -1.
      apply: (mulfI (x := 2%:R)); first by rewrite pnatr_eq0.
      apply: (addIr 1). rewrite -tE Ht. by fld.
    have z0 (x : T) : (1 + t) * x = 0 by rewrite Ht subrr mul0r.
    have Hh : h = f by apply/eqP; rewrite -subr_eq0; apply/eqP/sqr0; rewrite X00 z0.
    have Hg : g = c by apply/eqP; rewrite eq_sym -subr_eq0; apply/eqP/sqr0; rewrite X11 z0.
    have Hd : d = b by apply/eqP; rewrite -subr_eq0; apply/eqP/sqr0; rewrite X22 z0.
    have Hi : i = -1 - a - e by rewrite -Ht tt; fld.
    have bb : b * b = (1 + a) * (1 + e) by have := k22 K; rewrite Hd Hi => E; rewrite -[LHS]opprK -[- (b * b)](addKr (a * e)) E; fld.
    have cc : c * c = (1 + a) * (1 + i) by have := k11 K; rewrite Hg => E; rewrite -[LHS]opprK -[- (c * c)](addKr (a * i)) E Hi; fld.
    have ff : f * f = (1 + e) * (1 + i) by have := k00 K; rewrite Hh => E; rewrite -[LHS]opprK -[- (f * f)](addKr (e * i)) E Hi; fld.
    have bc : b * c = (1 + a) * f by have := k12 K; rewrite Hh Hg => E; rewrite -[LHS](addrK (- (a * f))) E; fld.
    have ge1 (x y z : T) : x * x + y * y + z * z = 1 -> 0 <= (x + 1) * (1 / 2%:R).
      move=> E. rewrite mulr_ge0 ?divr_ge0 ?ler01 ?ler0n //.
      rewrite -(opprK 1) subr_ge0 leNgt. apply/negP => L.
      have : 1 < x * x.
        rewrite -mulrNN -[X in X < _](mulr1 1). apply: ltr_pmul; rewrite ?ler01 ?ler0n // ltr_oppr //.
      rewrite -{1}E -addrA gtr_addl ltNge => /negP; apply. by rewrite addr_ge0 ?sq_ge0.
    have SZ : Num.sqrt (1 - -1 * -1 : T) = 0 by rewrite mulrNN mulr1 subrr sqrtr0.
    set p0 := Num.sqrt _.
    have P0 : p0 * p0 = (a + 1) * (1 / 2%:R) by rewrite -expr2 sqr_sqrtr // (ge1 _ _ _ (r00 O)).
    rewrite /vset /vnew /= -/p0.
    case: ifP => N3.
    + have Ha := H3 N3.
      have Hp0 : p0 = 0 by apply: sqr0; rewrite P0 Ha; fld.
      have Hb : b = 0 by apply: sqr0; rewrite bb Ha; fld.
      have Hc : c = 0 by apply: sqr0; rewrite cc Ha; fld.
      set p1 := Num.sqrt ((e + 1) * _). set p2 := Num.sqrt ((i + 1) * _).
      have E1 : 0 <= (e + 1) * (1 / 2%:R).
        by apply: (ge1 _ d f); rewrite -[RHS](r11 O); fld.
      have E2 : 0 <= (i + 1) * (1 / 2%:R).
        by apply: (ge1 _ g h); rewrite -[RHS](r22 O); fld.
      have P1 : p1 * p1 = (e + 1) * (1 / 2%:R) by rewrite -expr2 sqr_sqrtr.
      have P2 : p2 * p2 = (i + 1) * (1 / 2%:R) by rewrite -expr2 sqr_sqrtr.
      have PP : p1 * p2 = `|f| * (1 / 2%:R).
        rewrite -sqrtrM //.
        have -> : (e + 1) * (1 / 2%:R) * ((i + 1) * (1 / 2%:R)) = (f * (1 / 2%:R)) ^+ 2.
          transitivity ((1 + e) * (1 + i) * (1 / 2%:R * (1 / 2%:R))); first by fld.
          rewrite -ff. by fld.
        by rewrite sqrtr_sqr normrM (ger0_norm (x := 1 / 2%:R)) // divr_ge0 ?ler01 ?ler0n.
      case: ifP => S.
      * have PP' : p1 * - p2 = f * (1 / 2%:R) by rewrite mulrN PP ltr0_norm // mulNr opprK.
        set p := (fun j : nat => _).
        have U : l2NormSqr 3 p = 1.
          rewrite l2_3 /p /= Hp0 mulrNN P1 P2 Hi Ha. by fld.
        split=> //. 
        have hp : p 0%N = p0 /\ p 1%N = p1 /\ p 2%N = - p2 by [].
        move: hp => [q0 [q1' q2]].
        apply: fin; rewrite axis_unit // q0 q1' q2 /mat3 /mset /acos Hco /= -/a -/b -/c -/d -/e -/f -/g -/h -/i
          ?Hd ?Hg ?Hh -?/p ?Hp0.
        -- rewrite Ha. by rewrite ?SZ; fld.
        -- rewrite Hb. by rewrite ?SZ; fld.
        -- rewrite Hc. by rewrite ?SZ; fld.
        -- rewrite Hb. by rewrite ?SZ; fld.
        -- rewrite P1. by rewrite ?SZ; fld.
        -- rewrite PP'. by rewrite ?SZ; fld.
        -- rewrite Hc. by rewrite ?SZ; fld.
        -- rewrite [- p2 * p1]mulrC PP'. by rewrite ?SZ; fld.
        -- rewrite [- p2 * - p2]mulrNN P2. by rewrite ?SZ; fld.
      * have PP' : p1 * p2 = f * (1 / 2%:R) by rewrite PP ger0_norm // leNgt S.
        set p := (fun j : nat => _).
        have U : l2NormSqr 3 p = 1.
          rewrite l2_3 /p /= Hp0 P1 P2 Hi Ha. by fld.
        split=> //. 
        have hp : p 0%N = p0 /\ p 1%N = p1 /\ p 2%N = p2 by [].
        move: hp => [q0 [q1' q2]].
        apply: fin; rewrite axis_unit // q0 q1' q2 /mat3 /mset /acos Hco /= -/a -/b -/c -/d -/e -/f -/g -/h -/i
          ?Hd ?Hg ?Hh -?/p ?Hp0.
        -- rewrite Ha. by rewrite ?SZ; fld.
        -- rewrite Hb. by rewrite ?SZ; fld.
        -- rewrite Hc. by rewrite ?SZ; fld.
        -- rewrite Hb. by rewrite ?SZ; fld.
        -- rewrite P1. by rewrite ?SZ; fld.
        -- rewrite PP'. by rewrite ?SZ; fld.
        -- rewrite Hc. by rewrite ?SZ; fld.
        -- rewrite [p2 * p1]mulrC PP'. by rewrite ?SZ; fld.
        -- rewrite P2. by rewrite ?SZ; fld.
    + have p0n : p0 <> 0 by move=> E; move: N3; rewrite E near_zero0.
      have a1 : a + 1 <> 0 by move=> E; apply: p0n; apply: sqr0; rewrite P0 E mul0r.
      set p := (fun j : nat => _).
      have q0 : p 0%N = p0 by [].
      have q1' : p 1%N = b * (1 / 2%:R) / p0 by [].
      have q2 : p 2%N = c * (1 / 2%:R) / p0 by [].
      have p01 : p 0%N * p 1%N = b * (1 / 2%:R) by rewrite q0 q1'; fld.
      have p02 : p 0%N * p 2%N = c * (1 / 2%:R) by rewrite q0 q2; fld.
      have g4 (x y z : T) : x * y = (1 + a) * z -> x * (1 / 2%:R) / p0 * (y * (1 / 2%:R) / p0) = z * (1 / 2%:R).
        move=> E. transitivity (x * y * (1 / 2%:R * (1 / 2%:R)) / (p0 * p0)); first by fld.
        rewrite E P0. by fld.
      have p11 : p 1%N * p 1%N = (1 + e) * (1 / 2%:R) by rewrite q1'; exact: g4.
      have p22 : p 2%N * p 2%N = (1 + i) * (1 / 2%:R) by rewrite q2; exact: g4.
      have p12 : p 1%N * p 2%N = f * (1 / 2%:R) by rewrite q1' q2; exact: g4.
      have p00 : p 0%N * p 0%N = (a + 1) * (1 / 2%:R) by rewrite q0.
      have U : l2NormSqr 3 p = 1 by rewrite l2_3 p00 p11 p22 Hi; fld.
      split=> //.
      apply: fin; rewrite axis_unit // /mat3 /mset /acos Hco /= -/a -/b -/c -/d -/e -/f -/g -/h -/i
          ?Hd ?Hg ?Hh -?/p ?SZ
          ?[p 1%N * p 0%N]mulrC ?[p 2%N * p 0%N]mulrC ?[p 2%N * p 1%N]mulrC
          ?p00 ?p01 ?p02 ?p11 ?p12 ?p22; by fld.
  - (* the general case *)
    have n1 : 1 - co <> 0.
      move=> E. move: N1. have -> : co - 1 = 0 by rewrite -[RHS]oppr0 -E; fld.
      by rewrite near_zero0.
    have n2 : 1 + co <> 0.
      move=> E. move: N2. have -> : co + 1 = 0 by rewrite -[RHS]E; fld.
      by rewrite near_zero0.
    have cE : 1 - co * co = (1 - co) * (1 + co) by fld.
    have uE : 1 + t = 2%:R * (1 + co) by rewrite tE; fld.
    have NN : (h - f) * (h - f) + (c - g) * (c - g) + (d - b) * (d - b) = 2%:R * 2%:R * (1 - co * co).
      rewrite X00 X11 X22.
      have -> : (1 + t) * (2%:R * a - (t - 1)) + (1 + t) * (2%:R * e - (t - 1)) + (1 + t) * (2%:R * i - (t - 1))
        = (1 + t) * (2%:R * (a + e + i) - 3%:R * (t - 1)) by fld.
      rewrite -tt tE. by fld.
    have Hp : 0 < 1 - co * co.
      rewrite lt_def. apply/andP; split.
        by rewrite cE mulf_neq0 //; apply/eqP.
      have : 0 <= 2%:R * 2%:R * (1 - co * co) by rewrite -NN !addr_ge0 ?sq_ge0.
      by rewrite pmulr_rge0 // mulr_gt0 // ltr0n.
    set s := Num.sqrt _.
    have Hs : s * s = 1 - co * co by rewrite -expr2 sqr_sqrtr // ltW.
    have Hs0 : s <> 0 by apply/eqP; rewrite gt_eqF // sqrtr_gt0.
    have gen (P Q X : T) : P * Q = (1 + t) * X ->
       (1 - co) * (P * (1 / 2%:R) / s * (Q * (1 / 2%:R) / s)) = X * (1 / 2%:R).
      move=> E. transitivity ((1 - co) * (P * Q) * (1 / 2%:R * (1 / 2%:R)) / (s * s)); first by fld.
      rewrite E Hs cE uE. by fld.
    have sy (P : T) : s * (P * (1 / 2%:R) / s) = P * (1 / 2%:R) by fld.
    rewrite /vset /vnew /=.
    set p := (fun j : nat => _).
    have q0 : p 0%N = (h - f) * (1 / 2%:R) / s by [].
    have q1' : p 1%N = (c - g) * (1 / 2%:R) / s by [].
    have q2 : p 2%N = (d - b) * (1 / 2%:R) / s by [].
    have s0 : s * p 0%N = (h - f) * (1 / 2%:R) by rewrite q0 sy.
    have s1 : s * p 1%N = (c - g) * (1 / 2%:R) by rewrite q1' sy.
    have s2 : s * p 2%N = (d - b) * (1 / 2%:R) by rewrite q2 sy.
    have p00 : (1 - co) * (p 0%N * p 0%N) = (2%:R * a - (t - 1)) * (1 / 2%:R) by rewrite q0; exact: gen.
    have p11 : (1 - co) * (p 1%N * p 1%N) = (2%:R * e - (t - 1)) * (1 / 2%:R) by rewrite q1'; exact: gen.
    have p22 : (1 - co) * (p 2%N * p 2%N) = (2%:R * i - (t - 1)) * (1 / 2%:R) by rewrite q2; exact: gen.
    have p01 : (1 - co) * (p 0%N * p 1%N) = (b + d) * (1 / 2%:R) by rewrite q0 q1'; exact: gen.
    have p02 : (1 - co) * (p 0%N * p 2%N) = (c + g) * (1 / 2%:R) by rewrite q0 q2; exact: gen.
    have p12 : (1 - co) * (p 1%N * p 2%N) = (f + h) * (1 / 2%:R) by rewrite q1' q2; exact: gen.
    have U : l2NormSqr 3 p = 1.
      apply: (mulfI (x := 1 - co)); first exact/eqP.
      rewrite l2_3 !mulrDr p00 p11 p22 mulr1.
      transitivity (((2%:R * (a + e + i)) - 3%:R * (t - 1)) * (1 / 2%:R)); first by fld.
      rewrite -tt tE. by fld.
    split=> //.
    apply: fin; rewrite axis_unit // /mat3 /mset /acos /= -/a -/b -/c -/d -/e -/f -/g -/h -/i -?/s
       ?[p 1%N * p 0%N]mulrC ?[p 2%N * p 0%N]mulrC ?[p 2%N * p 1%N]mulrC
       ?p00 ?p01 ?p02 ?p11 ?p12 ?p22 ?mulrN ?s0 ?s1 ?s2 ?tE; by fld.
Qed.
End R.
