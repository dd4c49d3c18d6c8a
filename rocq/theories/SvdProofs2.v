(* QR by Givens rotations, Gram-Schmidt, bidiagonalisation. *)
From mathcomp Require Import all_ssreflect all_algebra.
From Coq Require Import Field.
From Verif Require Import FieldTac MatModel MatSpec MatProofs RotModel RotSpec SvdModel SvdSpec SvdProofs.
Set Implicit Arguments.
Unset Strict Implicit.
Unset Printing Implicit Defensive.
Import GRing.Theory Num.Theory Order.Theory.
Local Open Scope ring_scope.

Section Qr.
Variable T : rcfType.
Let F : fieldType := [fieldType of T].
Add Field ff : (cfield F).
Ltac fld := to_fld F; field.
Implicit Types (A U V : nat -> nat -> T) (g : givens T).

Lemma rot1 n : is_rotation (1%:M : 'M[T]_n).
Proof. by split; rewrite ?trmx1 ?mulmx1 ?det1. Qed.
Lemma rotM n (A B : 'M[T]_n) : is_rotation A -> is_rotation B -> is_rotation (A *m B).
Proof.
case=> oA dA [oB dB]; split; last by rewrite det_mulmx dA dB mulr1.
by rewrite trmx_mul mulmxA -(mulmxA A) oB mulmx1.
Qed.
Lemma rotT n (A : 'M[T]_n) : is_rotation A -> is_rotation A^T.
Proof. by case=> oA dA; split; rewrite ?det_tr // trmxK; apply: mulmx1C. Qed.
Lemma mx_id n : mx n n (@identity T) = 1%:M.
Proof. by apply/matrixP => i j; rewrite !mxE /identity -val_eqE; case: (_ == _). Qed.

Lemma row_rot n g A : valid n g -> unit_g g -> is_rotation (mx n n A) -> is_rotation (mx n n (rowRotation n g A)).
Proof. by move=> v u h; rewrite row_ok //; apply: rotM => //; apply: gmx_rot. Qed.
Lemma col_rot n g A : valid n g -> unit_g g -> is_rotation (mx n n A) -> is_rotation (mx n n (columnRotation n g A)).
Proof. by move=> v u h; rewrite tr_row //; apply: rotM => //; apply: rotT; apply: gmx_rot. Qed.

Lemma of_unit a b i k : unit_g (givens_of (a : T) b i k).
Proof. exact: conv_unit. Qed.

Section QrInv.
Variables (N : nat) (A : nat -> nat -> T).
Definition base_inv (QR : (nat -> nat -> T) * (nat -> nat -> T)) :=
  is_rotation (mx N N QR.1) /\ mx N N QR.2 = mx N N QR.1 *m mx N N A.
Definition outer_inv j (QR : (nat -> nat -> T) * (nat -> nat -> T)) :=
  [/\ base_inv QR,
      forall a b, (b < j)%N -> (b < a)%N -> (a < N)%N -> QR.2 a b = 0
    & forall b, (b < j)%N -> (b.+1 < N)%N -> 0 <= QR.2 b b].
Definition inner_inv j m (QR : (nat -> nat -> T) * (nat -> nat -> T)) :=
  [/\ outer_inv j QR,
      forall a, (j.+1 + m <= a)%N -> (a < N)%N -> QR.2 a j = 0
    & m = 0%N -> (j.+1 < N)%N -> 0 <= QR.2 j j].

Lemma inner_step j m QR (i := (j.+1 + m)%N) (g := givens_of (QR.2 i.-1 j) (QR.2 i j) i.-1 i) :
  (i < N)%N -> inner_inv j m.+1 QR -> inner_inv j m (rowRotation N g QR.1, rowRotation N g QR.2).
Proof.
move=> iN [[[rot eq] low dg] z _].
have i0 : i = i.-1.+1 by rewrite /i addSn.
have ne : rowi g != rowk g by rewrite conv_i conv_k /= i0 /= neq_ltn ltnSn.
have ri : rowi g = i.-1 by rewrite conv_i.
have rk : rowk g = i by rewrite conv_k.
have v : valid N g by apply: of_valid => //; [apply: leq_ltn_trans (leq_pred _) iN | rewrite i0 /= neq_ltn ltnSn].
have ji : (j <= i.-1)%N by rewrite /i addSn /= leq_addr.
split; [split; [split|..]|..] => /=.
- by apply: row_rot => //; exact: of_unit.
- by rewrite !row_ok // eq mulmxA.
- move=> a b bj ba aN; rewrite rowRotationE //; last by apply: ltn_trans ba aN.
  have bi : (b < i.-1)%N by apply: leq_trans bj ji.
  have bi' : (b < i)%N by rewrite i0 ltnS ltnW.
  rewrite ri rk !(low _ _ bj) //; last exact: leq_ltn_trans (leq_pred _) iN.
  by rewrite !mulr0 subrr addr0; case: ifP => // _; case: ifP.
- move=> b bj bN; have b1 : (b < N)%N by apply: ltn_trans bN.
  have bi : (b < i.-1)%N by apply: leq_trans bj ji.
  rewrite rowRotationE // ri rk !ltn_eqF //; first by apply: dg.
  by rewrite i0 ltnS ltnW.
- move=> a ia aN; have jN : (j < N)%N by apply: leq_ltn_trans iN; rewrite i0; apply: leqW.
  rewrite rowRotationE // ri rk.
  have ai : (a == i.-1) = false by apply: gtn_eqF; rewrite -i0.
  rewrite ai; case: (eqVneq a i) => [_|nai]; first exact: conv_zero.
  by apply: z => //; rewrite addnS ltn_neqAle eq_sym nai.
- move=> m0 jN; have jj : j = i.-1 by rewrite /i m0 addn0.
  rewrite rowRotationE //; last exact: ltn_trans jN.
  by rewrite ri rk -{1}jj eqxx; exact: conv_first.
Qed.

Lemma inner_ok j QR : outer_inv j QR -> outer_inv j.+1 (qr_inner N j QR).
Proof.
move=> o.
have : inner_inv j 0 (qr_inner N j QR).
  rewrite /qr_inner; have : inner_inv j (N - j.+1) QR.
    split=> //; first by move=> a; rewrite leqNgt => /negP h aN; case: h; rewrite (leq_trans aN) // -leq_subLR.
    by move=> /eqP; rewrite subn_eq0 leqNgt => /negbTE ->.
  have : (j.+1 + (N - j.+1) <= N)%N \/ (N - j.+1 = 0)%N.
    by case: (leqP j.+1 N) => h; [left; rewrite subnKC | right; apply/eqP; rewrite subn_eq0 ltnW].
  elim: (N - j.+1)%N QR {o} => [|m IH] QR hm inv; first by [].
  have -> : iota j.+1 m.+1 = iota j.+1 m ++ [:: (j.+1 + m)%N] by rewrite -(addn1 m) iotaD.
  rewrite rev_cat foldl_cat /=; apply: IH; first by left; case: hm => // hm; rewrite ltnW // -addnS.
  by apply: inner_step => //; case: hm => //; rewrite addnS.
case=> [[b low dg] z d0]; split=> //.
- move=> a b'; rewrite ltnS leq_eqVlt => /orP[/eqP ->|]; last exact: low.
  by move=> ja aN; apply: z => //; rewrite addn0.
- move=> b'; rewrite ltnS leq_eqVlt => /orP[/eqP ->|]; last exact: dg.
  exact: d0.
Qed.

Lemma qr_ok (Q := (qr N A).1) (R := (qr N A).2) :
  [/\ is_rotation (mx N N Q), mx N N Q *m mx N N R = mx N N A,
      forall a b, (b < a)%N -> (a < N)%N -> R a b = 0
    & forall b, (b.+1 < N)%N -> 0 <= R b b].
Proof.
have : outer_inv N (loop N (fun j QR => qr_inner N j QR) (@identity T, A)).
  apply: (loop_ind (P := outer_inv)) => [|j QR jN IH]; last exact: inner_ok.
  by split=> //; split; rewrite /= mx_id ?mul1mx //; apply: rot1.
rewrite /Q /R /qr; move: (loop _ _ _) => [P R'] [[/= rot eq] low dg]; split.
- by rewrite transpose_ok; apply: rotT.
- by rewrite transpose_ok eq mulmxA (mulmx1C (proj1 rot)) mul1mx.
- by move=> a b ba aN; apply: low => //; apply: ltn_trans aN.
- by move=> b bN; apply: dg => //; apply: ltnW.
Qed.
End QrInv.

(* the factors of a product under rotations *)
Lemma usv_row n g (U H W : 'M[T]_n) : valid n g -> unit_g g ->
  U *m (gmx n g)^T *m (gmx n g *m H) *m W = U *m H *m W.
Proof. by move=> v u; rewrite !mulmxA -(mulmxA U) gmx_orth // mulmx1. Qed.
Lemma usv_col n g (U H V : 'M[T]_n) : valid n g -> unit_g g ->
  U *m (H *m (gmx n g)^T) *m (V *m (gmx n g)^T)^T = U *m H *m V^T.
Proof. by move=> v u; rewrite trmx_mul trmxK !mulmxA -(mulmxA (U *m H)) gmx_orth // mulmx1. Qed.
Definition usv n (U H V : nat -> nat -> T) := mx n n U *m mx n n H *m (mx n n V)^T.
Lemma usv_row_ok n g U H V : valid n g -> unit_g g ->
  usv n (columnRotation n g U) (rowRotation n g H) V = usv n U H V.
Proof. by move=> v u; rewrite /usv tr_row // row_ok // usv_row. Qed.
Lemma usv_col_ok n g U H V : valid n g -> unit_g g ->
  usv n U (columnRotation n g H) (columnRotation n g V) = usv n U H V.
Proof. by move=> v u; rewrite /usv !tr_row // usv_col. Qed.
Lemma colrow n g h A : valid n g -> valid n h ->
  mx n n (columnRotation n g (rowRotation n h A)) = mx n n (rowRotation n h (columnRotation n g A)).
Proof. by move=> v v'; rewrite tr_row // !row_ok // tr_row // mulmxA. Qed.

Definition bidiag (H : nat -> nat -> T) := [/\ H 1%N 0%N = 0, H 2%N 0%N = 0, H 2%N 1%N = 0 & H 0%N 2%N = 0].

Definition zc_spec H U V (r : (nat -> nat -> T) * (nat -> nat -> T) * (nat -> nat -> T)) : Prop :=
  let: (H', U', V') := r in
  [/\ usv 3 U' H' V' = usv 3 U H V, H 2%N 0%N = 0 -> bidiag H',
      is_rotation (mx 3 3 U) -> is_rotation (mx 3 3 U')
    & is_rotation (mx 3 3 V) -> is_rotation (mx 3 3 V')].
Lemma zc_ok H U V : zc_spec H U V (zero_chasing H U V).
Proof.
rewrite /zc_spec /zero_chasing.
set r1 := givens_of _ _ 0 1.
set r2 := if _ then _ else _.
set H1 := rowRotation 3 r1 H; set H2 := columnRotation 3 r2 H1.
set r3 := givens_of _ _ 1 2.
have v1 : valid 3 r1 by apply: of_valid.
have v3 : valid 3 r3 by apply: of_valid.
have i2 : rowi r2 = 1%N by rewrite /r2; case: ifP; rewrite conv_i.
have k2 : rowk r2 = 2%N by rewrite /r2; case: ifP; rewrite conv_k.
have v2 : valid 3 r2 by rewrite /valid i2 k2.
have u1 : unit_g r1 by apply: of_unit.
have u3 : unit_g r3 by apply: of_unit.
have u2 : unit_g r2 by rewrite /r2; case: ifP => _; apply: conv_unit.
split.
- by rewrite usv_row_ok // usv_col_ok // usv_row_ok.
- move=> h20.
  have n1 : rowi r1 != rowk r1 by case/and3P: v1.
  have n2 : rowi r2 != rowk r2 by case/and3P: v2.
  have n3 : rowi r3 != rowk r3 by case/and3P: v3.
  have i1 : rowi r1 = 0%N by rewrite conv_i.
  have k1 : rowk r1 = 1%N by rewrite conv_k.
  have i3 : rowi r3 = 1%N by rewrite conv_i.
  have k3 : rowk r3 = 2%N by rewrite conv_k.
  have e10 : H1 1%N 0%N = 0 by rewrite /H1 rowRotationE // i1 k1 /=; exact: conv_zero.
  have e20 : H1 2%N 0%N = 0 by rewrite /H1 rowRotationE // i1 k1.
  have f10 : H2 1%N 0%N = 0 by rewrite /H2 columnRotationE // i2 k2.
  have f20 : H2 2%N 0%N = 0 by rewrite /H2 columnRotationE // i2 k2.
  have f02 : H2 0%N 2%N = 0.
    rewrite /H2 columnRotationE // i2 k2 /= /H1 !rowRotationE // i1 k1 /=.
    rewrite /r2; case: ifP => h10.
      have [d0 t_ex] : exists2 t, gc r1 = H 0%N 0%N * t & gs r1 = - H 1%N 0%N * t.
        rewrite /r1 /givens_of /computeConventional.
        case: ifP => d /=; first by exists (rsqrt (H 0%N 0%N * H 0%N 0%N + H 1%N 0%N * H 1%N 0%N)).
        by have [_ e] := sumsq_eq0 (eqP (negbFE d)); rewrite e eqxx in h10.
      move=> ->; set p := _ + H 1%N 0%N * H 1%N 1%N; set q := _ + H 1%N 0%N * H 1%N 2%N.
      have := conv_zero (givens_id T 1 2) p q; set g := computeConventional _ _ _ => z.
      rewrite t_ex; transitivity (d0 * (gs g * p + gc g * q)); last by rewrite z mulr0.
      by rewrite /p /q; fld.
    have s0 : gs r1 = 0.
      rewrite /r1 /givens_of /computeConventional; case: ifP => d //=.
      by rewrite (eqP (negbFE h10)) oppr0 mul0r.
    rewrite s0 !mul0r !subr0.
    have := conv_zero (givens_id T 1 2) (H 0%N 1%N) (H 0%N 2%N); set g := computeConventional _ _ _ => z.
    by transitivity (gc r1 * (gs g * H 0%N 1%N + gc g * H 0%N 2%N)); [fld | rewrite z mulr0].
  split; rewrite rowRotationE // i3 k3 /=.
  + by rewrite f10 f20 !mulr0 subrr.
  + by rewrite f10 f20 !mulr0 addr0.
  + exact: conv_zero.
  + exact: f02.
- by move=> h; apply: col_rot => //; apply: col_rot.
- by move=> h; apply: col_rot.
Qed.

Definition ub_spec A (r : (nat -> nat -> T) * (nat -> nat -> T) * (nat -> nat -> T)) : Prop :=
  let: (H, U, V) := r in
  [/\ usv 3 U H V = mx 3 3 A, bidiag H, is_rotation (mx 3 3 U) & is_rotation (mx 3 3 V)].
Lemma ub_ok A : ub_spec A (upper_bidiagonalize A).
Proof.
rewrite /ub_spec /upper_bidiagonalize; set r := givens_of _ _ 1 2.
have v : valid 3 r by apply: of_valid.
have u : unit_g r by apply: of_unit.
have := zc_ok (rowRotation 3 r A) (columnRotation 3 r (@identity T)) (@identity T).
case: (zero_chasing _ _ _) => [[H U] V] [e b rU rV].
have ri : is_rotation (mx 3 3 (@identity T)) by rewrite mx_id; apply: rot1.
split.
- by rewrite e usv_row_ok // /usv !mx_id mul1mx trmx1 mulmx1.
- apply: b; rewrite rowRotationE //; last by case/and3P: v.
  by rewrite conv_i conv_k /=; exact: conv_zero.
- by apply: rU; apply: col_rot.
- exact: rV.
Qed.
End Qr.
