(* The conjugate gradient solver follows the abstract recurrences. *)
From Coq Require Import Field.
From mathcomp Require Import all_ssreflect all_algebra.
From Verif Require Import CgModel CgSpec CgProofs FieldTac.
Import GRing.Theory Num.Theory Order.Theory.
Set Implicit Arguments.
Unset Strict Implicit.
Unset Printing Implicit Defensive.
Local Open Scope ring_scope.

Section Cg.
Variable T : rcfType.
Let F : fieldType := [fieldType of T].
Add Field ff : (cfield F).
Lemma two_neq0 : (2%:R : T) <> 0. Proof. by apply/eqP; rewrite pnatr_eq0. Qed.
Ltac fld := to_fld F; field; try exact two_neq0.
Variable n : nat.
Variable S : system T n.
Notation A := (multiply S).
Notation P := (project S).
Notation M := (precondition S).
Variables (x0 b : 'cV[T]_n).

Definition st k := iter k (cg_step S) (cg_init S x0 b).
Definition sr k := cr (st k).
Definition sp k := cp (st k).
Definition sx k := cx (st k).
Definition sz k := cz (st k).
Definition sq k := M *m sr k.
Definition sw k := P *m (A *m sp k).
Definition sd k := dot (sw k) (sp k).

Lemma szE k : sz k = dot (sr k) (sq k).
Proof. by case: k => [|k]; rewrite /sz /sq /sr /st /= dotProductE // dotC. Qed.
Lemma snE k : cnorm (st k) = Num.sqrt (sz k).
Proof. by case: k. Qed.
Lemma srS k : sr k.+1 = sr k - (sz k / sd k) *: sw k.
Proof. by rewrite /sr /st /= linear_combineE dotProductE scaleNr. Qed.
Lemma sp0 : sp 0 = sq 0.
Proof. by []. Qed.
Lemma spS k : sp k.+1 = sq k.+1 + (sz k.+1 / sz k) *: sp k.
Proof. by rewrite /sp /sq /sr /sz /st /= !linear_combineE !dotProductE. Qed.
Lemma sxS k : sx k.+1 = sx k + (sz k / sd k) *: sp k.
Proof. by rewrite /sx /st /= linear_combineE dotProductE. Qed.

Lemma sr_residual k : sr k = residual A P b (sx k).
Proof.
elim: k => [|k IH]; first by rewrite /sr /st /= minusE.
rewrite srS IH sxS /residual [A *m (_ + _)]mulmxDr opprD addrA.
by rewrite [in RHS]mulmxDr mulmxN -!scalemxAr.
Qed.

Lemma sx_sum k : sx k - x0 = \sum_(j < k) (sz j / sd j) *: sp j.
Proof.
elim: k => [|k IH]; first by rewrite big_ord0 subrr.
by rewrite big_ord_recr /= -IH sxS addrAC.
Qed.

Lemma free_D u v : free P u -> free P v -> free P (u + v).
Proof. by rewrite /free mulmxDr => -> ->. Qed.
Lemma free_Z a u : free P u -> free P (a *: u).
Proof. by rewrite /free -scalemxAr => ->. Qed.
Lemma free_sum k (f : nat -> 'cV[T]_n) :
  (forall j, free P (f j)) -> free P (\sum_(j < k) f j).
Proof.
move=> h; elim: k => [|k IH]; first by rewrite big_ord0 /free mulmx0.
by rewrite big_ord_recr /=; apply: free_D.
Qed.

Lemma free_q : P *m M = M -> forall k, free P (sq k).
Proof. by move=> h k; rewrite /free /sq mulmxA h. Qed.
Lemma free_p : P *m M = M -> forall k, free P (sp k).
Proof.
move=> h; elim=> [|k IH]; first by rewrite sp0; exact: free_q.
by rewrite spS; apply: free_D; [exact: free_q | exact: free_Z].
Qed.
Lemma free_x : P *m M = M -> forall k, free P (sx k - x0).
Proof.
move=> h k; rewrite sx_sum; apply: (@free_sum k (fun j => (sz j / sd j) *: sp j)) => j.
by apply: free_Z; exact: free_p.
Qed.

Lemma loopE left it tol s :
  exists2 k, (k <= left)%N &
    [/\ cg_loop S left it tol s = (iter k (cg_step S) s, (it + k)%N),
        forall j, (j < k)%N -> tol < cnorm (iter j (cg_step S) s) &
        (k < left)%N -> cnorm (iter k (cg_step S) s) <= tol].
Proof.
elim: left it s => [|left IH] it s /=; first by exists 0%N => //; rewrite addn0.
case: ifP => h; first by exists 0%N => //; rewrite addn0.
have [k kl [-> h1 h2]] := IH it.+1 (cg_step S s).
exists k.+1 => //; split.
- by rewrite -iterSr addSnnS.
- by case=> [|j] jk; rewrite ?iterSr; [rewrite /= ltNge h | exact: h1].
- by rewrite iterSr; exact: h2.
Qed.

Section Spd.
Hypothesis spd : spd_system A P M.

Lemma PM : P *m M = M.
Proof. by case: spd => _ _ _ _ []. Qed.
Lemma free_r k : free P (sr k).
Proof. by case: spd => [[_ h]] _ _ _ _; rewrite /free sr_residual /residual mulmxA h. Qed.

Lemma z_pos k : sz k != 0 -> 0 < sz k.
Proof.
case: spd => _ _ _ _ [h _]; rewrite szE => nz; apply: h; first exact: free_r.
by move=> e; move: nz; rewrite /sq e mulmx0 dot0r eqxx.
Qed.
Lemma z_ge0 k : 0 <= sz k.
Proof. by case: (eqVneq (sz k) 0) => [-> //|/z_pos /ltW]. Qed.
Lemma z_eq0 k : sz k = 0 -> sr k = 0.
Proof.
case: spd => _ _ _ _ [h _] e; apply/eqP; apply/negPn/negP => /eqP nz.
by have := h _ (free_r k) nz; rewrite -/(sq k) -szE e ltxx.
Qed.
Lemma rq_sym i j : dot (sr i) (sq j) = dot (sr j) (sq i).
Proof. by case: spd => _ _ _ h _; rewrite dotC /sq (dot_sym _ _ h). Qed.
Lemma w_p i j : dot (sw i) (sp j) = dot (sp i) (A *m sp j).
Proof.
case: spd => [[hP _]] hA _ _ _; rewrite /sw (dot_sym _ _ hP) (free_p PM) (dot_sym _ _ hA) //.
Qed.
Lemma wp_sym i j : dot (sw i) (sp j) = dot (sw j) (sp i).
Proof. by case: spd => _ hA _ _ _; rewrite !w_p -(dot_sym _ _ hA) dotC. Qed.

Lemma d_pos K : (forall k, (k < K)%N -> sz k != 0) -> forall k, (k < K)%N -> 0 < sd k.
Proof.
elim: K => [|K IH] hz k //.
have IH' := IH (fun k h => hz k (ltnW h)).
rewrite (ltnS k K) (leq_eqVlt k K) => /orP[/eqP ->|]; last exact: IH'.
have [_ _ _ e] := @core T n sr sq sp sw sz sd K (fun k _ => szE k) (fun _ _ => erefl)
   (fun k _ => srS k) sp0 (fun k _ => spS k) (fun i j _ _ => rq_sym i j)
   (fun i j _ _ => wp_sym i j) (fun k h => hz k (ltnW h)) (fun k h => lt0r_neq0 (IH' k h))
   K (leqnn K).
case: spd => _ _ h _ _; rewrite /sd w_p; apply: h; first exact: free_p PM _.
by move=> e'; have := hz K (leqnn _); rewrite -e e' dot0r eqxx.
Qed.

Section Run.
Variable K : nat.
Hypothesis zK : forall k, (k < K)%N -> sz k != 0.

Definition dK k (h : (k < K)%N) : sd k != 0 := lt0r_neq0 (d_pos zK h).

Lemma run_rank m : (m <= K.+1)%N -> (forall k, (k < m)%N -> sz k != 0) -> (m <= \rank P)%N.
Proof.
move=> mK hm.
apply: (@core_rank T n sr sq sp sw sz sd K (fun k _ => szE k) (fun _ _ => erefl)
   (fun k _ => srS k) sp0 (fun k _ => spS k) (fun i j _ _ => rq_sym i j)
   (fun i j _ _ => wp_sym i j) zK dK m P mK hm) => k _.
exact: (free_q PM k).
Qed.

Lemma run_orth v : in_span sp K v -> dot (sr K) v = 0.
Proof.
exact: (@span_orth T n sr sq sp sw sz sd K (fun k _ => szE k) (fun _ _ => erefl)
   (fun k _ => srS k) sp0 (fun k _ => spS k) (fun i j _ _ => rq_sym i j)
   (fun i j _ _ => wp_sym i j) zK dK K v (leqnn K)).
Qed.

Definition kf (v : 'cV[T]_n) := M *m (P *m (A *m v)).

Lemma kf_p j : (j < K)%N -> kf (sp j) = (sd j / sz j) *: (sq j - sq j.+1).
Proof.
move=> h; rewrite /kf -/(sw j).
rewrite (@w_diff T n sr sw sz sd K (fun k _ => srS k) zK dK j h).
by rewrite -scalemxAr mulmxBr.
Qed.

Lemma run_krylov v : krylov A P M b x0 K v -> in_span sp K v.
Proof.
move=> [c ->].
apply: (span_sum (f := fun j => c j *: iter j kf (M *m residual A P b x0))) => j jK.
apply: span_Z.
have -> : M *m residual A P b x0 = sq 0 by rewrite /sq sr_residual.
apply: (@krylov_span T n sq sp sz sd K sp0 (fun k _ => spS k)
  kf K (leqnn K) _ _ _ j jK) => [u v'|a u|i iK].
- by rewrite /kf !mulmxDr.
- by rewrite /kf -!scalemxAr.
- exact: kf_p.
Qed.

(* the directions stay in the search space *)
Lemma krylov_D k u v : krylov A P M b x0 k u -> krylov A P M b x0 k v -> krylov A P M b x0 k (u + v).
Proof.
move=> [c ->] [e ->]; exists (fun j => c j + e j).
by rewrite -big_split /=; apply: eq_bigr => j _; rewrite scalerDl.
Qed.
Lemma krylov_Z k a u : krylov A P M b x0 k u -> krylov A P M b x0 k (a *: u).
Proof.
move=> [c ->]; exists (fun j => a * c j).
by rewrite scaler_sumr; apply: eq_bigr => j _; rewrite scalerA.
Qed.
Lemma krylov_0 k : krylov A P M b x0 k 0.
Proof. by exists (fun=> 0); rewrite big1 // => j _; rewrite scale0r. Qed.
Lemma krylov_S k u : krylov A P M b x0 k u -> krylov A P M b x0 k.+1 u.
Proof.
move=> [c ->]; exists (fun j => if (j < k)%N then c j else 0).
rewrite big_ord_recr /= ltnn scale0r addr0.
by apply: eq_bigr => j _; rewrite ltn_ord.
Qed.
Lemma krylov_W k m u : (k <= m)%N -> krylov A P M b x0 k u -> krylov A P M b x0 m u.
Proof.
move=> /subnK <-; elim: (m - k)%N => [|j IH] // h.
by rewrite addSn; apply: krylov_S; exact: IH.
Qed.
Lemma krylov_f k u : krylov A P M b x0 k u -> krylov A P M b x0 k.+1 (kf u).
Proof.
move=> [c ->]; exists (fun j => if j is j'.+1 then c j' else 0).
rewrite big_ord_recl scale0r add0r.
have -> : forall (m : nat) (f : nat -> 'cV[T]_n), kf (\sum_(j < m) c j *: f j) = \sum_(j < m) c j *: kf (f j).
  move=> m f; elim: m => [|m IH]; first by rewrite !big_ord0 /kf !mulmx0.
  by rewrite !big_ord_recr /= -IH /kf !mulmxDr -!scalemxAr.
by apply: eq_bigr => j _.
Qed.

Lemma run_dirs j : krylov A P M b x0 j.+1 (sq j) /\ krylov A P M b x0 j.+1 (sp j).
Proof.
elim: j => [|j [IHq IHp]].
  have h : krylov A P M b x0 1 (sq 0).
    by exists (fun=> 1); rewrite big_ord_recr big_ord0 /= add0r scale1r /sq sr_residual.
  by split; rewrite ?sp0.
have h : krylov A P M b x0 j.+2 (sq j.+1).
  rewrite {1}/sq srS mulmxBr -/(sq j) -scalemxAr -scaleN1r.
  apply: krylov_D; first exact: krylov_S.
  by apply: krylov_Z; apply: krylov_Z; exact: (krylov_f IHp).
split=> //; rewrite spS; apply: krylov_D => //.
by apply: krylov_Z; exact: krylov_S.
Qed.

Lemma run_in : krylov A P M b x0 K (sx K - x0).
Proof.
rewrite sx_sum.
have : forall m, (m <= K)%N -> krylov A P M b x0 K (\sum_(j < m) (sz j / sd j) *: sp j).
  elim=> [|m IH] mK; first by rewrite big_ord0; exact: krylov_0.
  rewrite big_ord_recr /=; apply: krylov_D; first by apply: IH; exact: ltnW.
  by apply: krylov_Z; apply: (krylov_W mK); exact: (run_dirs m).2.
by apply.
Qed.

Lemma two0 : (2%:R : T) != 0.
Proof. by rewrite pnatr_eq0. Qed.

(* moving away from x orthogonally to the residual cannot lower the energy *)
Lemma energy_min x v : free P v -> dot (residual A P b x) v = 0 ->
  energy A b x <= energy A b (x + v).
Proof.
case: spd => [[hP _]] hA pA _ _ fv rv.
have e : dot b v = dot v (A *m x).
  move: rv; rewrite /residual (dot_sym _ _ hP) fv dotBl => /eqP.
  by rewrite subr_eq0 => /eqP ->; rewrite dotC.
have e2 : dot x (A *m v) = dot v (A *m x) by rewrite -(dot_sym _ _ hA) dotC.
have vv : 0 <= dot v (A *m v).
  case: (eqVneq v 0) => [->|/eqP nz]; first by rewrite dot0l.
  by apply: ltW; exact: pA.
rewrite /energy mulmxDr !dotDl !dotDr e e2 -subr_ge0.
set X := dot x (A *m x); set Y := dot v (A *m x); set V := dot v (A *m v) in vv *.
set B := dot b x.
have -> : (X + Y + (Y + V)) / 2%:R - (B + Y) - (X / 2%:R - B) = V / 2%:R.
  by fld.
by rewrite divr_ge0 ?ler0n.
Qed.
End Run.
End Spd.
End Cg.
