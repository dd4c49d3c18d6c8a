(* The conjugate residual solver follows the abstract recurrences. *)
From mathcomp Require Import all_ssreflect all_algebra.
From Verif Require Import CgModel CgSpec CgProofs CgProofs2.
Import GRing.Theory Num.Theory Order.Theory.
Set Implicit Arguments.
Unset Strict Implicit.
Unset Printing Implicit Defensive.
Local Open Scope ring_scope.

Section Cr.
Variable T : rcfType.
Variable n : nat.
Variable S : system T n.
Notation A := (multiply S).
Notation P := (project S).
Notation M := (precondition S).
Variables (x0 b : 'cV[T]_n).

(* the quantities a step computes from a state *)
Definition s_rAr (s : cres T n) : T := dot (kr s) (P *m (A *m kr s)).
Definition s_dir (s : cres T n) : 'cV[T]_n :=
  if krAr s != 0 then kr s + (s_rAr s / krAr s) *: kp s else kp s.
Definition s_Ap (s : cres T n) : 'cV[T]_n :=
  if krAr s != 0 then P *m (A *m kr s) + (s_rAr s / krAr s) *: kAp s else kAp s.
Definition s_d (s : cres T n) : T := dot (M *m s_Ap s) (s_Ap s).
Definition s_next (s : cres T n) : cres T n :=
  Cres (kx s + (s_rAr s / s_d s) *: s_dir s) (krr s - (s_rAr s / s_d s) *: s_Ap s)
       (kr s - (s_rAr s / s_d s) *: (M *m s_Ap s)) (s_dir s) (s_Ap s) (s_rAr s).

Lemma cr_stepE s :
  cr_step S s = if (s_rAr s == 0) || (s_d s == 0) then None else Some (s_next s).
Proof.
rewrite /cr_step dotProductE -/(s_rAr s); case: (s_rAr s == 0) => //=.
rewrite /s_next /s_d /s_dir /s_Ap.
case: (krAr s != 0); rewrite !dotProductE !linear_combineE; case: ifP => // _;
  by rewrite !scaleNr.
Qed.

Lemma cr_loopE left it tol s :
  exists2 k, (k <= left)%N &
    [/\ cr_loop S left it tol s = (iter k s_next s, (it + k)%N),
        forall j, (j < k)%N ->
          s_rAr (iter j s_next s) != 0 /\ s_d (iter j s_next s) != 0 &
        (k < left)%N -> let e := iter k s_next s in
          dot (krr e) (krr e) <= tol \/ s_rAr e = 0 \/ s_d e = 0].
Proof.
elim: left it s => [|left IH] it s /=; first by exists 0%N => //; rewrite addn0.
rewrite dotProductE; case: ifP => h; first by exists 0%N => //; rewrite addn0; split=> // _; left.
rewrite cr_stepE; case: ifP => h'.
  exists 0%N => //; rewrite addn0; split=> // _; right.
  by case/orP: h' => /eqP; [left | right].
have [k kl [-> h1 h2]] := IH it.+1 (s_next s).
exists k.+1 => //; split.
- by rewrite -iterSr addSnnS.
- case=> [|j] jk; rewrite ?iterSr; last exact: h1.
  by move/negbT: h'; rewrite negb_or => /andP.
- by rewrite iterSr; exact: h2.
Qed.

Definition ct k := iter k s_next (cr_init S x0 b).
Definition tq k := kr (ct k).
Definition tr k := P *m (A *m tq k).
Definition tp k := s_dir (ct k).
Definition tA k := s_Ap (ct k).
Definition tw k := P *m (A *m (M *m tA k)).
Definition tz k := s_rAr (ct k).
Definition td k := s_d (ct k).
Definition tx k := kx (ct k).

Lemma tzE k : tz k = dot (tr k) (tq k).
Proof. by rewrite dotC. Qed.
Lemma tqS k : tq k.+1 = tq k - (tz k / td k) *: (M *m tA k).
Proof. by []. Qed.
Lemma trS k : tr k.+1 = tr k - (tz k / td k) *: tw k.
Proof. by rewrite /tr tqS !mulmxBr -!scalemxAr. Qed.
Lemma tp0 : tp 0 = tq 0.
Proof. by rewrite /tp /s_dir /= eqxx. Qed.
Lemma tpS k : tz k != 0 -> tp k.+1 = tq k.+1 + (tz k.+1 / tz k) *: tp k.
Proof. by move=> h; rewrite /tp /s_dir {1}/ct /= -/(ct k) -/(tz k) h. Qed.
Lemma tAS k : tz k != 0 -> tA k.+1 = tr k.+1 + (tz k.+1 / tz k) *: tA k.
Proof. by move=> h; rewrite /tA /s_Ap {1}/ct /= -/(ct k) -/(tz k) h. Qed.
Lemma rrS k : krr (ct k.+1) = krr (ct k) - (tz k / td k) *: tA k.
Proof. by []. Qed.
Lemma txS k : tx k.+1 = tx k + (tz k / td k) *: tp k.
Proof. by []. Qed.

Section Spd.
Hypothesis spd : spd_system A P M.
Let PM : P *m M = M := PM spd.
Let sP : symmetric P. Proof. by case: spd => [[]]. Qed.
Let PP : P *m P = P. Proof. by case: spd => [[]]. Qed.
Let sA : symmetric A. Proof. by case: spd. Qed.
Let sM : symmetric M. Proof. by case: spd. Qed.
Let pA : positive_on P A. Proof. by case: spd. Qed.
Let pM : positive_on P M. Proof. by case: spd => _ _ _ _ []. Qed.
Lemma MP : M *m P = M.
Proof. by have := congr1 trmx PM; rewrite trmx_mul sP sM. Qed.

Section Run.
Variable K : nat.
Hypothesis zK : forall k, (k < K)%N -> tz k != 0.
Hypothesis dK : forall k, (k < K)%N -> td k != 0.

Lemma tAE k : (k <= K)%N -> P *m tA k = P *m (A *m tp k).
Proof.
elim: k => [|k IH] kK.
  by rewrite /tA /tp /s_Ap /s_dir /= eqxx.
rewrite (tpS (zK kK)) (tAS (zK kK)) [in LHS]mulmxDr {1}/tr [P *m (P *m _)]mulmxA PP.
by rewrite !mulmxDr -!scalemxAr IH // ltnW.
Qed.
Lemma MtA k : (k <= K)%N -> M *m tA k = M *m (P *m (A *m tp k)).
Proof. by move=> h; rewrite -{1}MP -mulmxA tAE. Qed.

Lemma residual_r k : (k <= K)%N -> P *m krr (ct k) = residual A P b (tx k).
Proof.
elim: k => [|k IH] kK; first by rewrite /= minusE /residual mulmxA PP.
rewrite txS /residual [A *m (_ + _)]mulmxDr opprD addrA [in RHS]mulmxDr.
rewrite -/(residual A P b (tx k)) -IH; last exact: ltnW.
rewrite rrS mulmxBr -scalemxAr tAE; last exact: ltnW.
by rewrite -scalemxAr mulmxN -scalemxAr.
Qed.
Lemma residual_q k : (k <= K)%N -> tq k = M *m residual A P b (tx k).
Proof.
elim: k => [|k IH] kK; first by rewrite /tq /= minusE.
rewrite tqS IH; last exact: ltnW.
rewrite MtA; last exact: ltnW.
rewrite txS /residual [A *m (_ + _)]mulmxDr opprD addrA.
rewrite [in RHS]mulmxDr [in RHS]mulmxDr; congr (_ + _).
by rewrite !mulmxN -!scalemxAr.
Qed.
Lemma free_tq k : (k <= K)%N -> P *m tq k = tq k.
Proof. by move=> h; rewrite residual_q // mulmxA PM. Qed.
Lemma free_tp k : (k <= K)%N -> P *m tp k = tp k.
Proof.
elim: k => [|k IH] kK; first by rewrite tp0 free_tq.
by rewrite (tpS (zK kK)) mulmxDr -scalemxAr IH ?free_tq // ltnW.
Qed.
Lemma rq_sym_cr i j : (i <= K)%N -> (j <= K)%N -> dot (tr i) (tq j) = dot (tr j) (tq i).
Proof.
move=> hi hj; rewrite /tr !(dot_sym _ _ sP) !free_tq // !(dot_sym _ _ sA).
by rewrite -(dot_sym _ _ sA) dotC.
Qed.
Lemma tw_p i j : (i <= K)%N -> (j <= K)%N ->
  dot (tw i) (tp j) = dot (M *m (P *m (A *m tp i))) (P *m (A *m tp j)).
Proof.
move=> hi hj; rewrite /tw (dot_sym _ _ sP) free_tp // (dot_sym _ _ sA) MtA //.
by rewrite -{1}PM -mulmxA (dot_sym _ _ sP).
Qed.
Lemma wp_sym_cr i j : (i <= K)%N -> (j <= K)%N -> dot (tw i) (tp j) = dot (tw j) (tp i).
Proof. by move=> hi hj; rewrite !tw_p // (dot_sym _ _ sM) dotC. Qed.
Lemma tdE k : (k <= K)%N -> td k = dot (M *m (P *m (A *m tp k))) (P *m (A *m tp k)).
Proof.
move=> h; rewrite /td /s_d -/(tA k) (MtA h) -(tAE h).
rewrite -{1}PM -mulmxA (dot_sym _ _ sP); reflexivity.
Qed.
Lemma tdE' k : (k < K)%N -> td k = dot (tw k) (tp k).
Proof. by move=> h; rewrite tdE ?tw_p // ltnW. Qed.

Lemma cr_dir : dot (tr K) (tp K) = tz K.
Proof.
have [_ _ _ ] := @core T n tr tq tp tw tz td K (fun k _ => tzE k) tdE'
   (fun k _ => trS k) tp0 (fun k h => tpS (zK h)) rq_sym_cr wp_sym_cr zK dK K (leqnn K).
by [].
Qed.

Lemma cr_rank m : (m <= K.+1)%N -> (forall k, (k < m)%N -> tz k != 0) -> (m <= \rank P)%N.
Proof.
move=> mK hm.
apply: (@core_rank T n tr tq tp tw tz td K (fun k _ => tzE k) tdE'
   (fun k _ => trS k) tp0 (fun k h => tpS (zK h)) rq_sym_cr wp_sym_cr zK dK m P mK hm) => k km.
by apply: free_tq; rewrite -ltnS; apply: leq_trans mK.
Qed.

(* the second break is never taken before the first *)
Lemma cr_d : td K = 0 -> tz K = 0.
Proof.
rewrite tdE // => e.
have h : P *m (A *m tp K) = 0.
  apply/eqP; apply/negPn/negP => /eqP nz.
  have := pM _ nz; rewrite /free mulmxA PP => /(_ erefl).
  by rewrite dotC e ltxx.
have h2 : tp K = 0.
  apply/eqP; apply/negPn/negP => /eqP nz.
  have := pA (free_tp (leqnn K)) nz.
  by rewrite -{1}(free_tp (leqnn K)) (dot_sym _ _ sP) h dot0r ltxx.
by rewrite -cr_dir h2 dot0r.
Qed.

Lemma cr_zero : tz K = 0 -> residual A P b (tx K) = 0.
Proof.
move=> e.
have q0 : tq K = 0.
  apply/eqP; apply/negPn/negP => /eqP nz.
  have := pA (free_tq (leqnn K)) nz.
  rewrite -{1}(free_tq (leqnn K)) (dot_sym _ _ sP).
  by rewrite /tz /s_rAr -/(tq K) in e; rewrite e ltxx.
apply/eqP; apply/negPn/negP => /eqP nz.
have := pM _ nz; rewrite /free {1 2}/residual mulmxA PP => /(_ erefl).
by rewrite -(residual_q (leqnn K)) q0 dot0r ltxx.
Qed.

Lemma cr_span_orth v : in_span tp K v -> dot (tr K) v = 0.
Proof.
exact: (@span_orth T n tr tq tp tw tz td K (fun k _ => tzE k) tdE'
   (fun k _ => trS k) tp0 (fun k h => tpS (zK h)) rq_sym_cr wp_sym_cr zK dK K v (leqnn K)).
Qed.
Lemma tx_sum k : tx k - x0 = \sum_(j < k) (tz j / td j) *: tp j.
Proof.
elim: k => [|k IH]; first by rewrite big_ord0 subrr.
by rewrite big_ord_recr /= -IH txS addrAC.
Qed.

Lemma kf_tp j : (j < K)%N -> kf S (tp j) = (td j / tz j) *: (tq j - tq j.+1).
Proof.
move=> h; rewrite tqS opprB addrC subrK scalerA mulrA divfK ?zK // divff ?dK // scale1r.
by rewrite (MtA (ltnW h)).
Qed.
Lemma cr_krylov v : krylov A P M b x0 K v -> in_span tp K v.
Proof.
move=> [c ->].
apply: (span_sum (f := fun j => c j *: iter j (kf S) (M *m residual A P b x0))) => j jK.
apply: span_Z.
have -> : M *m residual A P b x0 = tq 0 by rewrite residual_q.
apply: (@krylov_span T n tq tp tz td K tp0 (fun k h => tpS (zK h))
  (kf S) K (leqnn K) _ _ _ j jK) => [u v'|a u|i iK].
- by rewrite /kf !mulmxDr.
- by rewrite /kf -!scalemxAr.
- exact: kf_tp.
Qed.

Lemma cr_dirs j : (j <= K)%N ->
  krylov A P M b x0 j.+1 (tq j) /\ krylov A P M b x0 j.+1 (tp j).
Proof.
elim: j => [|j IH] jK.
  have h : krylov A P M b x0 1 (tq 0).
    by exists (fun=> 1); rewrite big_ord_recr big_ord0 /= add0r scale1r residual_q.
  by split; rewrite ?tp0.
have [IHq IHp] := IH (ltnW jK).
have h : krylov A P M b x0 j.+2 (tq j.+1).
  rewrite tqS (MtA (ltnW jK)) -scaleN1r.
  apply: krylov_D; first exact: krylov_S.
  by apply: krylov_Z; apply: krylov_Z; exact: (krylov_f IHp).
split=> //; rewrite (tpS (zK jK)); apply: krylov_D => //.
by apply: krylov_Z; exact: krylov_S.
Qed.
Lemma cr_in : krylov A P M b x0 K (tx K - x0).
Proof.
rewrite tx_sum.
have : forall m, (m <= K)%N -> krylov A P M b x0 K (\sum_(j < m) (tz j / td j) *: tp j).
  elim=> [|m IH] mK; first by rewrite big_ord0; exact: krylov_0.
  rewrite big_ord_recr /=; apply: krylov_D; first by apply: IH; exact: ltnW.
  by apply: krylov_Z; apply: (krylov_W mK); exact: (cr_dirs (ltnW mK)).2.
by apply.
Qed.

(* the residual in the norm of the preconditioner is least *)
Definition mres x := dot (residual A P b x) (M *m residual A P b x).
Lemma cr_min v : in_span tp K v -> mres (tx K) <= mres (tx K + v).
Proof.
move=> sv; have o := cr_span_orth sv.
have fv : free P v.
  case: sv => c ->; rewrite /free.
  have : forall m, (m <= K)%N -> free P (\sum_(j < m) c j *: tp j).
    elim=> [|m IH] mK; first by rewrite big_ord0 /free mulmx0.
    rewrite big_ord_recr /= /free mulmxDr IH; last exact: ltnW.
    by rewrite -scalemxAr free_tp // ltnW.
  by apply.
rewrite /mres.
have -> : residual A P b (tx K + v) = residual A P b (tx K) - P *m (A *m v).
  by rewrite /residual [A *m (_ + _)]mulmxDr opprD addrA mulmxDr mulmxN.
set R := residual A P b (tx K); set W := P *m (A *m v).
have h : dot R (M *m W) = 0.
  rewrite -(dot_sym _ _ sM) -/R -(residual_q (leqnn K)) -o /tr /W.
  by rewrite !(dot_sym _ _ sP) fv -(dot_sym _ _ sP) free_tq // (dot_sym _ _ sA).
have h' : dot W (M *m R) = 0 by rewrite -(dot_sym _ _ sM) dotC.
rewrite mulmxBr dotBl !dotBr h h' subr0 sub0r opprK ler_addl.
case: (eqVneq W 0) => [->|/eqP nz]; first by rewrite dot0l.
by apply: ltW; apply: pM nz; rewrite /free /W mulmxA PP.
Qed.
End Run.
End Spd.

Lemma proj_le (v : 'cV[T]_n) : projection P -> dot (P *m v) (P *m v) <= dot v v.
Proof.
move=> [sP PP].
have e : dot (v - P *m v) (v - P *m v) = dot v v - dot (P *m v) (P *m v).
  have h : dot (P *m v) (P *m v) = dot v (P *m v) by rewrite (dot_sym _ _ sP) mulmxA PP.
  by rewrite dotBl !dotBr h (dotC _ v) subrr subr0.
by rewrite -subr_ge0 -e dot_ge0.
Qed.
End Cr.
