(** fast_expansion_sum_zeroelim, from the loops of the code. *)
From Coq Require Import Reals Lra Lia.
From Flocq Require Import Core Pff2Flocq Relative.
From Verif Require Import Prelude PredModel PredSpec PredProofs PredProofs2 PredProofs3 PredProofs4 PredProofs6 PredProofs7.
Open Scope R_scope.

Lemma pick_true en fn : pick_e dbl en fn = true -> Rabs en <= Rabs fn.
Proof.
  unfold pick_e. cbn. destruct (Rlt_bool_spec en fn) as [A|A], (Rlt_bool_spec (- en) fn) as [B|B]; cbn; try discriminate; intros _;
    unfold Rabs; destruct (Rcase_abs en), (Rcase_abs fn); lra.
Qed.
Lemma pick_false en fn : pick_e dbl en fn = false -> Rabs fn <= Rabs en.
Proof.
  unfold pick_e. cbn. destruct (Rlt_bool_spec en fn) as [A|A], (Rlt_bool_spec (- en) fn) as [B|B]; cbn; try discriminate; intros _;
    unfold Rabs; destruct (Rcase_abs en), (Rcase_abs fn); lra.
Qed.

Section Merge.
Variables (e f : list R) (junk : R).
Hypothesis Ge : Forall good e.
Hypothesis Gf : Forall good f.
Hypothesis We : wfwd e.
Hypothesis Wf : nonadj f.
Hypothesis Le : (length e <= 16)%nat.
Hypothesis Lf : (length f <= 16)%nat.
Hypothesis Ne : e <> [].
Hypothesis Nf : f <> [].

Lemma c_bound (j : nat) S : (j <= 32)%nat -> 0 <= S -> (1 + 2 * u * INR j) * S <= (1 + bp (-44)) * S.
Proof.
  intros Hj HS. apply Rmult_le_compat_r; [exact HS|]. apply le_INR in Hj. replace (INR 32) with 32 in Hj by (cbn; lra).
  assert (N : bp (-44) = / 17592186044416) by (cbn; lra). rewrite N, u_val. lra.
Qed.
Lemma low960 x : good x -> x <> 0 -> exists l, lowbit l x.
Proof. intros [_ H] X. destruct (lowbit_ex _ _ H X) as (l & _ & L). eauto. Qed.
Lemma bp16 n : (n <= 16)%nat -> 1 - bp (- Z.of_nat n) <= 1 - bp (-16).
Proof. intros H. assert (bp (-16) <= bp (- Z.of_nat n)) by (apply bpow_le; lia). lra. Qed.

Section State.
Variables (ce re cf rf : list R) (g r Q : R) (h : list R) (t : R).
Hypothesis Ee : e = rev ce ++ g :: re.
Hypothesis Ef : f = rev cf ++ r :: rf.
Let gce : Forall good ce. Proof. rewrite Ee in Ge. apply Forall_app in Ge. destruct Ge as [A _]. rewrite <- (rev_involutive ce). apply Forall_rev, A. Qed.
Let gcf : Forall good cf. Proof. rewrite Ef in Gf. apply Forall_app in Gf. destruct Gf as [A _]. rewrite <- (rev_involutive cf). apply Forall_rev, A. Qed.
Let gg : good g. Proof. rewrite Ee in Ge. apply Forall_app in Ge. destruct Ge as [_ A]. inversion A. assumption. Qed.
Let gr : good r. Proof. rewrite Ef in Gf. apply Forall_app in Gf. destruct Gf as [_ A]. inversion A. assumption. Qed.
Let lce : (length ce <= 15)%nat. Proof. rewrite Ee, app_length, rev_length in Le. cbn in Le. lia. Qed.
Let lcf : (length cf <= 15)%nat. Proof. rewrite Ef, app_length, rev_length in Lf. cbn in Lf. lia. Qed.
Let wce : wchain ce /\ Forall (fun z => wsep z g) ce.
Proof.
  rewrite Ee in We. apply wfwd_app in We. destruct We as (A & _ & B). split; [apply wfwd_rev, A|].
  apply Forall_forall. intros z Hz. apply B; [apply in_rev; rewrite rev_involutive; exact Hz|left; reflexivity].
Qed.
Let scf : schain cf /\ Forall (fun z => sep z r) cf.
Proof.
  rewrite Ef in Wf. apply nonadj_app in Wf. destruct Wf as (A & _ & B). split; [apply nonadj_rev, A|].
  apply Forall_forall. intros z Hz. apply B; [apply in_rev; rewrite rev_involutive; exact Hz|left; reflexivity].
Qed.
Let mce : forall x, In x ce -> multiple (-1074) x.
Proof. intros x Hx. rewrite Forall_forall in gce. apply mul_weaken with (-960)%Z; [lia|]. apply gce, Hx. Qed.
Let sum_ce l : lowbit l g -> asum ce <= bp l * (1 - bp (-16)).
Proof.
  intros L. eapply Rle_trans; [apply (wchain_sum ce (proj1 wce) mce g l L (proj2 wce))|].
  apply Rmult_le_compat_l; [left; apply bp_pos|]. apply bp16. lia.
Qed.
Let sum_cf l : lowbit l r -> asum cf <= bp l * / 2.
Proof. intros L. pose proof (schain_sum cf (proj1 scf) r l L (proj2 scf)). lra. Qed.

Lemma core_e : M Q h ce (g :: re) cf (r :: rf) t -> Rabs g <= Rabs r -> g <> 0 -> r <> 0 -> wsep ((Q + g) - rnd (Q + g)) r.
Proof.
  intros HM Hgr G0 R0. destruct (low960 g gg G0) as [lg Lg]. destruct (low960 r gr R0) as [lr Lr].
  apply (core Q g r (asum ce) (asum cf) lg lr (1 - bp (-16)) (/ 2)); try assumption; try apply HM; try apply gg; try apply gr.
  - split; [apply asum_pos|apply sum_ce, Lg].
  - split; [apply asum_pos|apply sum_cf, Lr].
  - left. auto.
  - eapply Rle_trans; [apply HM|]. apply c_bound; [lia|]. pose proof (asum_pos ce). pose proof (asum_pos cf). lra.
Qed.
Lemma core_f : M Q h ce (g :: re) cf (r :: rf) t -> Rabs r <= Rabs g -> g <> 0 -> r <> 0 -> wsep ((Q + r) - rnd (Q + r)) g.
Proof.
  intros HM Hgr G0 R0. destruct (low960 g gg G0) as [lg Lg]. destruct (low960 r gr R0) as [lr Lr].
  apply (core Q r g (asum cf) (asum ce) lr lg (/ 2) (1 - bp (-16))); try assumption; try apply HM; try apply gg; try apply gr.
  - split; [apply asum_pos|apply sum_cf, Lr].
  - split; [apply asum_pos|apply sum_ce, Lg].
  - right. auto.
  - apply M_swap in HM. eapply Rle_trans; [apply HM|]. apply c_bound; [lia|]. pose proof (asum_pos ce). pose proof (asum_pos cf). lra.
Qed.
End State.

Record Inv (s : @mst R) (ce re cf rf : list R) : Prop := {
  v_M : M (mQ s) (mh s) ce re cf rf (total e + total f);
  v_e : e = rev ce ++ re; v_f : f = rev cf ++ rf;
  v_h : (length (mh s) < length ce + length cf)%nat;
  v_ei : mei s = length ce; v_fi : mfi s = length cf;
  v_en : forall x r, re = x :: r -> men s = x; v_fn : forall x r, rf = x :: r -> mfn s = x }.
Lemma emit_len h x : (length (emitR h x) <= S (length h))%nat.
Proof. destruct (emit_cases h x) as [[_ ->]|[_ ->]]; [lia|]. rewrite app_length. cbn. lia. Qed.
Lemma v_len s ce re cf rf : Inv s ce re cf rf -> (length ce + length cf + length re + length rf <= 32)%nat.
Proof.
  intros V. pose proof (f_equal (@length R) (v_e _ _ _ _ _ V)) as A. pose proof (f_equal (@length R) (v_f _ _ _ _ _ V)) as B.
  rewrite app_length, rev_length in A, B. lia.
Qed.
Lemma rd_next (l c : list R) x r : l = rev c ++ x :: r -> forall y r', r = y :: r' -> rd junk l (S (length c)) = y.
Proof.
  intros -> y r' ->. unfold rd. replace (S (length c)) with (length (rev c ++ [x])) by (rewrite app_length, rev_length; cbn; lia).
  change (rev c ++ x :: y :: r') with (rev c ++ [x] ++ y :: r'). rewrite app_assoc, nth_middle. reflexivity.
Qed.
(** a component of e is taken *)
Lemma take_e fast s ce g re cf rf : Inv s ce (g :: re) cf rf -> (forall r rf', rf = r :: rf' -> Rabs g <= Rabs r) ->
  (fast = true -> Rabs (mQ s) <= Rabs g \/ g = 0) -> Inv (take dbl e f junk fast true s) (g :: ce) re cf rf.
Proof.
  intros V Hle Hf. destruct V as [VM Ve Vf Vh Vei Vfi Ven Vfn] eqn:EV. pose proof (v_len _ _ _ _ _ V) as VL. clear EV V.
  unfold take. rewrite (Ven g re eq_refl).
  assert (Fg : good g) by (pose proof (m_ra _ _ _ _ _ _ _ VM) as X; inversion X; assumption).
  assert (P : exact_pair (mQ s + g) (if fast then fast_two_sum dbl g (mQ s) else two_sum dbl (mQ s) g)).
  { destruct fast.
    - rewrite Rplus_comm. apply fast_two_sum_ok; [apply Fg|apply VM|apply Hf; reflexivity].
    - apply two_sum_ok; [apply VM|apply Fg]. }
  destruct (if fast then fast_two_sum dbl g (mQ s) else two_sum dbl (mQ s) g) as [Q' hh]. destruct P as (P1 & P2 & P3). cbn [fst snd] in *. subst Q' hh.
  constructor; cbn [mQ mh mei mfi men mfn].
  - apply M_step; [exact VM|cbn [length] in VL; lia|]. intros r rf' ->. split; [apply (Hle r rf' eq_refl)|].
    apply (core_e ce re cf rf' g r _ _ _ Ve Vf VM (Hle r rf' eq_refl)).
  - cbn [rev]. rewrite <- app_assoc. exact Ve.
  - exact Vf.
  - cbn [length]. pose proof (emit_len (mh s) (mQ s + g - rnd (mQ s + g))). unfold emitR in *. lia.
  - rewrite Vei. reflexivity.
  - exact Vfi.
  - intros x r E. rewrite Vei. apply (rd_next e ce g re Ve x r E).
  - exact Vfn.
Qed.
Lemma take_f fast s ce re cf g rf : Inv s ce re cf (g :: rf) -> (forall r re', re = r :: re' -> Rabs g <= Rabs r) ->
  (fast = true -> Rabs (mQ s) <= Rabs g \/ g = 0) -> Inv (take dbl e f junk fast false s) ce re (g :: cf) rf.
Proof.
  intros V Hle Hf. destruct V as [VM Ve Vf Vh Vei Vfi Ven Vfn] eqn:EV. pose proof (v_len _ _ _ _ _ V) as VL. clear EV V.
  unfold take. rewrite (Vfn g rf eq_refl).
  assert (Fg : good g) by (pose proof (m_rb _ _ _ _ _ _ _ VM) as X; inversion X; assumption).
  assert (P : exact_pair (mQ s + g) (if fast then fast_two_sum dbl g (mQ s) else two_sum dbl (mQ s) g)).
  { destruct fast.
    - rewrite Rplus_comm. apply fast_two_sum_ok; [apply Fg|apply VM|apply Hf; reflexivity].
    - apply two_sum_ok; [apply VM|apply Fg]. }
  destruct (if fast then fast_two_sum dbl g (mQ s) else two_sum dbl (mQ s) g) as [Q' hh]. destruct P as (P1 & P2 & P3). cbn [fst snd] in *. subst Q' hh.
  constructor; cbn [mQ mh mei mfi men mfn].
  - apply M_swap. apply M_step; [apply M_swap, VM|cbn [length] in VL; lia|]. intros r re' ->. split; [apply (Hle r re' eq_refl)|].
    intros G0 R0. apply (core_f ce re' cf rf r g _ _ _ Ve Vf VM (Hle r re' eq_refl) R0 G0).
  - exact Ve.
  - cbn [rev]. rewrite <- app_assoc. exact Vf.
  - cbn [length]. pose proof (emit_len (mh s) (mQ s + g - rnd (mQ s + g))). unfold emitR in *. lia.
  - exact Vei.
  - rewrite Vfi. reflexivity.
  - exact Ven.
  - intros x r E. rewrite Vfi. apply (rd_next f cf g rf Vf x r E).
Qed.
Lemma hasE_iff s ce re cf rf : Inv s ce re cf rf -> hasE e s = match re with [] => false | _ => true end.
Proof.
  intros V. unfold hasE. rewrite (v_ei _ _ _ _ _ V). pose proof (f_equal (@length R) (v_e _ _ _ _ _ V)) as A. rewrite app_length, rev_length in A.
  destruct re; cbn in A; [apply Nat.ltb_ge|apply Nat.ltb_lt]; lia.
Qed.
Lemma hasF_iff s ce re cf rf : Inv s ce re cf rf -> hasF f s = match rf with [] => false | _ => true end.
Proof.
  intros V. unfold hasF. rewrite (v_fi _ _ _ _ _ V). pose proof (f_equal (@length R) (v_f _ _ _ _ _ V)) as A. rewrite app_length, rev_length in A.
  destruct rf; cbn in A; [apply Nat.ltb_ge|apply Nat.ltb_lt]; lia.
Qed.
Lemma take_pick s ce g re cf r rf (fast : bool) : Inv s ce (g :: re) cf (r :: rf) ->
  (fast = true -> Rabs (mQ s) <= Rabs g \/ g = 0) -> (fast = true -> Rabs (mQ s) <= Rabs r \/ r = 0) ->
  (exists ce' re', Inv (take dbl e f junk fast (pick_e dbl (men s) (mfn s)) s) ce' re' cf (r :: rf) /\ length re' = length re) \/
  (exists cf' rf', Inv (take dbl e f junk fast (pick_e dbl (men s) (mfn s)) s) ce (g :: re) cf' rf' /\ length rf' = length rf).
Proof.
  intros V F1 F2. rewrite (v_en _ _ _ _ _ V g re eq_refl), (v_fn _ _ _ _ _ V r rf eq_refl).
  destruct (pick_e dbl g r) eqn:P.
  - left. exists (g :: ce), re. split; [|reflexivity]. apply take_e; [exact V| |exact F1]. intros ? ? E; injection E as <- <-. apply pick_true, P.
  - right. exists (r :: cf), rf. split; [|reflexivity]. apply take_f; [exact V| |exact F2]. intros ? ? E; injection E as <- <-. apply pick_false, P.
Qed.
Lemma loop_both_ok n s ce re cf rf : Inv s ce re cf rf -> (length re + length rf <= n)%nat ->
  exists ce' re' cf' rf', Inv (loop_both dbl e f junk n s) ce' re' cf' rf' /\ (re' = [] \/ rf' = []).
Proof.
  revert s ce re cf rf. induction n as [|n IH]; intros s ce re cf rf V L; cbn [loop_both].
  - exists ce, re, cf, rf. split; [exact V|]. left. destruct re; [reflexivity|cbn in L; lia].
  - rewrite (hasE_iff _ _ _ _ _ V), (hasF_iff _ _ _ _ _ V). destruct re as [|g re]; [exists ce, [], cf, rf; auto|].
    destruct rf as [|r rf]; [exists ce, (g :: re), cf, []; auto|]. cbn [andb].
    destruct (take_pick s ce g re cf r rf false V) as [(ce' & re' & V' & L')|(cf' & rf' & V' & L')]; try discriminate.
    + apply (IH _ _ _ _ _ V'). cbn [length] in *. lia.
    + apply (IH _ _ _ _ _ V'). cbn [length] in *. lia.
Qed.
Lemma loop_e_ok n s ce re cf rf : Inv s ce re cf rf -> (re = [] \/ rf = []) -> (length re <= n)%nat ->
  exists ce', Inv (loop_e dbl e f junk n s) ce' [] cf rf.
Proof.
  revert s ce re. induction n as [|n IH]; intros s ce re V D L; cbn [loop_e].
  - destruct re; [eauto|cbn in L; lia].
  - rewrite (hasE_iff _ _ _ _ _ V). destruct re as [|g re]; [eauto|]. destruct D as [D| ->]; [discriminate|].
    apply (IH _ (g :: ce) re); [|auto|cbn in L; lia]. apply take_e; [exact V|intros ? ? E; discriminate|discriminate].
Qed.
Lemma loop_f_ok n s ce cf rf : Inv s ce [] cf rf -> (length rf <= n)%nat -> exists cf', Inv (loop_f dbl e f junk n s) ce [] cf' [].
Proof.
  revert s cf rf. induction n as [|n IH]; intros s cf rf V L; cbn [loop_f].
  - destruct rf; [eauto|cbn in L; lia].
  - rewrite (hasF_iff _ _ _ _ _ V). destruct rf as [|g rf]; [eauto|].
    apply (IH _ (g :: cf) rf); [|cbn in L; lia]. apply take_f; [exact V|intros ? ? E; discriminate|discriminate].
Qed.
Lemma good_0 : good 0. Proof. split; [apply fmt_0|apply mul_0]. Qed.
Lemma M_init : M 0 [] [] e [] f (total e + total f).
Proof.
  constructor; try assumption; try apply Forall_nil; try apply good_0.
  - cbn. lra.
  - rewrite Rabs_R0. unfold asum, total. cbn [map fold_right]. rewrite (Rplus_0_r 0), Rmult_0_r. lra.
  - exact I.
  - intros ? ? [].
  - intros ? ? [].
  - apply nonadj_wfwd, Wf.
Qed.
Lemma start_ok : exists ce re cf rf, Inv (start dbl e f junk) ce re cf rf /\
  (forall g re', re = g :: re' -> Rabs (mQ (start dbl e f junk)) <= Rabs g \/ g = 0) /\ (forall g rf', rf = g :: rf' -> Rabs (mQ (start dbl e f junk)) <= Rabs g \/ g = 0).
Proof.
  assert (Ee : exists g re, e = g :: re) by (destruct e as [|g re]; [contradiction|eauto]). destruct Ee as (g & re & Ee).
  assert (Ef : exists r rf, f = r :: rf) by (destruct f as [|r rf]; [contradiction|eauto]). destruct Ef as (r & rf & Ef).
  pose proof M_init as MI. rewrite Ee, Ef in MI at 1.
  assert (Re : rd junk e 0 = g) by (rewrite Ee; reflexivity). assert (Rf : rd junk f 0 = r) by (rewrite Ef; reflexivity).
  unfold start. rewrite Re, Rf.
  assert (Z : forall x, is_double x -> rnd (0 + x) = x /\ emitR [] (0 + x - rnd (0 + x)) = []).
  { intros x Fx. rewrite Rplus_0_l, (rnd_id x Fx). split; [reflexivity|].
    destruct (emit_cases [] (x - x)) as [[_ E]|[E _]]; [exact E|exfalso; apply E; lra]. }
  assert (W0 : forall x r, is_double x -> wsep (0 + x - rnd (0 + x)) r).
  { intros x y Fx. left. rewrite Rplus_0_l, (rnd_id x Fx). lra. }
  destruct (pick_e dbl g r) eqn:P.
  - assert (Fg : is_double g) by (pose proof (m_ra _ _ _ _ _ _ _ MI) as X; inversion X as [|? ? [Y _]]; exact Y).
    exists [g], re, [], (r :: rf). split; [|split].
    + constructor; cbn [mQ mh mei mfi men mfn rev app length]; try reflexivity; try assumption; try lia.
      * pose proof (M_step 0 [] [] g re [] (r :: rf) _ MI) as S. destruct (Z g Fg) as [Z1 Z2]. rewrite Z1 in S at 1. rewrite Z2 in S.
        apply S; [cbn; lia|]. intros ? ? E; injection E as <- <-. split; [apply pick_true, P|]. intros _ _. apply W0, Fg.
      * intros x y Ex. unfold rd. rewrite ?Ee, ?Ef, Ex. reflexivity.
      * intros x y E. injection E as <- <-. reflexivity.
    + intros x re' ->. cbn [mQ]. pose proof (m_a _ _ _ _ _ _ _ MI) as X. cbn [wfwd] in X. destruct X as [X _]. inversion X as [|? ? Y _]; subst.
      destruct (Req_dec x 0) as [X0|X0]; [right; exact X0|left]. pose proof (wsep_half _ _ Y X0). pose proof (Rabs_pos x). lra.
    + intros x rf' E. injection E as <- <-. left. cbn [mQ]. apply pick_true, P.
  - assert (Fr : is_double r) by (pose proof (m_rb _ _ _ _ _ _ _ MI) as X; inversion X as [|? ? [Y _]]; exact Y).
    exists [], (g :: re), [r], rf. split; [|split].
    + constructor; cbn [mQ mh mei mfi men mfn rev app length]; try reflexivity; try assumption; try lia.
      * pose proof (M_step 0 [] [] r rf [] (g :: re) _ (M_swap _ _ _ _ _ _ _ MI)) as S. destruct (Z r Fr) as [Z1 Z2]. rewrite Z1 in S at 1. rewrite Z2 in S.
        apply M_swap. apply S; [cbn; lia|]. intros ? ? E; injection E as <- <-. split; [apply pick_false, P|]. intros _ _. apply W0, Fr.
      * intros x y E. injection E as <- <-. reflexivity.
      * intros x y Ex. unfold rd. rewrite ?Ee, ?Ef, Ex. reflexivity.
    + intros x re' E. injection E as <- <-. left. cbn [mQ]. apply pick_false, P.
    + intros x rf' ->. cbn [mQ]. pose proof (m_b _ _ _ _ _ _ _ MI) as X. cbn [wfwd] in X. destruct X as [X _]. inversion X as [|? ? Y _]; subst.
      destruct (Req_dec x 0) as [X0|X0]; [right; exact X0|left]. pose proof (wsep_half _ _ Y X0). pose proof (Rabs_pos x). lra.
Qed.
Lemma merge_state_ok : exists ce cf, Inv (fast_expansion_sum_state dbl e f junk) ce [] cf [].
Proof.
  unfold fast_expansion_sum_state. destruct start_ok as (ce & re & cf & rf & V & F1 & F2).
  set (s := start dbl e f junk) in *.
  assert (K : exists ce' re' cf' rf', Inv (if hasE e s && hasF f s then loop_both dbl e f junk (merge_fuel e f) (take dbl e f junk true (pick_e dbl (men s) (mfn s)) s) else s) ce' re' cf' rf'
    /\ (re' = [] \/ rf' = []) /\ (length re' + length rf' <= merge_fuel e f)%nat).
  { assert (B : forall s ce re cf rf, Inv s ce re cf rf -> (length re + length rf <= merge_fuel e f)%nat).
    { clear. intros s ce re cf rf V. unfold merge_fuel. pose proof (f_equal (@length R) (v_e _ _ _ _ _ V)) as A. pose proof (f_equal (@length R) (v_f _ _ _ _ _ V)) as B.
      rewrite app_length, rev_length in A, B. lia. }
    rewrite (hasE_iff _ _ _ _ _ V), (hasF_iff _ _ _ _ _ V).
    destruct re as [|g re]; [exists ce, [], cf, rf; split; [exact V|split; [auto|apply (B _ _ _ _ _ V)]]|].
    destruct rf as [|r rf]; [exists ce, (g :: re), cf, []; split; [exact V|split; [auto|apply (B _ _ _ _ _ V)]]|]. cbn [andb].
    destruct (take_pick s ce g re cf r rf true V (fun _ => F1 g re eq_refl) (fun _ => F2 r rf eq_refl)) as [(ce' & re' & V' & L')|(cf' & rf' & V' & L')];
      (edestruct loop_both_ok as (a & b & c & d & V2 & D2); [exact V'|apply (B _ _ _ _ _ V')|]); exists a, b, c, d; split; [exact V2|split; [exact D2|apply (B _ _ _ _ _ V2)]| exact V2|split; [exact D2|apply (B _ _ _ _ _ V2)]]. }
  destruct K as (ce' & re' & cf' & rf' & V' & D & L).
  match type of V' with Inv ?s' _ _ _ _ => change (exists ce cf, Inv (loop_f dbl e f junk (merge_fuel e f) (loop_e dbl e f junk (merge_fuel e f) s')) ce [] cf []) end.
  destruct (loop_e_ok (merge_fuel e f) _ _ _ _ _ V' D) as [ce2 V2]; [lia|].
  destruct (loop_f_ok (merge_fuel e f) _ _ _ _ V2) as [cf2 V3]; [lia|]. eauto.
Qed.

Lemma dominate l x : wfwd (l ++ [x]) -> Forall good (l ++ [x]) -> x <> 0 -> Rabs (total l) < Rabs x.
Proof.
  intros W G X0. apply Forall_app in G. destruct G as [G GX]. inversion GX as [|? ? Gx _]; subst.
  destruct (low960 x Gx X0) as [lam L]. apply wfwd_app in W. destruct W as (W1 & _ & W2).
  assert (H : asum (rev l) <= bp lam * (1 - bp (- Z.of_nat (length (rev l))))).
  { apply (wchain_sum (rev l)) with (y := x); [apply wfwd_rev; rewrite rev_involutive; exact W1| |exact L|].
    - intros y Hy. apply in_rev in Hy. rewrite Forall_forall in G. apply mul_weaken with (-960)%Z; [lia|]. apply G, Hy.
    - apply Forall_forall. intros y Hy. apply W2; [apply in_rev, Hy|left; reflexivity]. }
  assert (T : forall l, Rabs (total l) <= asum l).
  { clear. induction l as [|y l IH]; cbn [total fold_right]; [unfold total, asum; cbn; rewrite Rabs_R0; lra|]. fold (total l). rewrite asum_cons.
    pose proof (Rabs_triang y (total l)). unfold total in *. cbn [fold_right]. lra. }
  assert (R : total (rev l) = total l).
  { clear. induction l as [|y l IH]; [reflexivity|]. cbn [rev]. rewrite total_app, IH. unfold total. cbn. lra. }
  specialize (T (rev l)). rewrite R in T. pose proof (mul_ge _ _ (proj1 L) X0) as B.
  pose proof (bp_pos lam). pose proof (bp_pos (- Z.of_nat (length (rev l)))). nra.
Qed.
Lemma last_sign l x : Rabs (total l) < Rabs x -> same_sign x (total (l ++ [x])).
Proof.
  intros H. rewrite total_app. unfold total in *. cbn [fold_right]. unfold same_sign.
  set (t := fold_right Rplus 0 l) in *. clearbody t. unfold Rabs in H. destruct (Rcase_abs t), (Rcase_abs x); lra.
Qed.
Lemma merge_ok : let h := fast_expansion_sum dbl e f junk in
  total h = total e + total f /\ Forall good h /\ wfwd h /\ h <> [] /\ (length h <= length e + length f)%nat /\
  same_sign (last h 0) (total h).
Proof.
  cbv zeta. unfold fast_expansion_sum. destruct merge_state_ok as (ce & cf & V).
  set (s := fast_expansion_sum_state dbl e f junk) in *. pose proof (v_M _ _ _ _ _ V) as VM.
  assert (LL : (length (mh s) < length e + length f)%nat).
  { pose proof (f_equal (@length R) (v_e _ _ _ _ _ V)) as A. pose proof (f_equal (@length R) (v_f _ _ _ _ _ V)) as B.
    rewrite app_length, rev_length in A, B. pose proof (v_h _ _ _ _ _ V). cbn in A, B. lia. }
  clearbody s. destruct VM as [HQ Hh _ _ Hs _ Hw Hwq _ _ _ _ Hnz]. unfold total in Hs at 2 3. cbn [fold_right] in Hs.
  unfold finish. destruct (feq dbl (mQ s) (lit dbl 0)) eqn:E.
  - apply feq_true in E. destruct (mh s) as [|x h'] eqn:Eh; cbn [negb orb].
    + rewrite E. cbn [app last]. unfold total in *. cbn [fold_right] in *. cbn in LL.
      split; [lra|]. split; [constructor; [apply good_0|constructor]|]. split; [split; [constructor|exact I]|]. split; [discriminate|].
      split; [cbn; lia|]. unfold same_sign. lra.
    + destruct (exists_last (l := x :: h') ltac:(discriminate)) as (l & y & Ey). rewrite Ey in *. rewrite last_last.
      assert (Y0 : y <> 0) by (apply Forall_app in Hnz; destruct Hnz as [_ Hnz]; inversion Hnz; assumption).
      cbn in E. split; [lra|]. split; [exact Hh|]. split; [exact Hw|]. split; [destruct l; discriminate|]. split; [lia|].
      apply (last_sign l y), dominate; assumption.
  - apply feq_false in E. cbn [negb orb]. rewrite last_last, total_app, app_length. cbn [length].
    assert (W : wfwd (mh s ++ [mQ s])).
    { apply wfwd_app. split; [exact Hw|split; [cbn; auto|]]. intros x y Hx [<-|[]]. rewrite Forall_forall in Hwq. apply Hwq, Hx. }
    assert (G : Forall good (mh s ++ [mQ s])) by (apply Forall_app; split; [exact Hh|constructor; [exact HQ|constructor]]).
    split; [unfold total at 2; cbn [fold_right]; lra|]. split; [exact G|]. split; [exact W|]. split; [destruct (mh s); discriminate|]. split; [lia|].
    rewrite <- total_app. apply last_sign, dominate; assumption.
Qed.
End Merge.
