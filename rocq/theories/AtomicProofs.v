From Verif Require Import Prelude AtomicModel AtomicSpec.

Section A.
Context {W : Type}.
Variable weq : forall a b : W, {a = b} + {a <> b}.
Variable vne vlt : W -> W -> bool.
Variable plus : W -> W -> W.
Notation op := (@op W). Notation pc := (@pc W). Notation thread := (@thread W). Notation state := (@state W).
Notation OA := (one_after_the_other vlt plus). Notation effect := (effect vlt plus).
Notation thread_step := (thread_step weq vne vlt plus). Notation step := (step weq vne vlt plus). Notation steps := (steps weq vne vlt plus).
(** the values that occur *)
Variable P : W -> Prop.
Variable Q : op -> Prop.
Hypothesis PQ : forall o x, Q o -> P x -> P (effect o x).
Hypothesis vne_eq : forall a b v, Q (Max v) \/ Q (Min v) -> P a -> P b -> vne a b = false -> a = b.
Hypothesis vne_refl : forall a b, vlt a b = true \/ vlt b a = true -> vne a a = false.

Lemma OA_app x l y i o : OA x l y -> OA x (l ++ [(i, o, y)]) (effect o y).
Proof. induction 1 as [x|x j o' l y H IH]; cbn; constructor; [constructor|exact IH]. Qed.

(** the call a thread is executing *)
Definition pending (p : pc) : list op := match p with Idle => [] | AddLoop v _ => [Add v] | MaxLoop v _ => [Max v] | MinLoop v _ => [Min v] end.
(** what is known of the remembered value *)
Definition pc_ok (p : pc) : Prop := match p with Idle => True | AddLoop v a => P a /\ Q (Add v) | MaxLoop v a => P a /\ vlt a v = true /\ Q (Max v) | MinLoop v a => P a /\ vlt v a = true /\ Q (Min v) end.
Definition thread_ok (t : thread) : Prop := pc_ok (at_ t) /\ Forall Q (todo t).

Lemma thread_step_ok c t c' t' ret : P c -> thread_ok t -> thread_step c t = Some (c', t', ret) ->
  P c' /\ thread_ok t' /\
  match ret with
  | None => c' = c /\ pending (at_ t') ++ todo t' = pending (at_ t) ++ todo t
  | Some (o, v) => v = c /\ c' = effect o c /\ o :: pending (at_ t') ++ todo t' = pending (at_ t) ++ todo t
  end.
Proof.
  intros Pc [Hp Hq] E. unfold thread_step in E. destruct t as [p td]. cbn [at_ todo] in *. destruct p as [|v old|v a|v a].
  - destruct td as [|o r]; [discriminate|]. inversion Hq as [|? ? Qo Qr]; subst. destruct o as [v|v|v|v]; cbn [start] in E; unfold max_head, min_head in E.
    + injection E as <- <- <-. cbn. split; [exact Pc|]. split; [split; cbn; auto|]. auto.
    + destruct (vlt c v) eqn:L; injection E as <- <- <-; cbn.
      * split; [exact Pc|]. split; [split; cbn; auto|]. auto.
      * split; [exact Pc|]. split; [split; cbn; auto|]. rewrite L. auto.
    + destruct (vlt v c) eqn:L; injection E as <- <- <-; cbn.
      * split; [exact Pc|]. split; [split; cbn; auto|]. auto.
      * split; [exact Pc|]. split; [split; cbn; auto|]. rewrite L. auto.
    + injection E as <- <- <-. cbn. split; [apply (PQ _ c Qo Pc)|]. split; [split; cbn; auto|]. auto.
  - cbn [pc_ok] in Hp. destruct Hp as [Pa Qv]. cbn [continue_ cas] in E. destruct (weq c old) as [->|Ne]; injection E as <- <- <-; cbn.
    + split; [apply (PQ _ old Qv Pc)|]. split; [split; cbn; auto|]. auto.
    + split; [exact Pc|]. split; [split; cbn; auto|]. auto.
  - cbn [pc_ok] in Hp. destruct Hp as (Pa & L & Qv). cbn [continue_ cas] in E. destruct (vne c a) eqn:V; unfold max_head in E.
    + assert (Ne : c <> a) by (intros ->; rewrite (vne_refl a v) in V by auto; discriminate). destruct (weq c a); [contradiction|].
      destruct (vlt c v) eqn:L'; injection E as <- <- <-; cbn.
      * split; [exact Pc|]. split; [split; cbn; auto|]. auto.
      * split; [exact Pc|]. split; [split; cbn; auto|]. rewrite L'. auto.
    + rewrite (vne_eq c a v ltac:(auto) Pc Pa V) in *. destruct (weq a a); [|contradiction]. injection E as <- <- <-. cbn. rewrite L.
      split; [|split; [split; cbn; auto|]; auto]. pose proof (PQ _ a Qv Pa) as K. cbn in K. rewrite L in K. exact K.
  - cbn [pc_ok] in Hp. destruct Hp as (Pa & L & Qv). cbn [continue_ cas] in E. destruct (vne c a) eqn:V; unfold min_head in E.
    + assert (Ne : c <> a) by (intros ->; rewrite (vne_refl a v) in V by auto; discriminate). destruct (weq c a); [contradiction|].
      destruct (vlt v c) eqn:L'; injection E as <- <- <-; cbn.
      * split; [exact Pc|]. split; [split; cbn; auto|]. auto.
      * split; [exact Pc|]. split; [split; cbn; auto|]. rewrite L'. auto.
    + rewrite (vne_eq c a v ltac:(auto) Pc Pa V) in *. destruct (weq a a); [|contradiction]. injection E as <- <- <-. cbn. rewrite L.
      split; [|split; [split; cbn; auto|]; auto]. pose proof (PQ _ a Qv Pa) as K. cbn in K. rewrite L in K. exact K.
Qed.

Lemma calls_app i (l : list (nat * op * W)) (e : nat * op * W) : calls_of i (l ++ [e]) = calls_of i l ++ (if fst (fst e) =? i then [snd (fst e)] else []).
Proof. unfold calls_of. rewrite filter_app, map_app. cbn. destruct (fst (fst e) =? i); reflexivity. Qed.

Definition inv (c0 : W) (progs : list (list op)) (s : state) : Prop :=
  P (cell s) /\ (forall t, In t (threads s) -> thread_ok t) /\ OA c0 (log s) (cell s) /\ length (threads s) = length progs /\
  (forall i o v, In (i, o, v) (log s) -> i < length progs) /\
  forall i t p, nth_error (threads s) i = Some t -> nth_error progs i = Some p -> calls_of i (log s) ++ pending (at_ t) ++ todo t = p.
Lemma inv_init c0 progs : P c0 -> (forall p o, In p progs -> In o p -> Q o) -> inv c0 progs (init c0 progs).
Proof.
  intros Pc HQ. unfold init. split; [exact Pc|]. cbn. split; [|split; [constructor|split; [apply map_length|split; [intros ? ? ? []|]]]].
  - intros t Ht. apply in_map_iff in Ht as (p & <- & Hp). split; cbn; [exact I|]. apply Forall_forall. intros o Ho. eapply HQ; eassumption.
  - intros i t p Ht Hp. rewrite nth_error_map, Hp in Ht. cbn in Ht. injection Ht as <-. reflexivity.
Qed.
Lemma inv_step c0 progs s s' : inv c0 progs s -> step s s' -> inv c0 progs s'.
Proof.
  intros (Pc & Tok & L & Len & Ids & Pr) St. destruct St as [s i t c t' ret ts Hi Ht Hu].
  destruct (thread_step_ok _ _ _ _ _ Pc (Tok t (nth_error_In _ _ Hi)) Ht) as (Pc' & Tok' & R).
  assert (Hts : forall j u, nth_error ts j = Some u -> (j = i /\ u = t') \/ (j <> i /\ nth_error (threads s) j = Some u)).
  { intros j u Hj. destruct (Nat.eq_dec i j) as [<-|Ne].
    - rewrite (upd_nth_eq _ _ _ _ Hu) in Hj. injection Hj as <-. auto.
    - right. rewrite (upd_nth_neq _ _ _ _ _ Hu Ne) in Hj. auto. }
  pose proof (nth_error_some_lt _ _ _ Hi) as Li.
  unfold inv; cbn [cell threads log]. split; [exact Pc'|]. split; [|split; [|split; [|split]]].
  - intros u Hin. apply In_nth_error in Hin as [j Hj]. destruct (Hts j u Hj) as [[_ ->]|[_ K]]; [exact Tok'|]. apply Tok. eapply nth_error_In; exact K.
  - destruct ret as [[o v]|].
    + destruct R as (-> & -> & _). apply OA_app. exact L.
    + destruct R as [-> _]. exact L.
  - rewrite (upd_length _ _ _ _ Hu). exact Len.
  - destruct ret as [[o v]|]; [|exact Ids]. intros j o' v' Hin. apply in_app_iff in Hin as [Hin|[Hin|[]]]; [eapply Ids; exact Hin|]. injection Hin as <- <- <-. lia.
  - intros j u p Hj Hp. destruct (Hts j u Hj) as [[-> ->]|[Ne K]].
    + pose proof (Pr i t p Hi Hp) as K. destruct ret as [[o v]|].
      * destruct R as (_ & _ & R). rewrite calls_app. cbn [fst snd]. rewrite Nat.eqb_refl, <- app_assoc. cbn [app]. rewrite R. exact K.
      * destruct R as [_ R]. rewrite R. exact K.
    + pose proof (Pr j u p K Hp) as K'. destruct ret as [[o v]|]; [|exact K']. rewrite calls_app. cbn [fst snd]. destruct (Nat.eqb_spec i j); [congruence|]. rewrite app_nil_r. exact K'.
Qed.
Lemma inv_steps c0 progs n s : P c0 -> (forall p o, In p progs -> In o p -> Q o) -> steps n (init c0 progs) s -> inv c0 progs s.
Proof.
  intros Pc HQ H. remember (init c0 progs) as s0. induction H as [s|n s s' s'' H IH St]; subst; [apply inv_init; assumption|].
  eapply inv_step; [apply IH; reflexivity|exact St].
Qed.

(** termination: a retry is paid for by a call of another thread *)
Definition stale (c : W) (p : pc) : nat :=
  match p with Idle => 0 | AddLoop _ a | MaxLoop _ a | MinLoop _ a => if weq c a then 0 else 1 end.
Definition weight (n : nat) (c : W) (t : thread) : nat := (n + 2) * length (todo t) + match at_ t with Idle => 0 | p => n + 1 + stale c p end.
Fixpoint sum (f : thread -> nat) (l : list thread) : nat := match l with [] => 0 | t :: r => f t + sum f r end.
Definition measure (s : state) : nat := sum (weight (length (threads s)) (cell s)) (threads s).
Lemma stale_le c p : stale c p <= 1.
Proof. destruct p; cbn; try destruct weq; lia. Qed.
Lemma sum_le f g l : (forall t, In t l -> f t <= g t) -> sum f l <= sum g l.
Proof. induction l as [|a l IH]; cbn; intro H; [lia|]. pose proof (H a (or_introl eq_refl)). specialize (IH (fun t Ht => H t (or_intror Ht))). lia. Qed.
Lemma sum_add f l k : sum (fun t => f t + k) l = sum f l + k * length l.
Proof. induction l as [|a l IH]; cbn; [lia|]. rewrite IH. lia. Qed.
Lemma sum_upd f i t : forall l t' l', nth_error l i = Some t -> upd l i t' = Some l' -> sum f l' + f t = sum f l + f t'.
Proof.
  induction i as [|i IH]; intros [|a l] t' l' Hn Hu; cbn in Hn, Hu; try discriminate.
  - injection Hn as ->. injection Hu as <-. cbn. lia.
  - destruct (upd l i t') as [r|] eqn:E; [|discriminate]. injection Hu as <-. cbn. pose proof (IH l t' r Hn E). lia.
Qed.
Lemma weight_step n c t c' t' ret : thread_ok t -> P c -> thread_step c t = Some (c', t', ret) ->
  (c' = c /\ weight n c' t' < weight n c t) \/ weight n c' t' + n + 1 <= weight n c t.
Proof.
  intros [Hp Hq] Pc E. unfold thread_step in E. destruct t as [p td]. cbn [at_ todo] in *. unfold weight. destruct p as [|v old|v a|v a].
  - destruct td as [|o r]; [discriminate|]. destruct o as [v|v|v|v]; cbn [start] in E; unfold max_head, min_head in E.
    + injection E as <- <- <-. cbn [at_ todo length stale]. left. split; [reflexivity|]. destruct (weq c c); [|contradiction]. lia.
    + destruct (vlt c v) eqn:L; injection E as <- <- <-; cbn [at_ todo length stale]; [|right; lia]. left. split; [reflexivity|]. destruct (weq c c); [|contradiction]. lia.
    + destruct (vlt v c) eqn:L; injection E as <- <- <-; cbn [at_ todo length stale]; [|right; lia]. left. split; [reflexivity|]. destruct (weq c c); [|contradiction]. lia.
    + injection E as <- <- <-. cbn [at_ todo length stale]. right. lia.
  - cbn [continue_ cas] in E. destruct (weq c old) as [->|Ne]; injection E as <- <- <-; cbn [at_ todo length stale].
    + right. lia.
    + left. split; [reflexivity|]. destruct (weq c c); [|contradiction]. destruct (weq c old); [contradiction|]. lia.
  - cbn [pc_ok] in Hp. destruct Hp as (Pa & L & Qv). cbn [continue_ cas] in E. destruct (vne c a) eqn:V; unfold max_head in E.
    + assert (Ne : c <> a) by (intros ->; rewrite (vne_refl a v) in V by auto; discriminate). destruct (weq c a); [contradiction|].
      destruct (vlt c v) eqn:L'; injection E as <- <- <-; cbn [at_ todo length stale]; [|right; lia]. left. split; [reflexivity|].
      destruct (weq c c); [|contradiction]. destruct (weq c a); [contradiction|]. lia.
    + injection E as <- <- <-; cbn [at_ todo length stale]. right. lia.
  - cbn [pc_ok] in Hp. destruct Hp as (Pa & L & Qv). cbn [continue_ cas] in E. destruct (vne c a) eqn:V; unfold min_head in E.
    + assert (Ne : c <> a) by (intros ->; rewrite (vne_refl a v) in V by auto; discriminate). destruct (weq c a); [contradiction|].
      destruct (vlt v c) eqn:L'; injection E as <- <- <-; cbn [at_ todo length stale]; [|right; lia]. left. split; [reflexivity|].
      destruct (weq c c); [|contradiction]. destruct (weq c a); [contradiction|]. lia.
    + injection E as <- <- <-; cbn [at_ todo length stale]. right. lia.
Qed.
Lemma measure_step c0 progs s s' : inv c0 progs s -> step s s' -> measure s' < measure s.
Proof.
  intros (Pc & Tok & _) St. destruct St as [s i t c t' ret ts Hi Ht Hu]. unfold measure. cbn [cell threads]. rewrite (upd_length _ _ _ _ Hu).
  set (n := length (threads s)).
  destruct (weight_step n _ _ _ _ _ (Tok t (nth_error_In _ _ Hi)) Pc Ht) as [[-> Hw]|Hw].
  - pose proof (sum_upd (weight n (cell s)) i t (threads s) t' ts Hi Hu). lia.
  - pose proof (sum_upd (weight n c) i t (threads s) t' ts Hi Hu) as Q1.
    (* all threads may become stale, thread i is counted separately *)
    assert (Q2 : forall l j, nth_error l j = Some t -> sum (weight n c) l + weight n (cell s) t + 1 <= sum (weight n (cell s)) l + length l + weight n c t).
    { assert (W1 : forall u, weight n c u <= weight n (cell s) u + 1).
      { intro u. unfold weight. destruct (at_ u) as [|v old|v a|v a]; [lia| | |]; cbn [stale]; destruct (weq c _), (weq (cell s) _); lia. }
      intro l. induction l as [|a l IH]; intros [|j] Hj; cbn in Hj; try discriminate; cbn [sum length].
      - injection Hj as ->. pose proof (sum_le (weight n c) (fun u => weight n (cell s) u + 1) l (fun u _ => W1 u)) as K. rewrite sum_add in K. lia.
      - specialize (IH j Hj). pose proof (W1 a). lia. }
    specialize (Q2 (threads s) i Hi). fold n in Q2. lia.
Qed.
Lemma measure_init c0 progs : measure (init c0 progs) = (length progs + 2) * length (concat progs).
Proof.
  unfold measure, init. cbn [cell threads]. rewrite map_length. set (n := length progs). clearbody n. induction progs as [|p r IH]; cbn [map sum concat]; [cbn; lia|].
  rewrite IH, app_length. unfold weight at 1. cbn [at_ todo]. lia.
Qed.
Lemma steps_bound c0 progs n s : P c0 -> (forall p o, In p progs -> In o p -> Q o) -> steps n (init c0 progs) s -> n + measure s <= (length progs + 2) * length (concat progs).
Proof.
  intros Pc HQ H. rewrite <- (measure_init c0). remember (init c0 progs) as s0. induction H as [s|n s s' s'' H IH St]; subst; [lia|].
  specialize (IH eq_refl). pose proof (measure_step c0 progs s' s'' (inv_steps c0 progs n s' Pc HQ H) St). lia.
Qed.
(** an unfinished machine can step *)
Lemma progress s : (exists t, In t (threads s) /\ (at_ t <> Idle \/ todo t <> [])) -> exists s', step s s'.
Proof.
  intros (t & Hin & H). apply In_nth_error in Hin as [i Hi]. assert (K : exists c t' ret, thread_step (cell s) t = Some (c, t', ret)).
  { unfold thread_step. destruct t as [p td]; cbn [at_ todo] in *. destruct p as [|v old|v a|v a].
    - destruct td as [|o r]; [destruct H; contradiction|]. destruct (start vlt (cell s) o) as [[? ?] ?]. eauto.
    - destruct (continue_ weq vne vlt plus (cell s) (AddLoop v old)) as [[? ?] ?]. eauto.
    - destruct (continue_ weq vne vlt plus (cell s) (MaxLoop v a)) as [[? ?] ?]. eauto.
    - destruct (continue_ weq vne vlt plus (cell s) (MinLoop v a)) as [[? ?] ?]. eauto. }
  destruct K as (c & t' & ret & E). destruct (upd_some (threads s) i t') as [ts Hu]; [eapply nth_error_some_lt; exact Hi|].
  eexists. eapply Step; eassumption.
Qed.

Theorem atomics_ok c0 progs n s : P c0 -> (forall p o, In p progs -> In o p -> Q o) -> steps n (init c0 progs) s ->
  OA c0 (log s) (cell s) /\
  (forall i t p, nth_error (threads s) i = Some t -> nth_error progs i = Some p -> exists rest, p = calls_of i (log s) ++ rest) /\
  (finished s -> forall i p, nth_error progs i = Some p -> calls_of i (log s) = p) /\
  n <= (length progs + 2) * length (concat progs) /\
  (finished s \/ exists s', step s s').
Proof.
  intros Pc HQ H. pose proof (inv_steps c0 progs n s Pc HQ H) as (Pc' & Tok & L & Len & Ids & Pr). split; [exact L|]. split; [|split; [|split]].
  - intros i t p Ht Hp. eexists. symmetry. apply (Pr i t p Ht Hp).
  - intros F i p Hp. destruct (nth_error_lt_some (threads s) i) as [t Ht]; [rewrite Len; eapply nth_error_some_lt; exact Hp|].
    destruct (F t (nth_error_In _ _ Ht)) as [E1 E2]. pose proof (Pr i t p Ht Hp) as K. rewrite E1, E2 in K. cbn in K. rewrite app_nil_r in K. exact K.
  - pose proof (steps_bound c0 progs n s Pc HQ H). lia.
  - destruct (forallb (fun t : thread => match at_ t, todo t with Idle, [] => true | _, _ => false end) (threads s)) eqn:E.
    + left. intros t Ht. rewrite forallb_forall in E. specialize (E t Ht). destruct (at_ t), (todo t); try discriminate. auto.
    + right. apply progress. clear - E. induction (threads s) as [|a l IH]; [discriminate|]. cbn in E. apply andb_false_iff in E as [E|E].
      * exists a. split; [left; reflexivity|]. destruct (at_ a), (todo a); try discriminate; (left; discriminate) || (right; discriminate).
      * destruct (IH E) as (t & Ht & K). exists t. split; [right; exact Ht|exact K].
Qed.
End A.

(** the fold of the operands, for wrapping integers *)
Section I.
Variable m : Z.
Hypothesis m0 : (0 < m)%Z.
Definition wplus (a b : Z) : Z := ((a + b) mod m)%Z.
Definition operand (o : @op Z) : Z := match o with Add v | Max v | Min v | Exch v => v end.
Definition is_add (o : @op Z) : Prop := match o with Add _ => True | _ => False end.
Definition is_max (o : @op Z) : Prop := match o with Max _ => True | _ => False end.
Definition is_min (o : @op Z) : Prop := match o with Min _ => True | _ => False end.
Notation OA := (one_after_the_other Z.ltb wplus).
Definition operands (l : list (nat * @op Z * Z)) : list Z := map (fun e => operand (snd (fst e))) l.
Lemma OA_add x l y : OA x l y -> (0 <= x < m)%Z -> (forall e, In e l -> is_add (snd (fst e))) -> y = ((x + fold_right Z.add 0 (operands l)) mod m)%Z.
Proof.
  induction 1 as [x|x i o l y H IH]; intros R A; cbn [operands map fold_right].
  - rewrite Z.add_0_r, Z.mod_small by assumption. reflexivity.
  - pose proof (A _ (or_introl eq_refl)) as Ao. cbn in Ao. destruct o as [v| | |]; try contradiction. cbn [effect] in *.
    rewrite IH; [|apply Z.mod_pos_bound; exact m0|intros; apply A; right; assumption]. unfold wplus. cbn [fst snd operand].
    rewrite Z.add_mod_idemp_l by lia. f_equal. unfold operands. lia.
Qed.
Lemma OA_max x l y : OA x l y -> (forall e, In e l -> is_max (snd (fst e))) -> y = fold_right Z.max x (operands l).
Proof.
  assert (K : forall l a b, fold_right Z.max (Z.max a b) l = Z.max b (fold_right Z.max a l)) by (induction l0; intros; cbn; [lia|rewrite IHl0; lia]).
  induction 1 as [x|x i o l y H IH]; intro A; cbn [operands map fold_right]; [reflexivity|].
  pose proof (A _ (or_introl eq_refl)) as Ao. cbn in Ao. destruct o as [|v| |]; try contradiction. cbn [effect fst snd operand] in *.
  rewrite (IH (fun e He => A e (or_intror He))). fold (operands l). rewrite <- K. f_equal. destruct (Z.ltb_spec x v); lia.
Qed.
Lemma OA_min x l y : OA x l y -> (forall e, In e l -> is_min (snd (fst e))) -> y = fold_right Z.min x (operands l).
Proof.
  assert (K : forall l a b, fold_right Z.min (Z.min a b) l = Z.min b (fold_right Z.min a l)) by (induction l0; intros; cbn; [lia|rewrite IHl0; lia]).
  induction 1 as [x|x i o l y H IH]; intro A; cbn [operands map fold_right]; [reflexivity|].
  pose proof (A _ (or_introl eq_refl)) as Ao. cbn in Ao. destruct o as [| |v|]; try contradiction. cbn [effect fst snd operand] in *.
  rewrite (IH (fun e He => A e (or_intror He))). fold (operands l). rewrite <- K. f_equal. destruct (Z.ltb_spec v x); lia.
Qed.
End I.

From Coq Require Import SpecFloat.
Lemma sf_eq_refl a b : SFltb a b = true \/ SFltb b a = true -> negb (SFeqb a a) = false.
Proof.
  intro H. destruct a as [s|s| |s m e].
  - reflexivity.
  - destruct s; reflexivity.
  - exfalso. destruct H as [H|H]; [destruct b; discriminate H|destruct b as [|[]| |[]]; discriminate H].
  - unfold SFeqb, SFcompare. destruct s; rewrite Z.compare_refl, Pos.compare_cont_refl; reflexivity.
Qed.
Lemma sf_eq_eq a b : a <> S754_zero true -> b <> S754_zero true -> negb (SFeqb a b) = false -> a = b.
Proof.
  intros Ha Hb H. apply negb_false_iff in H. unfold SFeqb, SFcompare in H. destruct a as [s|s| |s m e], b as [s'|s'| |s' m' e']; try discriminate; try (destruct s; discriminate); try (destruct s'; discriminate).
  - destruct s, s'; congruence.
  - destruct s, s'; (reflexivity || discriminate).
  - destruct s, s'; try discriminate.
    + destruct (Z.compare_spec e e') as [->| |]; try discriminate. destruct (Pos.compare_cont Eq m m') eqn:C; try discriminate. rewrite (Pos.compare_eq m m' C). reflexivity.
    + destruct (Z.compare_spec e e') as [->| |]; try discriminate. destruct (Pos.compare_cont Eq m m') eqn:C; try discriminate. rewrite (Pos.compare_eq m m' C). reflexivity.
Qed.
Definition sf_dec (a b : spec_float) : {a = b} + {a <> b}.
Proof. decide equality; try apply Bool.bool_dec; try apply Z.eq_dec; apply Pos.eq_dec. Defined.
