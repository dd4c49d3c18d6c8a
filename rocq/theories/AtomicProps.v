(** C23: the CAS-loop atomics. *)
From Coq Require Import SpecFloat.
From Verif Require Import Prelude AtomicModel AtomicSpec AtomicProofs.

Section Statement.
Context {W : Type} (weq : forall a b : W, {a = b} + {a <> b}) (vne vlt : W -> W -> bool) (plus : W -> W -> W).
(** Every execution of [progs] from value c0: at any point, the calls that have returned form, in the order of their returns, a
    sequential execution ending in the current value, each returning the value it found; each thread's calls are those of its program,
    in order, each once; no execution is longer than (threads + 2) * calls steps, and it only stops when all calls have returned. *)
Definition indivisible (c0 : W) (progs : list (list (@op W))) : Prop := forall n s, steps weq vne vlt plus n (init c0 progs) s ->
  one_after_the_other vlt plus c0 (log s) (cell s) /\
  (forall i t p, nth_error (threads s) i = Some t -> nth_error progs i = Some p -> exists rest, p = calls_of i (log s) ++ rest) /\
  (finished s -> forall i p, nth_error progs i = Some p -> calls_of i (log s) = p) /\
  n <= (length progs + 2) * length (concat progs) /\
  (finished s \/ exists s', step weq vne vlt plus s s').
End Statement.
Definition zne (a b : Z) : bool := negb (a =? b)%Z.

(** integer locations of modulus m (2^bits), unsigned; any mix of add, max, min and exchange *)
Lemma int_ok m c0 progs : (0 < m)%Z -> (0 <= c0 < m)%Z -> (forall p o, In p progs -> In o p -> (0 <= operand o < m)%Z) ->
  indivisible Z.eq_dec zne Z.ltb (wplus m) c0 progs.
Proof.
  intros Hm Hc Hp n s H. eapply (atomics_ok Z.eq_dec zne Z.ltb (wplus m) (fun x => (0 <= x < m)%Z) (fun o => (0 <= operand o < m)%Z)); try eassumption.
  - intros [v|v|v|v] x Ho Hx; cbn in *; [apply Z.mod_pos_bound; exact Hm|destruct (x <? v)%Z; assumption|destruct (v <? x)%Z; assumption|exact Ho].
  - intros a b _ _ _ _ E. unfold zne in E. lia.
  - intros a b _. unfold zne. rewrite Z.eqb_refl. reflexivity.
Qed.
Theorem C23_integer_atomics_indivisible : forall m c0 progs, (0 < m)%Z -> (0 <= c0 < m)%Z -> (forall p o, In p progs -> In o p -> (0 <= operand o < m)%Z) ->
  indivisible Z.eq_dec zne Z.ltb (wplus m) c0 progs.
Proof. exact int_ok. Qed.
Print Assumptions C23_integer_atomics_indivisible.

(** signed integers (any range): max, min, exchange; and additions that wrap in any way *)
Lemma anyint_ok (plus : Z -> Z -> Z) c0 progs : indivisible Z.eq_dec zne Z.ltb plus c0 progs.
Proof.
  intros n s H. eapply (atomics_ok Z.eq_dec zne Z.ltb plus (fun _ => True) (fun _ => True)); try eassumption; auto.
  - intros a b _ _ _ _ E. unfold zne in E. lia.
  - intros a b _. unfold zne. rewrite Z.eqb_refl. reflexivity.
Qed.
Theorem C23_signed_atomics_indivisible : forall (plus : Z -> Z -> Z) c0 progs, indivisible Z.eq_dec zne Z.ltb plus c0 progs.
Proof. exact anyint_ok. Qed.
Print Assumptions C23_signed_atomics_indivisible.

(** the final value is the fold of all operands: sum modulo m, maximum, minimum, over the calls in any order *)
Lemma final_fold m c0 progs n s : (0 < m)%Z -> (0 <= c0 < m)%Z -> (forall p o, In p progs -> In o p -> (0 <= operand o < m)%Z) ->
  steps Z.eq_dec zne Z.ltb (wplus m) n (init c0 progs) s ->
  ((forall e, In e (log s) -> is_add (snd (fst e))) -> cell s = ((c0 + fold_right Z.add 0 (operands (log s))) mod m)%Z) /\
  ((forall e, In e (log s) -> is_max (snd (fst e))) -> cell s = fold_right Z.max c0 (operands (log s))) /\
  ((forall e, In e (log s) -> is_min (snd (fst e))) -> cell s = fold_right Z.min c0 (operands (log s))).
Proof.
  intros Hm Hc Hp H. destruct (int_ok m c0 progs Hm Hc Hp n s H) as [L _]. split; [|split]; intro A.
  - eapply OA_add; eassumption.
  - eapply OA_max; eassumption.
  - eapply OA_min; eassumption.
Qed.
Theorem C23_final_value_is_fold : forall m c0 progs n s, (0 < m)%Z -> (0 <= c0 < m)%Z -> (forall p o, In p progs -> In o p -> (0 <= operand o < m)%Z) ->
  steps Z.eq_dec zne Z.ltb (wplus m) n (init c0 progs) s ->
  ((forall e, In e (log s) -> is_add (snd (fst e))) -> cell s = ((c0 + fold_right Z.add 0 (operands (log s))) mod m)%Z) /\
  ((forall e, In e (log s) -> is_max (snd (fst e))) -> cell s = fold_right Z.max c0 (operands (log s))) /\
  ((forall e, In e (log s) -> is_min (snd (fst e))) -> cell s = fold_right Z.min c0 (operands (log s))).
Proof. exact final_fold. Qed.
Print Assumptions C23_final_value_is_fold.

(** floating point (IEEE binary formats, Coq.Floats.SpecFloat): addition and exchange without restriction *)
Definition no_minmax (o : @op spec_float) : Prop := match o with Add _ | Exch _ => True | _ => False end.
Lemma float_add_ok prec emax c0 progs : (forall p o, In p progs -> In o p -> no_minmax o) ->
  indivisible sf_dec (fun a b => negb (SFeqb a b)) SFltb (SFadd prec emax) c0 progs.
Proof.
  intros Hp n s H. eapply (atomics_ok sf_dec (fun a b => negb (SFeqb a b)) SFltb (SFadd prec emax) (fun _ => True) no_minmax); try eassumption; auto.
  - intros a b v [[]|[]].
  - intros a b. apply sf_eq_refl.
Qed.
Theorem C23_float_add_indivisible : forall prec emax c0 progs, (forall p o, In p progs -> In o p -> no_minmax o) ->
  indivisible sf_dec (fun a b => negb (SFeqb a b)) SFltb (SFadd prec emax) c0 progs.
Proof. exact float_add_ok. Qed.
Print Assumptions C23_float_add_indivisible.

(** floating-point max/min/exchange: proved when -0 does not occur (infinities and NaN allowed).  Missing: -0, for which it is false. *)
Definition no_neg_zero_add (o : @op spec_float) : Prop :=
  match o with Add _ => False | Max v | Min v | Exch v => v <> S754_zero true end.
Lemma float_minmax_ok prec emax c0 progs : c0 <> S754_zero true -> (forall p o, In p progs -> In o p -> no_neg_zero_add o) ->
  indivisible sf_dec (fun a b => negb (SFeqb a b)) SFltb (SFadd prec emax) c0 progs.
Proof.
  intros Hc Hp n s H. eapply (atomics_ok sf_dec (fun a b => negb (SFeqb a b)) SFltb (SFadd prec emax) (fun x => x <> S754_zero true) no_neg_zero_add); try eassumption.
  - intros [v|v|v|v] x Ho Hx; cbn in *; [contradiction|destruct (SFltb x v); assumption|destruct (SFltb v x); assumption|exact Ho].
  - intros a b _ _ Ha Hb. apply sf_eq_eq; assumption.
  - intros a b. apply sf_eq_refl.
Qed.
Theorem C23_float_minmax_indivisible_partial : forall prec emax c0 progs, c0 <> S754_zero true -> (forall p o, In p progs -> In o p -> no_neg_zero_add o) ->
  indivisible sf_dec (fun a b => negb (SFeqb a b)) SFltb (SFadd prec emax) c0 progs.
Proof. exact float_minmax_ok. Qed.
Print Assumptions C23_float_minmax_indivisible_partial.

(** -0 in the location: thread 0 reads it for max(1); thread 1 exchanges it for +0; the compare-exchange of thread 0 fails because the bits
    differ, but +0 != -0 is false, so the call returns as if it had stored 1.  The maximum is lost. *)
Definition fone : spec_float := S754_finite false 8388608 (-23).
Definition nz : spec_float := S754_zero true.
Definition pz : spec_float := S754_zero false.
Theorem C23_float_max_loses_update_refuted : exists s,
  steps sf_dec (fun a b => negb (SFeqb a b)) SFltb (SFadd 24 128) 3 (init nz [[Max fone]; [Exch pz]]) s /\
  finished s /\ cell s = pz /\ ~ one_after_the_other SFltb (SFadd 24 128) nz (log s) (cell s).
Proof.
  eexists. split; [|split; [|split]].
  - eapply StepsS; [eapply StepsS; [eapply StepsS; [apply Steps0|]|]|].
    + eapply (Step _ _ _ _ _ 0); reflexivity.
    + eapply (Step _ _ _ _ _ 1); reflexivity.
    + eapply (Step _ _ _ _ _ 0); reflexivity.
  - intros t [<-|[<-|[]]]; split; reflexivity.
  - reflexivity.
  - cbn. intro H. inversion H as [|? ? ? ? ? H1]; subst. inversion H1 as [|? ? ? ? ? H2]; subst. inversion H2.
Qed.
Print Assumptions C23_float_max_loses_update_refuted.

(** a concrete execution of the integer theorem: two increments racing, one retry *)
Example C23_case : exists s, steps Z.eq_dec zne Z.ltb (wplus 256) 5 (init 255%Z [[Add 1%Z]; [Add 3%Z]]) s /\ finished s /\
  cell s = 3%Z /\ log s = [(1, Add 3%Z, 255%Z); (0, Add 1%Z, 2%Z)].
Proof.
  eexists. split; [|split; [|split]].
  - eapply StepsS; [eapply StepsS; [eapply StepsS; [eapply StepsS; [eapply StepsS; [apply Steps0|]|]|]|]|].
    + eapply (Step _ _ _ _ _ 0); reflexivity.
    + eapply (Step _ _ _ _ _ 1); reflexivity.
    + eapply (Step _ _ _ _ _ 1); reflexivity.
    + eapply (Step _ _ _ _ _ 0); reflexivity.
    + eapply (Step _ _ _ _ _ 0); reflexivity.
  - intros t [<-|[<-|[]]]; split; reflexivity.
  - reflexivity.
  - reflexivity.
Qed.
