(** * Proofs about the dispatch over several variants *)

From Coq Require Import List Arith Bool Lia.
From Verif Require Import VtModel VtSpec.
Import ListNotations.

Lemma same_eq : forall a b, same a b = true <-> a = b.
Proof.
  induction a as [| x a IH]; intros [| y b]; cbn [same]; split; intros H; try discriminate; auto.
  - apply andb_true_iff in H. destruct H as [H1 H2]. apply Nat.eqb_eq in H1. apply IH in H2. congruence.
  - injection H as -> ->. rewrite Nat.eqb_refl. apply IH. reflexivity.
Qed.

(** The held tuple is among those that traverse<no> of (I, Js) runs through. *)
Definition within (held ns : list nat) (no I : nat) (Js : list nat) : Prop :=
  skipn (S no) held = Js /\ nth no held 0 <= I /\ forall k, k < no -> nth k held 0 < nth k ns 0.

Lemma skipn_nth : forall (l : list nat) n, n < length l -> skipn n l = nth n l 0 :: skipn (S n) l.
Proof.
  induction l as [| x l IH]; intros [| n] H; cbn in H; try lia; [reflexivity |].
  cbn [skipn nth]. rewrite IH by lia. reflexivity.
Qed.

Lemma traverse_unfold callable held ns no I Js : traverse callable held ns no I Js =
  let '(tag, calls) :=
    match no with
    | 0 => if callable (I :: Js) && same held (I :: Js) then (true, [I :: Js]) else (false, [])
    | S no' => traverse callable held ns no' (nth no' ns 0 - 1) (I :: Js)
    end in
  if tag then (true, calls)
  else match I with
       | 0 => (false, calls)
       | S I' => let '(tag', calls') := traverse callable held ns no I' Js in (tag', calls ++ calls')
       end.
Proof. destruct no, I; reflexivity. Qed.

Lemma traverse_spec callable held ns : (forall n, In n ns -> 0 < n) -> length held = length ns ->
  forall no, no < length ns -> forall I Js,
  (callable held = true -> within held ns no I Js -> traverse callable held ns no I Js = (true, [held])) /\
  (~ (callable held = true /\ within held ns no I Js) -> traverse callable held ns no I Js = (false, [])).
Proof.
  intros Hpos Hlen. induction no as [| no IHno]; intros Hno.
  - induction I as [| I IHI]; intros Js; rewrite traverse_unfold.
    + destruct held as [| h held]; [cbn in *; lia |]. unfold within. cbn [skipn nth].
      destruct (callable (0 :: Js) && same (h :: held) (0 :: Js)) eqn:E.
      * apply andb_true_iff in E. destruct E as [E1 E2]. apply same_eq in E2. injection E2 as -> ->.
        split; [reflexivity |]. intros H. exfalso. apply H. split; [exact E1 |]. split; [reflexivity |]. split; [lia |]. intros; lia.
      * split; [| reflexivity]. intros Hc (Hs & Hh & _). exfalso.
        assert (h = 0) by lia. subst. rewrite Hc in E. rewrite (proj2 (same_eq _ _) eq_refl) in E. discriminate.
    + destruct held as [| h held]; [cbn in *; lia |]. destruct (IHI Js) as [I1 I2]. unfold within in *. cbn [skipn nth] in *.
      destruct (callable (S I :: Js) && same (h :: held) (S I :: Js)) eqn:E.
      * apply andb_true_iff in E. destruct E as [E1 E2]. apply same_eq in E2. injection E2 as -> ->.
        split; [reflexivity |]. intros H. exfalso. apply H. split; [exact E1 |]. split; [reflexivity |]. split; [lia |]. intros; lia.
      * split.
        -- intros Hc (Hs & Hh & Hk). assert (Hne : h <> S I).
           { intros ->. subst Js. rewrite Hc, (proj2 (same_eq _ _) eq_refl) in E. discriminate. }
           rewrite I1; [reflexivity | exact Hc |]. split; [exact Hs |]. split; [lia | exact Hk].
        -- intros H. rewrite I2; [reflexivity |]. intros (Hc & Hs & Hh & Hk). apply H. split; [exact Hc |].
           split; [exact Hs |]. split; [lia | exact Hk].
  - assert (Hn : 0 < nth no ns 0) by (apply Hpos; apply nth_In; lia).
    pose proof (skipn_nth held (S no) ltac:(lia)) as Hsk.
    induction I as [| I IHI]; intros Js; rewrite traverse_unfold.
    + destruct (IHno ltac:(lia) (nth no ns 0 - 1) (0 :: Js)) as [I1 I2]. split.
      * intros Hc (Hs & Hh & Hk). rewrite I1; [reflexivity | exact Hc |]. split; [| split].
        -- rewrite Hsk, Hs. f_equal. lia.
        -- pose proof (Hk no ltac:(lia)). lia.
        -- intros k Hk'. apply Hk. lia.
      * intros H. rewrite I2; [reflexivity |]. intros (Hc & Hs & Hh & Hk). apply H. split; [exact Hc |].
        rewrite Hsk in Hs. injection Hs as Hs1 Hs2. split; [exact Hs2 |]. split; [lia |].
        intros k Hk'. destruct (Nat.eq_dec k no) as [-> | ?]; [lia | apply Hk; lia].
    + destruct (IHno ltac:(lia) (nth no ns 0 - 1) (S I :: Js)) as [I1 I2]. destruct (IHI Js) as [J1 J2].
      destruct (Nat.eq_dec (nth (S no) held 0) (S I)) as [Eq | Ne].
      * split.
        -- intros Hc (Hs & Hh & Hk). rewrite I1; [reflexivity | exact Hc |]. split; [| split].
           ++ rewrite Hsk, Hs, Eq. reflexivity.
           ++ pose proof (Hk no ltac:(lia)). lia.
           ++ intros k Hk'. apply Hk. lia.
        -- intros H. rewrite I2, J2; [reflexivity | |].
           ++ intros (Hc & Hs & Hh & Hk). lia.
           ++ intros (Hc & Hs & Hh & Hk). apply H. split; [exact Hc |].
              rewrite Hsk in Hs. injection Hs as Hs1 Hs2. split; [exact Hs2 |]. split; [lia |].
              intros k Hk'. destruct (Nat.eq_dec k no) as [-> | ?]; [lia | apply Hk; lia].
      * rewrite I2; [| intros (Hc & Hs & _); rewrite Hsk in Hs; injection Hs as Hs1 Hs2; lia]. split.
        -- intros Hc (Hs & Hh & Hk). rewrite J1; [reflexivity | exact Hc |]. split; [exact Hs |]. split; [lia | exact Hk].
        -- intros H. rewrite J2; [reflexivity |]. intros (Hc & Hs & Hh & Hk). apply H. split; [exact Hc |].
           split; [exact Hs |]. split; [lia | exact Hk].
Qed.

Lemma holding_nth : forall ns held, holding ns held <->
  length held = length ns /\ forall k, k < length ns -> nth k held 0 < nth k ns 0.
Proof.
  unfold holding. induction ns as [| n ns IH]; intros held; split.
  - intros H. inversion H; subst. split; [reflexivity | cbn; intros; lia].
  - intros [H _]. destruct held; [constructor | discriminate].
  - intros H. inversion H as [| h ? held' ? Hh Hr]; subst. apply IH in Hr. destruct Hr as [L R]. split; [cbn; lia |].
    intros [| k] Hk; cbn in *; [exact Hh | apply R; lia].
  - intros [L R]. destruct held as [| h held]; [discriminate |]. constructor; [apply (R 0); cbn; lia |].
    apply IH. split; [cbn in L; lia |]. intros k Hk. apply (R (S k)). cbn. lia.
Qed.

Lemma execute_spec callable ns held : ns <> [] -> (forall n, In n ns -> 0 < n) -> length held = length ns ->
  (callable held = true -> holding ns held -> execute callable ns held = [held]) /\
  (~ (callable held = true /\ holding ns held) -> execute callable ns held = []).
Proof.
  intros Hne Hpos Hlen. assert (L : 0 < length ns) by (destruct ns; [congruence | cbn; lia]).
  destruct (traverse_spec callable held ns Hpos Hlen (length ns - 1) ltac:(lia) (nth (length ns - 1) ns 0 - 1) []) as [T1 T2].
  pose proof (Hpos _ (nth_In ns 0 (n := length ns - 1) ltac:(lia))) as Hn.
  assert (Hw : within held ns (length ns - 1) (nth (length ns - 1) ns 0 - 1) [] <-> holding ns held).
  { rewrite holding_nth. unfold within. split.
    - intros (_ & A & B). split; [exact Hlen |]. intros k Hk. destruct (Nat.eq_dec k (length ns - 1)) as [-> | ?]; [lia | apply B; lia].
    - intros [_ B]. split; [apply skipn_all2; lia |]. split; [specialize (B (length ns - 1) ltac:(lia)); lia |].
      intros k Hk. apply B. lia. }
  unfold execute. split.
  - intros Hc Hh. rewrite T1; [reflexivity | exact Hc | apply Hw; exact Hh].
  - intros H. rewrite T2; [reflexivity |]. intros [Hc X]. apply H. split; [exact Hc | apply Hw; exact X].
Qed.
