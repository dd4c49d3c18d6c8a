(** C101: index literals. *)
From Verif Require Import Prelude LitModel LitSpec LitProofs.
Open Scope Z_scope.

(** a literal compiles exactly if it consists of digits and separators and its decimal value fits in size_t; then it is that value *)
Theorem C101_literal : forall c v, literal c = Some v <-> well_formed c /\ v = decimal (digits c) /\ v < 2 ^ 64.
Proof.
  intros c v. unfold literal. split.
  - intros H. assert (W : well_formed c).
    { intros x I. destruct (Z.eq_dec x quote) as [E|E]; [now left|right]. unfold is_digit.
      destruct (Z_le_dec 48 x), (Z_le_dec x 57); [lia| | |]; exfalso; rewrite (index_bad c 0) in H; try discriminate; exists x; unfold is_digit; (split; [exact I|split; [exact E|lia]]). }
    split; [exact W|]. rewrite (index_ok c 0 W ltac:(lia)) in H. cbv zeta in H. rewrite Z.mul_0_l, Z.add_0_l in H. destruct (Z.leb_spec (decimal (digits c)) (2 ^ 64 - 1)); [|discriminate]. injection H as <-. lia.
  - intros (W & -> & L). rewrite (index_ok c 0 W ltac:(lia)). cbv zeta. rewrite Z.mul_0_l, Z.add_0_l. destruct (Z.leb_spec (decimal (digits c)) (2 ^ 64 - 1)); [reflexivity|lia].
Qed.
Print Assumptions C101_literal.
(** separators do not matter *)
Theorem C101_separators : forall a b, digits a = digits b -> well_formed a -> well_formed b -> literal a = literal b.
Proof. intros a b E A B. unfold literal. rewrite (index_ok a 0 A ltac:(lia)), (index_ok b 0 B ltac:(lia)), E. reflexivity. Qed.
Print Assumptions C101_separators.
(** unlike a numeral of C++, one with a leading zero is decimal: 010_th is not 010 *)
Theorem C101_octal_refuted : exists c v, well_formed c /\ hd 0 (digits c) = 0 /\ literal c = Some v /\ v <> octal (digits c).
Proof. exists [48; 49; 48], 10. split; [intros x [<-|[<-|[<-|[]]]]; right; unfold is_digit; lia|]. repeat split; vm_compute; congruence. Qed.
Print Assumptions C101_octal_refuted.

(** 18'446'744'073'709'551'615 is the largest literal; its successor does not compile, and neither do 0x1 and 1.5 *)
Example C101_ex : let big l := [49; 56; 39; 52; 52; 54; 39; 55; 52; 52; 39; 48; 55; 51; 39; 55; 48; 57; 39; 53; 53; 49; 39; 54; 49; l] in
  literal (big 53) = Some (2 ^ 64 - 1) /\ literal (big 54) = None /\ literal [48; 120; 49] = None /\ literal [49; 46; 53] = None /\ literal [52; 50] = Some 42.
Proof. repeat split; vm_compute; reflexivity. Qed.
