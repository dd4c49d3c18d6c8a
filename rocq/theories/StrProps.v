(** C06: SmallString is a truncating NUL-terminated string. *)
From Verif Require Import Prelude StrModel StrSpec StrProofs.

(** Construction from a C string keeps the first NBytes-1 characters, terminated, in bounds. *)
Theorem C06_string_from_cstr :
  forall nb, 1 <= nb -> forall mem s, Holds mem s ->
  exists b, str_of_cstr nb mem = Some b /\ length b = nb /\ Holds b (firstn (nb - 1) s).
Proof. exact of_cstr_ok. Qed.
Print Assumptions C06_string_from_cstr.

Example C06_case1 : Holds [104;105;33;0;7] [104;105;33] /\ str_of_cstr 3 [104;105;33;0;7] = Some [104;105;0].
Proof. split; [split; [cbn; lia|exists [7]; reflexivity]|reflexivity]. Qed.

(** Construction from a string object keeps its first NBytes-1 characters and terminates them. *)
Theorem C06_string_from_object :
  forall nb, 1 <= nb -> forall garbage str, length garbage = nb ->
  exists b, str_of_str nb garbage str = Some b /\ length b = nb /\
    firstn (Nat.min (length str) (nb - 1)) b = firstn (nb - 1) str /\
    nth_error b (Nat.min (length str) (nb - 1)) = Some 0.
Proof. exact of_str_ok. Qed.
Print Assumptions C06_string_from_object.

Example C06_case2 : str_of_str 4 [9;9;9;9] [1;2] = Some [1;2;0;9] /\ str_of_str 4 [9;9;9;9] [1;2;3;4;5] = Some [1;2;3;0].
Proof. split; reflexivity. Qed.

Theorem C06_string_size :
  forall nb b s, length b = nb -> Holds b s -> str_size nb b = Some (length s).
Proof. exact size_ok. Qed.
Print Assumptions C06_string_size.

Theorem C06_string_concat :
  forall nb, 1 <= nb -> forall a b sa sb, Holds a sa -> Holds b sb ->
  exists r, str_plus nb a b = Some r /\ length r = nb /\ Holds r (firstn (nb - 1) (sa ++ sb)).
Proof. exact plus_ok. Qed.
Print Assumptions C06_string_concat.

Example C06_case3 : str_plus 5 [1;2;0;0;0] [3;4;5;0;0] = Some [1;2;3;4;0].
Proof. reflexivity. Qed.

(** operator==(const char* ) decides equality with the stored string. *)
Theorem C06_string_equality :
  forall nb b s mem t, length b = nb -> Holds b s -> Holds mem t ->
  str_eq nb b mem = Some (if list_eq_dec Nat.eq_dec s t then true else false).
Proof. exact eq_ok. Qed.
Print Assumptions C06_string_equality.

Example C06_case4 : str_eq 4 [1;2;3;0] [1;2;3;0] = Some true /\ str_eq 4 [1;2;3;0] [1;2;0] = Some false
  /\ str_eq 4 [1;2;3;0] [1;2;3;4;0] = Some false.
Proof. repeat split; reflexivity. Qed.
