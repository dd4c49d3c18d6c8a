(** Values of rational and NumCCD numbers. *)
From Coq Require Import QArith.
From Verif Require Import Prelude.
(** the rational number n/d *)
Definition value (x : Z * Z) : Q := (inject_Z (fst x) / inject_Z (snd x))%Q.
(** lowest terms; canonical: lowest terms with a positive denominator *)
Definition reduced (x : Z * Z) : Prop := snd x <> 0%Z /\ Z.gcd (fst x) (snd x) = 1%Z.
Definition canonical (x : Z * Z) : Prop := (0 < snd x)%Z /\ Z.gcd (fst x) (snd x) = 1%Z.
(** i64 values other than INT_MIN *)
Definition small (b : Z) (x : Z * Z) : Prop := (- b < fst x < b)%Z /\ (- b < snd x < b)%Z.
(** the dyadic number k / 2^n *)
Definition dvalue (x : Z * Z) : Q := (inject_Z (fst x) / inject_Z (2 ^ snd x))%Q.
(** a dyadic number of [0, 1] in lowest terms, as used for parameter intervals *)
Definition unit_dyadic (x : Z * Z) : Prop := (0 <= snd x <= 63)%Z /\ (0 <= fst x <= 2 ^ snd x)%Z /\ (Z.odd (fst x) = true \/ snd x = 0%Z).
