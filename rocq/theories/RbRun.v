(** A client of the map: histories of operations. *)
From Verif Require Import Prelude RbModel RbSpec.

Section Run.
Variables (K V : Type) (eqb ltb : K -> K -> bool) (dk : K) (dv : V).
Notation "x <- m ;; k" := (bind K V m (fun x => k)) (at level 90, m at level 89, right associativity).
Notation "m ;; k" := (bind K V m (fun _ => k)) (at level 90, right associativity).
(** n times ++it, stopping at end() *)
Fixpoint advance (n p : nat) : M K V nat :=
  match n with O => ret K V p | S n' => if Nat.eqb p hdr then ret K V p else q <- increment K V R p ;; advance n' q end.
(** while (it != stop) { --it; visit *it; } *)
Fixpoint back (fuel : nat) (e d : side) (stop p : nat) : M K V (list (K * V)) :=
  match fuel with
  | O => fail K V
  | S f => if Nat.eqb p stop then ret K V []
           else q <- decrement K V e d p ;; n <- rd K V q ;; l <- back f e d stop q ;; ret K V ((nkey K V n, nval K V n) :: l)
  end.
Definition rest (p : nat) : M K V (out K V) := f <- get_fuel K V ;; l <- visit K V (S f) R p ;; ret K V (OList l).
Definition exec (o : op K V) : M K V (out K V) :=
  match o with
  | Insert k v => insert K V eqb ltb k v ;; ret K V ODone
  | Index k => x <- index K V eqb ltb dv k ;; n <- rd K V x ;; ret K V (ORef (nval K V n))
  | Assign k v => x <- index K V eqb ltb dv k ;; wr K V x (w_val K V v) ;; ret K V ODone
  | Get k => o <- get K V eqb ltb k ;; ret K V (OVal o)
  | Size => n <- size K V ;; ret K V (ONum n)
  | Empty => b <- is_empty K V ;; ret K V (OBool b)
  | Erase k => n <- erase K V eqb ltb k ;; ret K V (ONum n)
  | Clear => clear K V ;; ret K V ODone
  | Iterate => l <- iterate K V ;; ret K V (OList l)
  | IterateReverse => l <- iterate_reverse K V ;; ret K V (OList l)
  | ForEach => l <- for_each K V ;; ret K V (OList l)
  | IterateBack => b <- begin_ K V ;; f <- get_fuel K V ;; l <- back f R R b hdr ;; ret K V (OList l)
  | ReverseBack => b <- rbegin K V ;; f <- get_fuel K V ;; l <- back f L L b hdr ;; ret K V (OList l)
  | LowerBound k => p <- lower_bound K V eqb ltb k ;; rest p
  | UpperBound k => p <- upper_bound K V eqb ltb k ;; rest p
  | EraseAt n => b <- begin_ K V ;; p <- advance n b ;; q <- erase_it K V eqb ltb p ;; rest q
  | EraseSpan n c => b <- begin_ K V ;; p <- advance n b ;; q <- advance c p ;; r <- erase_range K V eqb ltb p q ;; rest r
  end.
Fixpoint run (os : list (op K V)) : M K V (list (out K V)) :=
  match os with [] => ret K V [] | o :: os' => u <- exec o ;; us <- run os' ;; ret K V (u :: us) end.
End Run.
