(** What a sequence of insertions means: the list of distinct keys in order of first insertion, and the result of each call. *)
From Verif Require Import Prelude.
Local Open Scope nat_scope.
Section S.
Context {K : Type} (keq : forall a b : K, {a = b} + {a <> b}).
Fixpoint insertions (ks l : list K) : list K * list Z :=
  match l with
  | [] => (ks, [])
  | k :: r => if in_dec keq k ks then let '(ks', vs) := insertions ks r in (ks', (-1)%Z :: vs)
              else let '(ks', vs) := insertions (ks ++ [k]) r in (ks', Z.of_nat (length ks) :: vs)
  end.
(** x is the position of k in ks, or -1 *)
Definition answer (ks : list K) (k : K) (x : Z) : Prop := (~ In k ks /\ x = (-1)%Z) \/ ((0 <= x)%Z /\ nth_error ks (Z.to_nat x) = Some k).
End S.
