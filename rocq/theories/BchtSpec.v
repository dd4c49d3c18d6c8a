(** What a bcht is used for, without slots, buckets or displacement: a dictionary numbering distinct keys 0, 1, 2, ... in order of their
    first insertion. *)
From Verif Require Import Prelude BchtModel.
Local Open Scope nat_scope.

Section S.
  Variable K : Type.
  Variable keqb : K -> K -> bool.
  Variable sent : K.
  Variable B : nat.
  Variables hf0 hf1 hf2 : K -> N.

  (** size() counts the keys, activeKeys begins with them, query answers with their numbers and with -1 for any other key *)
  Definition dictionary (t : table K) (ks : list K) : Prop :=
    NoDup ks /\ size K t = length ks /\ firstn (length ks) (tact K t) = ks
    /\ (forall i k, nth_error ks i = Some k -> query K keqb sent B hf0 hf1 hf2 t k = Z.of_nat i)
    /\ (forall k, k <> sent -> ~ In k ks -> query K keqb sent B hf0 hf1 hf2 t k = (-1)%Z).

  (** the tables a program obtains when it never inserts the reserved key, never sees a failure token (neither from insert nor inside
      resize) and re-inserts a key only when that call reports that the key exists and draws no number *)
  Inductive reach : table K -> list K -> Prop :=
  | R_new cap maxc : 0 < cap -> reach (construct K sent B cap maxc) []
  | R_insert t ks k n t' : reach t ks -> k <> sent -> ~ In k ks -> insert_key K keqb sent B hf0 hf1 hf2 t k = (Inserted n, t') -> reach t' (ks ++ [k])
  | R_again t ks k t' : reach t ks -> In k ks -> insert_key K keqb sent B hf0 hf1 hf2 t k = (Exists, t') -> size K t' = size K t -> reach t' ks
  | R_resize t ks cap maxc os t' : reach t ks -> resize K keqb sent B hf0 hf1 hf2 t cap maxc = (os, t') -> ~ In Failed os -> reach t' ks
  | R_reset t ks : reach t ks -> reach (reset K sent t) [].

  (** the keys of a sequence in order of first occurrence, those of [seen] excepted *)
  Fixpoint firsts (seen ks : list K) : list K :=
    match ks with
    | [] => seen
    | k :: ks' => if existsb (keqb k) seen then firsts seen ks' else firsts (seen ++ [k]) ks'
    end.
  (** what the calls of insert should return: "exists" for a key seen before, else the next number *)
  Fixpoint expected (seen ks : list K) : list outcome :=
    match ks with
    | [] => []
    | k :: ks' => if existsb (keqb k) seen then Exists :: expected seen ks' else Inserted (Z.of_nat (length seen)) :: expected (seen ++ [k]) ks'
    end.
  (** no more than bucket_size distinct keys share a bucket under the first hash function *)
  Definition fits (nb : nat) (ks : list K) : Prop :=
    forall b l, NoDup l -> (forall k, In k l -> In k ks /\ (hf0 k mod N.of_nat nb = b)%N) -> length l <= B.
End S.
