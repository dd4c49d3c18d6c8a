(* Finite maps and the sequential meaning of the operations. *)
From Verif Require Import Prelude CmapModel.

Section SPEC.
Context {K V : Type} (eqk : forall a b : K, {a = b} + {a <> b}).

(* a map from keys to values *)
Definition map := K -> option V.
Definition with_ (m : map) (k : K) (v : option V) : map := fun k' => if eqk k' k then v else m k'.
Definition apply (m : map) (o : op K V) : map :=
  match o with
  | Set_ k v => with_ m k (Some v)
  | Erase k => with_ m k None
  | Emplace k v => match m k with Some _ => m | None => with_ m k (Some v) end
  | Find _ => m
  end.
(* the map after the operations of a trace, in the order they took effect *)
Fixpoint contents (m : map) (es : list (event K V)) : map :=
  match es with [] => m | Did _ o _ :: es => contents (apply m o) es | Read _ _ _ :: es => contents m es end.
(* no operation of the trace erases k *)
Definition keeps (k : K) (es : list (event K V)) : Prop := forall t r, ~ In (Did t (Erase k) r) es.
(* the operation changes the value stored for k, or its presence *)
Definition touches (k : K) (o : op K V) : Prop :=
  match o with Set_ k' _ | Erase k' => k' = k | _ => False end.
(* the thread is inside an operation *)
Definition inside (p : pc K V) (o : op K V) : Prop := p = Within o \/ exists r, p = Out o r.
End SPEC.
