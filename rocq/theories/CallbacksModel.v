(** Model of container/Callables.hpp: callbacks (lines 20-83).
    std::map<Id,F> is modelled as an association list with strictly increasing keys (its iteration order).
    The lock policy M and the copying of functions are not modelled; Id (i32) is unbounded. *)
From Verif Require Import Prelude.
Local Open Scope Z_scope.

Section Cb.
  Context {F : Type}.

  (** std::map::emplace: no effect if the key is present. *)
  Fixpoint m_emplace (m : list (Z * F)) (k : Z) (f : F) : list (Z * F) :=
    match m with
    | [] => [(k, f)]
    | (k', f') :: t => if k <? k' then (k, f) :: m else if k =? k' then m else (k', f') :: m_emplace t k f
    end.
  (** std::map::insert_or_assign. *)
  Fixpoint m_assign (m : list (Z * F)) (k : Z) (f : F) : list (Z * F) :=
    match m with
    | [] => [(k, f)]
    | (k', f') :: t => if k <? k' then (k, f) :: m else if k =? k' then (k, f) :: t else (k', f') :: m_assign t k f
    end.
  (** std::map::erase(key). *)
  Fixpoint m_erase (m : list (Z * F)) (k : Z) : list (Z * F) :=
    match m with
    | [] => []
    | (k', f') :: t => if k =? k' then t else (k', f') :: m_erase t k
    end.

  (** _funcs and _n (Callables.hpp:81-82). *)
  Record cbs := mkCb { cb_funcs : list (Z * F); cb_n : Z }.
  Definition cb_init : cbs := mkCb [] 0.

  (** insert (Callables.hpp:41-48). *)
  Definition cb_insert (s : cbs) (f : F) : Z * cbs :=
    let ret := cb_n s in (ret, mkCb (m_emplace (cb_funcs s) ret f) (cb_n s + 1)).
  (** assign (Callables.hpp:56-60). *)
  Definition cb_assign (s : cbs) (i : Z) (f : F) : cbs := mkCb (m_assign (cb_funcs s) i f) (cb_n s).
  (** erase (Callables.hpp:62-66). *)
  Definition cb_erase (s : cbs) (i : Z) : cbs := mkCb (m_erase (cb_funcs s) i) (cb_n s).
  (** clear (Callables.hpp:67-71). *)
  Definition cb_clear (s : cbs) : cbs := mkCb [] (cb_n s).
  (** operator=(F&&) (Callables.hpp:50-54). *)
  Definition cb_set (s : cbs) (f : F) : Z * cbs := cb_insert (cb_clear s) f.
  (** operator() (Callables.hpp:74-78): the functions called, in order, with the id they are stored under. *)
  Definition cb_calls (s : cbs) : list (Z * F) := cb_funcs s.

  (** scaffolding: the calls of the members of callbacks (Callables.hpp 20-83) *)
  Inductive cop := CInsert (f : F) | CAssign (i : Z) (f : F) | CErase (i : Z) | CClear | CSet (f : F).
  (** observable result of each call: the id returned by insert *)
  Inductive cev := VInsert (i : Z) (f : F) | VAssign (i : Z) (f : F) | VErase (i : Z) | VClear.

  (** scaffolding: one call (Callables.hpp 20-83) *)
  Definition cb_step (s : cbs) (o : cop) : list cev * cbs :=
    match o with
    | CInsert f => let (i, s') := cb_insert s f in ([VInsert i f], s')
    | CAssign i f => ([VAssign i f], cb_assign s i f)
    | CErase i => ([VErase i], cb_erase s i)
    | CClear => ([VClear], cb_clear s)
    | CSet f => let (i, s') := cb_set s f in ([VClear; VInsert i f], s')
    end.

  (** scaffolding: a sequence of calls (Callables.hpp 20-83) *)
  Fixpoint cb_run (s : cbs) (os : list cop) : list cev * cbs :=
    match os with
    | [] => ([], s)
    | o :: t => let (e, s1) := cb_step s o in let (es, s2) := cb_run s1 t in (e ++ es, s2)
    end.
End Cb.
Arguments cbs F : clear implicits.
Arguments cop F : clear implicits.
Arguments cev F : clear implicits.
