(** C12: callbacks registry. *)
From Verif Require Import Prelude CallbacksModel CallbacksSpec CallbacksProofs.
From Coq Require Import Sorted.
Local Open Scope Z_scope.

(** For every history in which assign is used on ids returned by earlier inserts: ids are pairwise distinct
    (strictly increasing), and invocation calls exactly what the history registers, in increasing id order. *)
Theorem C12_callbacks_registered_partial :
  forall (F : Type) (os : list (cop F)),
  let h := fst (cb_run cb_init os) in let s := snd (cb_run cb_init os) in
  assigns_known_ids h ->
  StronglySorted Z.lt (ids_of h) /\
  StronglySorted Z.lt (map fst (cb_calls s)) /\
  (forall k f, In (k, f) (cb_calls s) <-> registered h k = Some f).
Proof. exact @callbacks_ok. Qed.
Print Assumptions C12_callbacks_registered_partial.

Example C12_case :
  let r := cb_run cb_init [CInsert 5; CInsert 6; CAssign 0 7; CErase 1; CInsert 8]%nat in
  fst r = [VInsert 0 5; VInsert 1 6; VAssign 0 7; VErase 1; VInsert 2 8]%nat /\
  cb_calls (snd r) = [(0, 7%nat); (2, 8%nat)] /\ assigns_known_ids (fst r).
Proof.
  cbn. repeat split. intros h1 i f h2 E.
  destruct h1 as [|a [|b [|c [|d [|e [|]]]]]]; cbn in E; injection E; intros; subst; try discriminate; cbn; auto.
Qed.

(** Finding: an [assign] to a not yet issued id makes a later [insert] return that id
    although the inserted function is not registered. *)
Theorem C12_callbacks_registered_refuted :
  exists os : list (cop nat),
  let (h, s) := cb_run cb_init os in
  exists k f, h = [VAssign k 7%nat; VInsert k f] /\ ~ In (k, f) (cb_calls s).
Proof. exact callbacks_assign_collides. Qed.
Print Assumptions C12_callbacks_registered_refuted.
