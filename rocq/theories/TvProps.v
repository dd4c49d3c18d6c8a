(** C107: every way of naming an element of a tensor names the same one *)
From Coq Require Import ZArith List Arith Lia Permutation.
From Verif Require Import IdxModel IdxSpec IdxProofs IdxProps TvModel TvSpec TvProofs.
Import ListNotations.
Open Scope Z_scope.

(** Elements at different coordinates are different, and all lie in the data of the tensor. *)
Theorem C107_distinct t : tensor_ok t ->
  (forall a, index (t_ext t) a -> 0 <= t_call t a < extent (t_sto t)) /\
  (forall a b, index (t_ext t) a -> index (t_ext t) b -> t_call t a = t_call t b -> a = b).
Proof.
  intros (O & F & _). destruct (C95_bijection (t_sto t) (t_ord t) O) as (R & I & _). split.
  - intros a A. apply R. eapply index_mono; eassumption.
  - intros a b A B. apply I; eapply index_mono; eassumption.
Qed.
Print Assumptions C107_distinct.

(** t[i][j]...[k] is t(i, j, ..., k). *)
Theorem C107_subscript t a : tensor_ok t -> length a = length (t_ext t) -> t_chain t a = Some (Ref (t_call t a)).
Proof.
  intros (_ & _ & N) E. destruct a as [|i a]; [destruct (t_ext t); [congruence|discriminate]|].
  unfold t_chain, t_at. destruct (t_ext t) as [|n [|m r]] eqn:X; [congruence| |].
  - destruct a; [reflexivity|discriminate].
  - rewrite v_chain_full; cbn [v_ext v_base]; [|discriminate|now rewrite repeat_length|cbn in E |- *; lia].
    unfold within. cbn [v_pre v_base app]. replace (length (m :: r)) with (length a) by (cbn in E |- *; lia). now rewrite plus_repeat.
Qed.
Print Assumptions C107_subscript.

(** val(k) is the element numbered k in row-major order of the access extents, whatever the storage order; k runs through
    every element once, in lexicographic order. *)
Theorem C107_val t : tensor_ok t ->
  (forall a, index (t_ext t) a -> t_val t (rowmajor (t_ext t) a) = t_call t a) /\
  (forall k, 0 <= k < product (t_ext t) -> exists a, index (t_ext t) a /\ rowmajor (t_ext t) a = k /\ t_val t k = t_call t a) /\
  (forall a b, index (t_ext t) a -> index (t_ext t) b -> (rowmajor (t_ext t) a < rowmajor (t_ext t) b <-> lex a b)).
Proof.
  intros (_ & F & _). split; [|split].
  - intros a A. unfold t_val, t_call. now rewrite itc_rowmajor.
  - intros k K. destruct (itc_spec (t_ext t) k) as [A B]; [|exact K|].
    + clear K. induction F; constructor; [lia|assumption].
    + exists (index_to_coord k (t_ext t)). auto.
  - intros a b A B. rewrite !rowmajor_radix. now apply radix_lex_iff.
Qed.
Print Assumptions C107_val.

(** A view made by subscripting with the leading coordinates a: calling it, subscripting it further and val all name
    the elements with these leading coordinates. *)
Theorem C107_slice t a : tensor_ok t -> (0 < length a < length (t_ext t))%nat ->
  exists v, t_chain t a = Some (Sub v) /\ v_ext v = skipn (length a) (t_ext t) /\
    forall c, index (v_ext v) c ->
      v_call t v c = Some (t_call t (a ++ c)) /\
      v_chain t (Sub v) c = Some (Ref (t_call t (a ++ c))) /\
      v_val t v (rowmajor (v_ext v) c) = Some (t_call t (a ++ c)).
Proof.
  intros (_ & _ & N) L. destruct a as [|i a]; [cbn in L; lia|].
  unfold t_chain, t_at. destruct (t_ext t) as [|n [|m r]] eqn:X; [congruence|cbn in L; lia|].
  destruct (v_chain_part t a (Vw (m :: r) [i] (repeat 0 (length (m :: r))))) as (w & W1 & W2 & W3 & W4 & W5);
    [cbn in L |- *; lia|cbn [v_base v_ext]; now rewrite repeat_length|].
  exists w. split; [exact W1|]. split; [exact W2|]. intros c C.
  assert (Lc : length c = length (v_ext w)) by (symmetry; eapply Forall2_length; exact C).
  assert (E : within w c = (i :: a) ++ c).
  { rewrite W5. unfold within. cbn [v_pre v_base app]. f_equal.
    replace (length (m :: r)) with (length (a ++ c)); [apply plus_repeat|].
    rewrite app_length, Lc, W2, skipn_length. cbn [length v_ext] in L |- *. lia. }
  split; [|split].
  - unfold v_call. rewrite coord_within by exact Lc. cbn [option_map]. now rewrite E.
  - rewrite v_chain_full; [now rewrite E| |exact W3|exact Lc].
    rewrite W2. intros Z. apply (f_equal (@length _)) in Z. rewrite skipn_length in Z. cbn [length v_ext] in L, Z. lia.
  - unfold v_val. rewrite itc_rowmajor by exact C. rewrite coord_within by exact Lc. cbn [option_map]. now rewrite E.
Qed.
Print Assumptions C107_slice.

(** A window given by a prefix and a base: its element c is the tensor's element at prefix, base + c, by call, by
    subscripts, by val, and after any number of subscripts. *)
Theorem C107_window t v : tensor_ok t -> view_ok t v -> forall c, index (v_ext v) c ->
  v_call t v c = Some (t_call t (within v c)) /\
  v_chain t (Sub v) c = Some (Ref (t_call t (within v c))) /\
  v_val t v (rowmajor (v_ext v) c) = Some (t_call t (within v c)) /\
  (forall a b, c = a ++ b -> b <> [] -> exists w, v_chain t (Sub v) a = Some (Sub w) /\ v_call t w b = Some (t_call t (within v c))).
Proof.
  intros _ (N & B & P & F) c C. assert (Lc : length c = length (v_ext v)) by (symmetry; eapply Forall2_length; exact C).
  split; [|split; [|split]].
  - unfold v_call. now rewrite coord_within.
  - now apply v_chain_full.
  - unfold v_val. rewrite itc_rowmajor by exact C. now rewrite coord_within.
  - intros a b -> Nb. assert (La : (length a < length (v_ext v))%nat) by (rewrite <- Lc, app_length; destruct b; [congruence|cbn; lia]).
    destruct (v_chain_part t a v La B) as (w & W1 & W2 & W3 & W4 & W5). exists w. split; [exact W1|].
    unfold v_call. rewrite coord_within; [cbn [option_map]; now rewrite W5|].
    rewrite W2, skipn_length, <- Lc, app_length. lia.
Qed.
Print Assumptions C107_window.

(** The view constructor without coordinates: the leading dimensions it lacks are fixed at zero. *)
Theorem C107_root t ext c : tensor_ok t -> (length ext <= length (t_ext t))%nat -> length c = length ext ->
  v_call t (root t ext) c = Some (t_call t (repeat 0 (length (t_ext t) - length ext) ++ c)).
Proof.
  intros _ L E. unfold v_call. rewrite coord_within by exact E. cbn [option_map]. unfold within, root. cbn [v_pre v_base].
  rewrite <- E, plus_repeat. reflexivity.
Qed.
Print Assumptions C107_root.

(** The call operator of a view is offered for fewer arguments than dimensions but never compiles for them. *)
Theorem C107_fewer t v args : length args <> length (v_ext v) -> v_call t v args = None.
Proof. intros H. unfold v_call, coord. destruct (Nat.eqb_spec (length args) (length (v_ext v))); [congruence|reflexivity]. Qed.
Print Assumptions C107_fewer.

(** A 2 x 3 x 4 tensor in 2 x 4 x 4 storage, dimension 2 slowest, then 0, then 1; and a 2 x 2 window of its slice 1. *)
Definition ex_t := Tensor [2; 3; 4] [2; 4; 4] [2; 0; 1]%nat.
Definition ex_v := Vw [2; 2] [1] [1; 2].
Example C107_ex : tensor_ok ex_t /\ view_ok ex_t ex_v /\ index (t_ext ex_t) [1; 2; 3] /\ t_call ex_t [1; 2; 3] = 30 /\
  t_chain ex_t [1; 2; 3] = Some (Ref 30) /\ t_val ex_t 23 = 30 /\
  within ex_v [1; 1] = [1; 2; 3] /\ v_chain ex_t (Sub ex_v) [1; 1] = Some (Ref 30) /\ v_val ex_t ex_v 3 = Some 30.
Proof.
  split; [|split; [|split; [|repeat split; reflexivity]]].
  - split; [|split; [repeat constructor; lia|discriminate]]. unfold storage_order. cbn.
    apply (Permutation_trans (l' := [0; 2; 1]%nat)); [apply perm_swap|apply perm_skip, perm_swap].
  - split; [discriminate|]. split; [reflexivity|]. split; [reflexivity|]. repeat constructor; lia.
  - repeat constructor; lia.
Qed.
