(* C84: concurrent_map protects its own operations, not the references it hands out. *)
From Verif Require Import Prelude CmapModel CmapSpec CmapProofs.

Section PROPS.
Context {K V : Type} (eqk : forall a b : K, {a = b} + {a <> b}).
Notation run := (run eqk).
Notation contents := (contents eqk (fun _ => @None V)).

(* Two threads are inside operations at the same time only if both only look up. *)
Theorem C84_exclusion n es s t t' (p p' : pc K V) o o' : run (start n) es s -> t <> t' ->
  nth_error (pcs s) t = Some p -> nth_error (pcs s) t' = Some p' -> inside p o -> inside p' o' ->
  (exists k, o = Find k) /\ (exists k, o' = Find k).
Proof.
  intros R N H H' I I'. destruct (run_all _ _ _ _ R) as (X & _).
  destruct (X _ _ _ _ _ _ N H H' I I') as [W W']. destruct o, o'; try discriminate; eauto.
Qed.

(* Every operation answers like a map to which the operations before it were applied. *)
Theorem C84_answers n es s es1 es2 t o r : run (start n) es s -> es = es1 ++ Did t o r :: es2 ->
  match o with
  | Set_ _ _ | Erase _ => r = Unit
  | Emplace k _ => r = Inserted true /\ contents es1 k = None \/ r = Inserted false /\ contents es1 k <> None
  | Find k => r = Ptr None /\ contents es1 k = None \/ (exists p, r = Ptr (Some p)) /\ contents es1 k <> None
  end.
Proof.
  intros R E. destruct (run_all _ _ _ _ R) as (_ & _ & _ & An & _). destruct (An _ _ _ _ _ E) as [l H].
  destruct o as [k v|k|k v|k]; simpl in H; auto; unfold none in H; destruct (contents es1 k) as [w|] eqn:Ec; auto.
  - right. split; [auto|discriminate].
  - right. destruct H as (p & -> & _). split; [eauto|discriminate].
Qed.

(* A pointer obtained from find(k) (or a reference from get(k)) reads the value the map
   currently has for k, until k is erased, whatever else is inserted, set or erased. *)
Theorem C84_pointer_partial n es s es1 es2 es3 t t' k p v : run (start n) es s ->
  es = es1 ++ Did t (Find k) (Ptr (Some p)) :: es2 ++ Read t' p v :: es3 ->
  keeps k es2 -> v = contents (es1 ++ es2) k /\ v <> None.
Proof. intros R E Hk. destruct (run_all _ _ _ _ R) as (_ & _ & _ & _ & G). exact (G _ _ _ _ _ _ _ _ E Hk). Qed.
End PROPS.
Print Assumptions C84_exclusion.
Print Assumptions C84_answers.
Print Assumptions C84_pointer_partial.

(* Another thread may erase k between find and the use of its result: freed memory is read. *)
Theorem C84_pointer_refuted : exists es s (t t' : nat) (k p : nat),
  run Nat.eq_dec (start (V := nat) 2) es s /\ In (Did t (Find k) (Ptr (Some p))) es /\ In (Read t p None) es /\ t <> t' /\
  In (Did t' (Erase k) Unit) es.
Proof.
  destruct (play Nat.eq_dec (start (V := nat) 2)
    [(0, Start (Set_ 3 9)); (0, Go); (0, Go); (0, Go); (0, Start (Find 3)); (0, Go); (0, Go); (0, Go); (0, Use 0);
     (1, Start (Erase 3)); (1, Go); (1, Go); (1, Go); (0, Go)]) as [[s es]|] eqn:E; [|vm_compute in E; discriminate].
  exists es, s, 0, 1, 3, 0. split; [exact (play_run _ _ _ _ _ E)|]. vm_compute in E. injection E as <- <-.
  simpl. repeat split; auto 10.
Qed.
Print Assumptions C84_pointer_refuted.

(* The use of the result is not protected either: it can overlap with a set of the same
   key, a data race on the value. *)
Theorem C84_race_refuted : exists es s (t t' : nat) (k p v : nat),
  run Nat.eq_dec (start (V := nat) 2) es s /\ In (Did t (Find k) (Ptr (Some p))) es /\
  nth_error (pcs s) t = Some (Deref p) /\ nth_error (pcs s) t' = Some (Within (Set_ k v)).
Proof.
  destruct (play Nat.eq_dec (start (V := nat) 2)
    [(0, Start (Set_ 3 9)); (0, Go); (0, Go); (0, Go); (0, Start (Find 3)); (0, Go); (0, Go); (0, Go); (0, Use 0);
     (1, Start (Set_ 3 8)); (1, Go)]) as [[s es]|] eqn:E; [|vm_compute in E; discriminate].
  exists es, s, 0, 1, 3, 0, 8. split; [exact (play_run _ _ _ _ _ E)|]. vm_compute in E. injection E as <- <-.
  simpl. repeat split; auto 10.
Qed.
Print Assumptions C84_race_refuted.

(* Thread 0 finds 3; thread 1 inserts 4, sets 3 again and erases 5; the pointer reads the new value. *)
Example C84_ex : exists es s, run Nat.eq_dec (start (V := nat) 2) es s /\
  exists es1 es2, es = es1 ++ Did 0 (Find 3) (Ptr (Some 0)) :: es2 ++ [Read 0 0 (Some 8)] /\ keeps 3 es2 /\ length es2 = 3.
Proof.
  destruct (play Nat.eq_dec (start (V := nat) 2)
    [(0, Start (Set_ 3 9)); (0, Go); (0, Go); (0, Go); (0, Start (Find 3)); (0, Go); (0, Go); (0, Go);
     (1, Start (Emplace 4 1)); (1, Go); (1, Go); (1, Go); (1, Start (Set_ 3 8)); (1, Go); (1, Go); (1, Go);
     (1, Start (Erase 5)); (1, Go); (1, Go); (1, Go); (0, Use 0); (0, Go)]) as [[s es]|] eqn:E; [|vm_compute in E; discriminate].
  exists es, s. split; [exact (play_run _ _ _ _ _ E)|]. vm_compute in E. injection E as <- <-.
  exists [Did 0 (Set_ 3 9) Unit], [Did 1 (Emplace 4 1) (Inserted true); Did 1 (Set_ 3 8) Unit; Did 1 (Erase 5) Unit].
  split; [reflexivity|]. split; [|reflexivity].
  intros t r Hin. simpl in Hin. intuition discriminate.
Qed.
Example C84_ex_inside : exists es s, run Nat.eq_dec (start (V := nat) 2) es s /\
  pcs s = [Within (Find 1); Out (Find 2) (Ptr None)].
Proof.
  destruct (play Nat.eq_dec (start (V := nat) 2) [(0, Start (Find 1)); (1, Start (Find 2)); (0, Go); (1, Go); (1, Go)])
    as [[s es]|] eqn:E; [|vm_compute in E; discriminate].
  exists es, s. split; [exact (play_run _ _ _ _ _ E)|]. vm_compute in E. injection E as <- <-. reflexivity.
Qed.
