(** * copyable_ptr (include/zensim/types/Pointers.hpp:8-113)

    Variables are numbered; the heap is the list of all objects ever allocated, [None] once deleted.  The member (112) is a
    std::unique_ptr with the default deleter: it deletes what it owns when destroyed, reset or assigned to, and moving from
    it leaves it empty.  Dereferencing an empty pointer, using a deleted object and deleting twice are [Bad], as is using a variable that does
    not exist or constructing one that does.  Not modelled: other deleters (27-33), copies from and moves of a unique_ptr and
    conversions between pointer types (45-88), swap with a unique_ptr (106), release (104; the caller then owns the object). *)
From Coq Require Import Arith List.
Import ListNotations.

Section Model.
Context {V : Type}.

(** Pointers.hpp:112 (_ptr), one per variable: [None] if not alive, [Some None] if empty. *)
Definition vars := nat -> option (option nat).
(** All variables (Pointers.hpp:112) and the objects they may own. *)
Record state := State { env : vars; heap : list (option V) }.
(** The result of one use of the class (Pointers.hpp:23-107). *)
Inductive outcome := Good (s : state) | Bad.

(** Storing into the member _ptr (Pointers.hpp:112) of variable [i]. *)
Definition bind (e : vars) (i : nat) (p : option (option nat)) : vars := fun k => if Nat.eq_dec k i then p else e k.
(** Before any copyable_ptr (Pointers.hpp:8) is constructed. *)
Definition init : state := State (fun _ => None) [].

(** new T(...) (Pointers.hpp:39, 42, and the caller's own for 24 and 105) *)
Definition alloc (h : list (option V)) (v : V) : list (option V) * nat := (h ++ [Some v], length h).
(** What std::unique_ptr does for Pointers.hpp:42, 90, 93, 105: delete the object owned, if any *)
Definition free (h : list (option V)) (p : option nat) : option (list (option V)) :=
  match p with
  | None => Some h
  | Some a => match nth_error h a with
              | Some (Some _) => Some (firstn a h ++ None :: skipn (S a) h)
              | _ => None
              end
  end.
(** Pointers.hpp:96: operator*, read *)
Definition deref (h : list (option V)) (p : option nat) : option V :=
  match p with
  | None => None
  | Some a => match nth_error h a with Some (Some v) => Some v | _ => None end
  end.

(** The uses modelled, lines in Pointers.hpp. *)
Inductive op :=
  | New (i : nat) (v : V)        (* copyable_ptr(new T(v)) (24) *)
  | Empty (i : nat)              (* copyable_ptr() (23), copyable_ptr(nullptr) (35) *)
  | CopyCtor (i j : nat)         (* copyable_ptr(const copyable_ptr &) (38-39) *)
  | CopyAssign (i j : nat)       (* operator=(const copyable_ptr &) (40-44) *)
  | MoveCtor (i j : nat)         (* copyable_ptr(copyable_ptr &&) (92) *)
  | MoveAssign (i j : nat)       (* operator=(copyable_ptr &&) (93) *)
  | Write (i : nat) (v : V)      (* *p = v, through operator* (96) *)
  | Reset (i : nat)              (* reset() (105) *)
  | ResetTo (i : nat) (v : V)    (* reset(new T(v)) (105) *)
  | Swap (i j : nat)             (* swap(copyable_ptr &) (107) *)
  | Destroy (i : nat).           (* ~copyable_ptr (90) *)

(** The member is updated first and the old object deleted afterwards (unique_ptr::reset, for Pointers.hpp:42, 93, 105). *)
Definition finish (e : vars) (h : option (list (option V))) : outcome :=
  match h with Some h => Good (State e h) | None => Bad end.

(** Pointers.hpp:23-24, 35, 38-44, 90-93, 96, 105, 107: one use; see [op] for the line of each. *)
Definition step (s : state) (o : op) : outcome :=
  let e := env s in let h := heap s in
  match o with
  | New i v => match e i with None => let '(h', a) := alloc h v in Good (State (bind e i (Some (Some a))) h') | _ => Bad end
  | Empty i => match e i with None => Good (State (bind e i (Some None)) h) | _ => Bad end
  | CopyCtor i j =>
      match e i, e j with
      | None, Some p => match deref h p with
                        | Some v => let '(h', a) := alloc h v in Good (State (bind e i (Some (Some a))) h')
                        | None => Bad
                        end
      | _, _ => Bad
      end
  | CopyAssign i j =>
      match e i, e j with
      | Some old, Some p => match deref h p with
                            | Some v => let '(h', a) := alloc h v in finish (bind e i (Some (Some a))) (free h' old)
                            | None => Bad
                            end
      | _, _ => Bad
      end
  | MoveCtor i j =>
      match e i, e j with
      | None, Some p => Good (State (bind (bind e j (Some None)) i (Some p)) h)
      | _, _ => Bad
      end
  | MoveAssign i j =>
      match e i, e j with
      | Some _, Some p =>
          let e := bind e j (Some None) in
          match e i with Some old => finish (bind e i (Some p)) (free h old) | None => Bad end
      | _, _ => Bad
      end
  | Write i v =>
      match e i with
      | Some (Some a) => match nth_error h a with
                         | Some (Some _) => Good (State e (firstn a h ++ Some v :: skipn (S a) h))
                         | _ => Bad
                         end
      | _ => Bad
      end
  | Reset i => match e i with Some old => finish (bind e i (Some None)) (free h old) | None => Bad end
  | ResetTo i v => match e i with
                   | Some old => let '(h', a) := alloc h v in finish (bind e i (Some (Some a))) (free h' old)
                   | None => Bad
                   end
  | Swap i j => match e i, e j with
                | Some p, Some q => Good (State (bind (bind e i (Some q)) j (Some p)) h)
                | _, _ => Bad
                end
  | Destroy i => match e i with Some old => finish (bind e i None) (free h old) | None => Bad end
  end.
(** A sequence of uses of the class (Pointers.hpp:8-113). *)
Fixpoint run (s : state) (l : list op) : outcome :=
  match l with [] => Good s | o :: r => match step s o with Good s' => run s' r | Bad => Bad end end.
End Model.
