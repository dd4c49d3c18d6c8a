(** Model of math/matrix/SparseMatrixOperations.hpp: spmv_classic (7-94), spmv (128-235) and spmv_mask (237-346), for row- and
    column-major matrices, and of the semirings of ZpcFunctional.hpp (141-224, 297-410).
    Every update of the output is one atomic operation, so an execution of a kernel is an order of these operations; the kernel that
    sets the output to the identity completes before.  Simplifications: scalar output (the vec branch of spmv_classic performs the
    same operations component by component); the size checks that throw are the hypotheses on the lengths.
    None: access outside an array. *)
From Coq Require Import QArith.
From Verif Require Import Prelude SortModel SpmModel.
Open Scope nat_scope.

Section S.
Context {V X T : Type}.
(** SemiringImpl (319-336) with the atomic operation selected by the kernels (150-159) *)
Record semiring := { s_ident : T; s_add : T -> T -> T; s_mul : V -> X -> T; s_acc : T -> T -> T }.
Variable sr : semiring.

(** ptrs[o], ptrs[o + 1] *)
Definition segment (m : @csr V) (o : nat) : option (list nat) :=
  bind (nth_error (ptrs m) o) (fun bg => bind (nth_error (ptrs m) (S o)) (fun ed => Some (seq bg (ed - bg)))).
(** the loop of the row kernels: sum = add(sum, multiply(vals[i], vin[inds[i]])) *)
Definition row_sum (m : @csr V) (vin : list X) (row : nat) : option T :=
  bind (segment m row) (fun ks => fold_left (fun acc k => bind acc (fun s => bind (nth_error (vals m) k) (fun v => bind (nth_error (inds m) k) (fun j =>
    bind (nth_error vin j) (fun x => Some (s_add sr s (s_mul sr v x))))))) ks (Some (s_ident sr))).
(** the loop of the column kernels: one update of vout[inds[i]] with multiply(vals[i], vin[col]) per entry; [masked] rows are skipped *)
Fixpoint col_steps (m : @csr V) (x : X) (masked : nat -> option bool) (ks : list nat) : option (list (nat * T)) :=
  match ks with
  | [] => Some []
  | k :: r => bind (nth_error (inds m) k) (fun row => bind (masked row) (fun b => bind (nth_error (vals m) k) (fun v => bind (col_steps m x masked r) (fun l =>
      Some (if b then l else (row, s_mul sr v x) :: l)))))
  end.
Definition col_ops (m : @csr V) (vin : list X) (masked : nat -> option bool) (col : nat) : option (list (nat * T)) :=
  bind (segment m col) (fun ks => bind (nth_error vin col) (fun x => col_steps m x masked ks)).
Definition row_ops (m : @csr V) (vin : list X) (masked : nat -> option bool) (row : nat) : option (list (nat * T)) :=
  bind (masked row) (fun b => if b then Some [] else bind (row_sum m vin row) (fun s => Some [(row, s)])).
(** policy(range(n), ...) : the operations of all iterations *)
Fixpoint all_ops (f : nat -> option (list (nat * T))) (is : list nat) : option (list (nat * T)) :=
  match is with [] => Some [] | i :: r => bind (f i) (fun a => bind (all_ops f r) (fun b => Some (a ++ b))) end.
(** the atomic operations, in the given order *)
Fixpoint apply_ops (out : list T) (ops : list (nat * T)) : option (list T) :=
  match ops with [] => Some out | (i, d) :: r => bind (nth_error out i) (fun o => bind (upd out i (s_acc sr o d)) (fun out' => apply_ops out' r)) end.
(** a kernel over [n] iterations, its operations performed in any order *)
Definition kernel_run (out : list T) (f : nat -> option (list (nat * T))) (n : nat) (r : option (list T)) : Prop :=
  match all_ops f (seq 0 n) with None => r = None | Some ops => exists order, Permutation order ops /\ r = apply_ops out order end.
Definition no_mask (_ : nat) : option bool := Some false.

(** spmv_classic (35-53, 75-94): adds to the present contents of the output; nrows (row-major) or ncols (column-major) iterations *)
Definition spmv_classic_run (m : @csr V) (vin : list X) (out : list T) : option (list T) -> Prop :=
  if rm m then kernel_run out (row_ops m vin no_mask) (nrows m) else kernel_run out (col_ops m vin no_mask) (ncols m).
(** spmv (162-184, 213-235): sets the output to the identity first; range(nrows) in BOTH layouts (232) *)
Definition spmv_run (m : @csr V) (vin : list X) (out : list T) : option (list T) -> Prop :=
  let out0 := map (fun _ => s_ident sr) out in
  if rm m then kernel_run out0 (row_ops m vin no_mask) (nrows m) else kernel_run out0 (col_ops m vin no_mask) (nrows m).
(** spmv_mask (265-291, 320-346): a row whose mask is set gets no update *)
Definition spmv_mask_run (m : @csr V) (vin : list X) (mask : list bool) (out : list T) : option (list T) -> Prop :=
  let out0 := map (fun _ => s_ident sr) out in
  if rm m then kernel_run out0 (row_ops m vin (fun r => nth_error mask r)) (nrows m) else kernel_run out0 (col_ops m vin (fun r => nth_error mask r)) (ncols m).
End S.
Arguments semiring : clear implicits.

(** *** the predefined semirings on a bounded or unbounded integer type (366-410); lo and hi are numeric lowest and max *)
Definition plus_times : semiring Z Z Z := {| s_ident := 0%Z; s_add := Z.add; s_mul := Z.mul; s_acc := Z.add |}.
Definition boolean : semiring bool bool bool := {| s_ident := false; s_add := orb; s_mul := andb; s_acc := orb |}.
(** multiplier_for (376-386): the identity absorbs *)
Definition mul_for (e : Z) (op : Z -> Z -> Z) (a b : Z) : Z := if (a =? e)%Z || (b =? e)%Z then e else op a b.
Definition min_plus (hi : Z) : semiring Z Z Z := {| s_ident := hi; s_add := Z.min; s_mul := mul_for hi Z.add; s_acc := Z.min |}.
Definition max_plus (lo : Z) : semiring Z Z Z := {| s_ident := lo; s_add := Z.max; s_mul := mul_for lo Z.add; s_acc := Z.max |}.
Definition min_times (hi : Z) : semiring Z Z Z := {| s_ident := hi; s_add := Z.min; s_mul := mul_for hi Z.mul; s_acc := Z.min |}.
Definition max_times (lo : Z) : semiring Z Z Z := {| s_ident := lo; s_add := Z.max; s_mul := mul_for lo Z.mul; s_acc := Z.max |}.
(** plus_times on a floating-point type (numbers as exact rationals).  monoid<plus<T>>::identity() is declared auto and returns the
    literal 0 (168), so SemiringImpl::value_type = decltype(identity()) is int (321), and add and multiply return int (330, 333): the
    conversion truncates toward zero.  The atomic operation works on the floating-point type. *)
Definition trunc (q : Q) : Q := inject_Z (Z.quot (Qnum q) (Zpos (Qden q))).
Definition plus_times_real : semiring Q Q Q := {| s_ident := 0%Q; s_add := fun a b => trunc (a + b)%Q; s_mul := fun a b => trunc (a * b)%Q; s_acc := Qplus |}.
