(** Vertex normals: include/zensim/geometry/Mesh.cpp 11-134, with cross, length and normalized of math/VecInterface.hpp (945-956, 489-494, 506-512).
    Simplifications: exact real arithmetic; a quotient 0 / 0 (not a number) is None; the atomic additions of all threads happen in any order, and
    so do the plain stores of the branch that copies given normals (which write equal values, though formally they race). *)
From Coq Require Import Reals.
From Verif Require Import Prelude.
Local Open Scope R_scope.

(** the vectors std::array<float, 3> and vec<float, 3>, Mesh.hpp 17 *)
Record v3 := V3 { vx : R; vy : R; vz : R }.
(** Mesh.hpp 18 with dimE = 3 *)
Definition tri := (nat * nat * nat)%type.
(** the differences of 53-54, 118-119 *)
Definition vsub (a b : v3) : v3 := V3 (vx a - vx b) (vy a - vy b) (vz a - vz b).
(** VecInterface.hpp 945-956 *)
Definition cross (a b : v3) : v3 := V3 (vy a * vz b - vz a * vy b) (vz a * vx b - vx a * vz b) (vx a * vy b - vy a * vx b).

(** 57-60, 122-125, 42-44: the normals are an array of numbers: component d of vertex i is at 3 i + d *)
Definition at_vertex (i : nat) (n : v3) : list (nat * R) := [(3 * i + 0, vx n); (3 * i + 1, vy n); (3 * i + 2, vz n)]%nat.
(** 49-61, 114-126: the additions of one triangle; a vertex out of range is undefined *)
Definition face_ops (pos : list v3) (t : tri) : option (list (nat * R)) :=
  let '(i, j, k) := t in
  match nth_error pos i, nth_error pos j, nth_error pos k with
  | Some a, Some b, Some c =>
      let e0 := vsub b a in let e1 := vsub c a in let n := cross e0 e1 in
      Some (at_vertex i n ++ at_vertex j n ++ at_vertex k n)
  | _, _, _ => None
  end.
(** 37-47: the stores of one triangle *)
Definition copy_ops (norms : list v3) (t : tri) : option (list (nat * R)) :=
  let '(i, j, k) := t in
  match nth_error norms i, nth_error norms j, nth_error norms k with
  | Some a, Some b, Some c => Some (at_vertex i a ++ at_vertex j b ++ at_vertex k c)
  | _, _, _ => None
  end.
(** the loops over the triangles, 37, 49, 113 *)
Fixpoint all_ops (f : tri -> option (list (nat * R))) (tris : list tri) : option (list (nat * R)) :=
  match tris with [] => Some [] | t :: r => match f t, all_ops f r with Some a, Some b => Some (a ++ b) | _, _ => None end end.
(** each operation combines the present number with the new one: atomic_add, or a store *)
Fixpoint apply_ops (comb : R -> R -> R) (mem : list R) (ops : list (nat * R)) : option (list R) :=
  match ops with
  | [] => Some mem
  | (k, x) :: r => match nth_error mem k with
                   | Some o => match upd mem k (comb o x) with Some mem' => apply_ops comb mem' r | None => None end
                   | None => None end
  end.
(** 43 *)
Definition store (old new : R) : R := new.
(** 92-97, 128-133 *)
Definition normalize (scale : R) (n : v3) : option v3 :=
  let len := sqrt (vx n * vx n + vy n * vy n + vz n * vz n) in
  if Req_EM_T len 0 then None else Some (V3 (vx n / len * scale) (vy n / len * scale) (vz n / len * scale)).
(** the vector at vertex i, 93, 129 *)
Definition vertex (mem : list R) (i : nat) : v3 := V3 (nth (3 * i + 0) mem 0) (nth (3 * i + 1) mem 0) (nth (3 * i + 2) mem 0).
(** 92, 128 *)
Definition finish (scale : R) (num : nat) (mem : list R) : list (option v3) := map (fun i => normalize scale (vertex mem i)) (seq 0 num).
(** the parallel loop over the triangles: all operations in any order *)
Definition loop (comb : R -> R -> R) (f : tri -> option (list (nat * R))) (tris : list tri) (mem : list R) (r : option (list R)) : Prop :=
  match all_ops f tris with None => r = None | Some ops => exists order, Permutation order ops /\ r = apply_ops comb mem order end.

(** 11-98: compute_mesh_normal of a mesh; num is the size of the output. 23: given normals are used if there are as many as nodes *)
Definition mesh_normal (pos norms : list v3) (tris : list tri) (scale : R) (num : nat) (out : option (list (option v3))) : Prop :=
  let mem := repeat 0 (3 * num) in
  exists r, (if Nat.eqb (length norms) (length pos) then loop store (copy_ops norms) tris mem r else loop Rplus (face_ops pos) tris mem r) /\
            out = option_map (finish scale num) r.
(** 100-134: compute_mesh_normal of a part of the nodes and triangles. old: the contents of the array nrms points to. nodeOffset is not used. *)
Definition part_normal (pos : list v3) (nodeOffset nodeNum : nat) (tris : list tri) (triOffset triNum : nat) (old : list R) (out : option (list (option v3))) : Prop :=
  if Nat.ltb (length old) (3 * nodeNum) then out = None
  else let mem := repeat 0 (3 * nodeNum) ++ skipn (3 * nodeNum) old in
  if Nat.ltb (length tris) (triOffset + triNum) then out = None
  else exists r, loop Rplus (face_ops pos) (firstn triNum (skipn triOffset tris)) mem r /\ out = option_map (finish 1 nodeNum) r.
