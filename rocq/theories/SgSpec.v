(** A sparse grid is a map from integer coordinates to values, defined on whole
    aligned blocks of side [S]. *)
From Coq Require Import QArith.
From Verif Require Import Prelude.
From Verif Require SgModel.
Import SgModel(op(..), ev(..), coordT).
Open Scope Z_scope.

(** two nodes lie in the same aligned block *)
Definition same_block (S : Z) (X Y : coordT) : Prop := Forall2 (fun x y => x / S = y / S) X Y.
(** N is the node whose cell (of unit width, centred at the node) contains p *)
Definition nearest_node (p : list Q) (N : coordT) : Prop :=
  Forall2 (fun q n => inject_Z n - (1#2) <= q /\ q < inject_Z n + (1#2))%Q p N.
(** all components in [0, S) *)
Definition local_coord (S : Z) (dim : nat) (c : coordT) : Prop :=
  length c = dim /\ Forall (fun x => 0 <= x < S) c.

Section S.
Context {V W : Type}.
Variable w2i : W -> list Q.
Variable S : Z.
(** some inserted position's nearest node lies in X's block *)
Definition active (h : list (op V W)) (X : coordT) : Prop :=
  exists x N, In (OInsert V W x) h /\ nearest_node (w2i x) N /\ same_block S N X.
(** what the history (most recent first) last stored at channel c of X; [v0] initially *)
Fixpoint content (v0 : V) (h : list (op V W)) (c : Z) (X : coordT) : V :=
  match h with
  | [] => v0
  | OSet _ _ c' Y v :: r => if (c =? c') && (if list_eq_dec Z.eq_dec X Y then true else false) then v else content v0 r c X
  | OReset _ _ v :: _ => v
  | OInsert _ _ _ :: r => content v0 r c X
  end.
(** coordinates have [dim] components, channels are existing ones *)
Definition op_ok (dim : nat) (nch : Z) (o : op V W) : Prop :=
  match o with
  | OInsert _ _ x => length (w2i x) = dim
  | OSet _ _ c X _ => 0 <= c < nch /\ length X = dim
  | OReset _ _ _ => True
  end.
(** every voxel written is active when it is written *)
Fixpoint writes_active (past : list (op V W)) (ops : list (op V W)) : Prop :=
  match ops with
  | [] => True
  | o :: r => match o with OSet _ _ _ X _ => active past X | _ => True end /\ writes_active (o :: past) r
  end.
Definition ev_ok (dim : nat) (nch : Z) (e : ev V W) : Prop :=
  match e with EOp _ _ o => op_ok dim nch o | EProbe _ _ c X => 0 <= c < nch /\ length X = dim | EClear _ _ => False end.
End S.

(** affine fields, and where face d of cell X lies (index space) *)
Fixpoint dot (a p : list Q) : Q :=
  match a, p with x :: a', y :: p' => (x * y + dot a' p')%Q | _, _ => 0%Q end.
Definition affine (a0 : Q) (a p : list Q) : Q := (a0 + dot a p)%Q.
(** the point X + s e_f *)
Fixpoint shifted (s : Q) (f : nat) (X : coordT) : list Q :=
  match X with
  | [] => []
  | x :: r => match f with
              | O => (inject_Z x + s)%Q :: map inject_Z r
              | Datatypes.S f' => inject_Z x :: shifted s f' r
              end
  end.
Definition within_one (X Y : coordT) : Prop := Forall2 (fun x y => Z.abs (x - y) <= 1) X Y.

(** at most [n] blocks are touched by the insertions *)
Definition blocks_at_most {V W : Type} (w2i : W -> list Q) (S : Z) (n : nat) (ops : list (op V W)) : Prop :=
  exists B : list coordT, (length B <= n)%nat /\
    forall x N, In (OInsert V W x) ops -> nearest_node (w2i x) N -> exists Y, In Y B /\ same_block S N Y.
(** the same client reading the grid directly *)
Section Plain.
Context {V W : Type}.
Variable step : SgModel.grid V -> op V W -> option (SgModel.grid V).
Variable value : SgModel.grid V -> Z -> coordT -> option V.
Variable has : SgModel.grid V -> coordT -> bool.
Fixpoint direct (g : SgModel.grid V) (es : list (ev V W)) : option (list (bool * V) * SgModel.grid V) :=
  match es with
  | [] => Some ([], g)
  | EOp _ _ o :: r => match step g o with Some g' => direct g' r | None => None end
  | EProbe _ _ c X :: r =>
    match value g c X with
    | Some v => match direct g r with Some (vs, g') => Some ((has g X, v) :: vs, g') | None => None end
    | None => None
    end
  | EClear _ _ :: _ => None
  end.
End Plain.
