(** Model of the coordinate codecs of AdaptiveGridImpl (geometry/AdaptiveGrid.hpp 56-122, 166-169, 283-324).
    int is 32 bits; a signed left shift that overflows is undefined behaviour (None).  c & mask with an unsigned mask keeps the low 32
    bits of c, which for the masks used here is Z.land on the value of c. *)
From Verif Require Import Prelude.
Open Scope Z_scope.

Section Cfg.
Variable T : list Z.   (* TileBits *)
Variable C : list Z.   (* ScalingBits *)

(** get_tile_bits 58-64, get_scaling_bits 78-84; negative levels give 0 *)
Definition tile_bits (i : nat) : Z := nth i T 0.
Definition scaling_bits (i : nat) : Z := nth i C 0.
(** get_hierarchy_bits 86-92: tile_bits(I) - (tile_bits(I-1) - scaling_bits(I-1)) *)
Definition hierarchy_bits (i : nat) : Z :=
  tile_bits i - (match i with O => 0 | S j => tile_bits j end - match i with O => 0 | S j => scaling_bits j end).
(** get_accum_hierarchy_bits 94-100 *)
Fixpoint accum_hierarchy_bits (i : nat) : Z := hierarchy_bits i + match i with O => 0 | S j => accum_hierarchy_bits j end.
(** Level::sbit 166 (get_cell_bit_offset 120-122), Level::ebit 167 *)
Definition ebit (i : nat) : Z := accum_hierarchy_bits i.
Definition sbit (i : nat) : Z := ebit i - tile_bits i.
(** get_end_bits<I - 1> 283-288 *)
Definition end_prev (i : nat) : Z := match i with O => 0 | S j => ebit j end.
(** the static_asserts 31-35 and 101-102 *)
Definition cfg_ok : Prop := length T = length C /\
  (forall i, (i < length T)%nat -> 0 <= scaling_bits i <= tile_bits i /\ 0 < hierarchy_bits i).

(** Level::cell_mask 168, origin_mask 169 (as a 32-bit pattern, the complement) *)
Definition cell_mask (i : nat) : Z := 2 ^ ebit i - 1.
Definition origin_mask (i : nat) : Z := Z.lnot (cell_mask i).

(** coord_to_key 289-292 *)
Definition coord_to_key (i : nat) (c : list Z) : list Z := map (fun x => Z.land x (origin_mask i)) c.

(** x << k on int *)
Definition shl_int (x k : Z) : option Z :=
  if (0 <=? k) && (k <? 32) && (0 <=? x) && (Z.shiftl x k <? 2 ^ 31) then Some (Z.shiftl x k) else None.

(** the two encoders: 293-301 with (s, b) = (get_end_bits<I-1>, hierarchy_bits), 302-309 with (sbit, tile_bits) *)
Definition lane (i : nat) (s x : Z) : Z := Z.shiftr (Z.land x (cell_mask i)) s.
Fixpoint encode_loop (i : nat) (s b : Z) (ret : Z) (c : list Z) : option Z :=
  match c with
  | [] => Some ret
  | x :: r => match shl_int ret b with Some v => encode_loop i s b (Z.lor v (lane i s x)) r | None => None end
  end.
Definition encode (i : nat) (s b : Z) (c : list Z) : option Z :=
  match c with [] => None | x :: r => encode_loop i s b (lane i s x) r end.
(** the two decoders 310-317, 318-324: from d = dim - 1 down to 0 *)
Fixpoint decode (s b : Z) (d : nat) (off : Z) (ret : list Z) : option (list Z) :=
  match d with
  | O => Some ret
  | S d' => match shl_int (Z.land off (2 ^ b - 1)) s with Some v => decode s b d' (Z.shiftr off b) (v :: ret) | None => None end
  end.
Definition coord_to_hierarchy_offset (i : nat) (c : list Z) : option Z := encode i (end_prev i) (hierarchy_bits i) c.
Definition coord_to_tile_offset (i : nat) (c : list Z) : option Z := encode i (sbit i) (tile_bits i) c.
Definition hierarchy_offset_to_coord (dim i : nat) (off : Z) : option (list Z) := decode (end_prev i) (hierarchy_bits i) dim off [].
Definition tile_offset_to_coord (dim i : nat) (off : Z) : option (list Z) := decode (sbit i) (tile_bits i) dim off [].
End Cfg.
