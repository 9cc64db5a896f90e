(** Independent specification of the primitive encodings, transcribed from
    /repo/README.md 539-588 ("Variable-width integers"). It uses plain arithmetic, none of the
    definitions of the model. *)
From Verif Require Export Base.

(** README 553-570. "Embed the 7k bits of [m] in k bytes as follows: [x..x10..0 xxxxxxxx ...]":
    the k-byte little-endian number whose low k bits are [10..0] and whose high 7k bits are [m]. *)
Definition embed (k : nat) (m : N) : bytes :=
  le_bytes k (m * 2 ^ N.of_nat k + 2 ^ (N.of_nat k - 1)).

Definition spec_varint (n : N) : bytes :=
  if n <? 128 then embed 1 n
  else if n <? 16512 then embed 2 (n - 128)
  else if n <? 2113664 then embed 3 (n - 16512)
  else if n <? 270549120 then embed 4 (n - 2113664)
  else if n <? 34630287488 then embed 5 (n - 270549120)
  else if n <? 4432676798592 then embed 6 (n - 34630287488)
  else if n <? 567382630219904 then embed 7 (n - 4432676798592)
  else if n <? 72624976668147840 then embed 8 (n - 567382630219904)
  else 0 :: le_bytes 8 (n - 72624976668147840).

(** README 581-587: ZigZag maps 0, -1, 1, -2, 2, ... to 0, 1, 2, 3, 4, ... *)
Definition spec_zigzag (z : Z) : N :=
  if (0 <=? z)%Z then Z.to_N (2 * z)%Z else Z.to_N (- 2 * z - 1)%Z.

(** Length of the base-128 varint of Protocol Buffers and Thrift: 7 payload bits per byte. *)
Fixpoint base128_len (fuel : nat) (n : N) : N :=
  match fuel with
  | O => 1
  | S f => if n <? 128 then 1 else 1 + base128_len f (n / 128)
  end.

(** README 595-603: field headers. Size modes 0..3 in the two low bits of the tag. *)
Definition spec_header (index size : N) (varint_value : bool) : bytes :=
  if size =? 0 then spec_varint (4 * index)
  else if size =? 8 then spec_varint (4 * index + 1)
  else if varint_value then spec_varint (4 * index + 2)
  else spec_varint (4 * index + 3) ++ spec_varint size.

(** The first integer that needs [k] bytes (README 553-570). *)
Definition varint_offset (k : N) : N :=
  match k with
  | 1 => 0 | 2 => 128 | 3 => 16512 | 4 => 2113664 | 5 => 270549120 | 6 => 34630287488
  | 7 => 4432676798592 | 8 => 567382630219904 | _ => 72624976668147840
  end.

(** README 573: "the number of trailing zero bits in the first byte indicates how many subsequent
    bytes there are". [k] bytes long: the low k bits of the first byte are [10..0]. *)
Definition spec_varint_len (b : N) : N :=
  if b mod 2 =? 1 then 1 else if b mod 4 =? 2 then 2 else if b mod 8 =? 4 then 3
  else if b mod 16 =? 8 then 4 else if b mod 32 =? 16 then 5 else if b mod 64 =? 32 then 6
  else if b mod 128 =? 64 then 7 else if b =? 128 then 8 else 9.

(** The integer represented by the complete [k]-byte string [bs], read back from the layout. *)
Definition spec_varint_value (k : N) (bs : bytes) : N :=
  if k <=? 8 then varint_offset k + le_val bs / 2 ^ k
  else varint_offset 9 + le_val (tl bs).

(** A second 9-byte string standing for a small [n]: the 64-bit remainder wraps around. The README's
    format does not produce it. *)
Definition varint_alias (n : N) : bytes := 0 :: le_bytes 8 (n + two64 - 72624976668147840).
