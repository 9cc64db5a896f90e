(** Model of the run-time prelude that [generate] emits in front of every generated Rust file
    (/repo/src/generate_rust.rs 129-399). Definitions only. *)
From Verif Require Export Base.

(** [x as u8] *)
Definition u8 (x : N) : N := x mod 256.
(** [x << k] on u64 (bits shifted out are lost) and [x >> k]. *)
Definition shl64 (x k : N) : N := (N.shiftl x k) mod two64.
Definition shr (x k : N) : N := N.shiftr x k.

(** [transmute::<i64,u64>] / [transmute::<u64,i64>]: two's complement reinterpretation. *)
Definition u64_of_i64 (z : Z) : N := Z.to_N (z mod (Z.of_N two64))%Z.
Definition i64_of_u64 (n : N) : Z :=
  if n <? two63 then Z.of_N n else (Z.of_N n - Z.of_N two64)%Z.

(** [value << 1] on i64: keeps the low 64 bits, reinterpreted. *)
Definition shl1_i64 (z : Z) : Z := i64_of_u64 (shl64 (u64_of_i64 z) 1).

(** generate_rust.rs 158-160: [zigzag_encode]. [value >> 63] is the arithmetic shift. *)
Definition zigzag_encode (value : Z) : N :=
  N.lxor (u64_of_i64 (Z.shiftr value 63)) (u64_of_i64 (shl1_i64 value)).

(** generate_rust.rs 162-164: [zigzag_decode]. The xor is on i64 bit patterns. *)
Definition zigzag_decode (value : N) : Z :=
  i64_of_u64 (N.lxor (shr value 1) (u64_of_i64 (- i64_of_u64 (N.land value 1)))).

(** generate_rust.rs 166-178: [varint_size_from_value]. *)
Definition varint_size_from_value (value : N) : N :=
  if value <=? 127 then 1
  else if value <=? 16511 then 2
  else if value <=? 2113663 then 3
  else if value <=? 270549119 then 4
  else if value <=? 34630287487 then 5
  else if value <=? 4432676798591 then 6
  else if value <=? 567382630219903 then 7
  else if value <=? 72624976668147839 then 8
  else 9.

(** [u8::trailing_zeros] (8 for zero). *)
Definition trailing_zeros (b : N) : N :=
  if N.testbit b 0 then 0
  else if N.testbit b 1 then 1
  else if N.testbit b 2 then 2
  else if N.testbit b 3 then 3
  else if N.testbit b 4 then 4
  else if N.testbit b 5 then 5
  else if N.testbit b 6 then 6
  else if N.testbit b 7 then 7
  else 8.

(** generate_rust.rs 180-182: [varint_size_from_first_byte]. *)
Definition varint_size_from_first_byte (first_byte : N) : N := trailing_zeros first_byte + 1.

(** generate_rust.rs 184-272: [serialize_varint]; the bytes given to [write_all]. *)
Definition serialize_varint (value : N) : bytes :=
  if value <=? 127 then [N.lor (u8 (shl64 value 1)) 1]
  else if value <=? 16511 then
    let value := value - 128 in
    [N.lor (u8 (shl64 value 2)) 2; u8 (shr value 6)]
  else if value <=? 2113663 then
    let value := value - 16512 in
    [N.lor (u8 (shl64 value 3)) 4; u8 (shr value 5); u8 (shr value 13)]
  else if value <=? 270549119 then
    let value := value - 2113664 in
    [N.lor (u8 (shl64 value 4)) 8; u8 (shr value 4); u8 (shr value 12); u8 (shr value 20)]
  else if value <=? 34630287487 then
    let value := value - 270549120 in
    [N.lor (u8 (shl64 value 5)) 16; u8 (shr value 3); u8 (shr value 11); u8 (shr value 19);
     u8 (shr value 27)]
  else if value <=? 4432676798591 then
    let value := value - 34630287488 in
    [N.lor (u8 (shl64 value 6)) 32; u8 (shr value 2); u8 (shr value 10); u8 (shr value 18);
     u8 (shr value 26); u8 (shr value 34)]
  else if value <=? 567382630219903 then
    let value := value - 4432676798592 in
    [N.lor (u8 (shl64 value 7)) 64; u8 (shr value 1); u8 (shr value 9); u8 (shr value 17);
     u8 (shr value 25); u8 (shr value 33); u8 (shr value 41)]
  else if value <=? 72624976668147839 then
    let value := value - 567382630219904 in
    [128; u8 value; u8 (shr value 8); u8 (shr value 16); u8 (shr value 24); u8 (shr value 32);
     u8 (shr value 40); u8 (shr value 48)]
  else
    let value := value - 72624976668147840 in
    [0; u8 value; u8 (shr value 8); u8 (shr value 16); u8 (shr value 24); u8 (shr value 32);
     u8 (shr value 40); u8 (shr value 48); u8 (shr value 56)].

(** [Read::read_exact] for [n] bytes: fails with [UnexpectedEof] (having drained the reader) when
    fewer are available. *)
Definition read_exact (n : N) (bs : bytes) : res bytes :=
  if n <=? lenN bs then Ok (takeN n bs) (dropN n bs) else Err EOF.

(** generate_rust.rs 274-301: [deserialize_varint]. The unread part of the zero-initialised 8-byte
    buffer contributes nothing to [from_le_bytes]. [Panic] stands for the overflow panic of the
    additions (it is proved not to happen). *)
Definition checked_add64 (a b : N) (rest : bytes) : res N :=
  if a + b <? two64 then Ok (a + b) rest else Panic.

Definition deserialize_varint (bs : bytes) : res N :=
  bindr (read_exact 1 bs) (fun fb bs1 =>
    let first_byte := nth 0 fb 0 in
    let size_minus_one := trailing_zeros first_byte in
    bindr (read_exact size_minus_one bs1) (fun buf rest =>
      let rem := le_val buf in
      if size_minus_one =? 0 then Ok (shr first_byte 1) rest
      else if size_minus_one =? 1 then checked_add64 (128 + shr first_byte 2) (shl64 rem 6) rest
      else if size_minus_one =? 2 then checked_add64 (16512 + shr first_byte 3) (shl64 rem 5) rest
      else if size_minus_one =? 3 then
        checked_add64 (2113664 + shr first_byte 4) (shl64 rem 4) rest
      else if size_minus_one =? 4 then
        checked_add64 (270549120 + shr first_byte 5) (shl64 rem 3) rest
      else if size_minus_one =? 5 then
        checked_add64 (34630287488 + shr first_byte 6) (shl64 rem 2) rest
      else if size_minus_one =? 6 then
        checked_add64 (4432676798592 + shr first_byte 7) (shl64 rem 1) rest
      else if size_minus_one =? 7 then checked_add64 567382630219904 rem rest
      else Ok ((72624976668147840 + rem) mod two64) rest)).

(** generate_rust.rs 303-316: [field_header_size]. *)
Definition field_header_size (index payload_size : N) (integer_encoded : bool) : N :=
  if payload_size =? 0 then varint_size_from_value (N.lor (shl64 index 2) 0)
  else if payload_size =? 8 then varint_size_from_value (N.lor (shl64 index 2) 1)
  else if integer_encoded then varint_size_from_value (N.lor (shl64 index 2) 2)
  else varint_size_from_value (N.lor (shl64 index 2) 3) + varint_size_from_value payload_size.

(** generate_rust.rs 318-336: [serialize_field_header]. *)
Definition serialize_field_header (index payload_size : N) (integer_encoded : bool) : bytes :=
  if payload_size =? 0 then serialize_varint (N.lor (shl64 index 2) 0)
  else if payload_size =? 8 then serialize_varint (N.lor (shl64 index 2) 1)
  else if integer_encoded then serialize_varint (N.lor (shl64 index 2) 2)
  else serialize_varint (N.lor (shl64 index 2) 3) ++ serialize_varint payload_size.

(** generate_rust.rs 338-362: [deserialize_field_header]. Mode [0b10] only peeks at the buffer. *)
Definition deserialize_field_header (bs : bytes) : res (N * N) :=
  bindr (deserialize_varint bs) (fun tag bs1 =>
    let index := shr tag 2 in
    let mode := N.land tag 3 in
    if mode =? 0 then Ok (index, 0) bs1
    else if mode =? 1 then Ok (index, 8) bs1
    else if mode =? 2 then
      match bs1 with
      | [] => Err EOF
      | b :: _ => Ok (index, varint_size_from_first_byte b) bs1
      end
    else bindr (deserialize_varint bs1) (fun size bs2 => Ok (index, size) bs2)).

(** generate_rust.rs 364-373: [skip], called on a [take]-limited sub-reader. The loop consumes
    [min(buffer.len(), amount)] per round; on an exhausted reader the buffer is empty and [amount]
    never decreases, so the loop spins forever. (The loop itself is modelled in Chunks.v, where
    this summary is proved.) *)
Definition skip (amount : N) (bs : bytes) : res unit :=
  if amount <=? lenN bs then Ok tt (dropN amount bs) else Diverge.

(** generate_rust.rs 375-386: [finish] drains the reader. *)
Definition finish (bs : bytes) : res unit := Ok tt [].
