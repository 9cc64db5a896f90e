(** Model of the run-time prelude that [generate] emits in front of every generated TypeScript file
    (/repo/src/generate_typescript.rs 146-448), over array buffers and data views. Definitions only.
    [bigint] is modelled by [N] and [Z] (exact); a [number] that holds a size or an offset by [N]: it is
    exact below 2^53, and larger declared sizes exceed every buffer, whatever they are rounded to. *)
From Verif Require Export Base Utf8.

(** Outcome of running JavaScript: a value, a thrown [RangeError], another thrown [Error]. [JFuel] is an
    artefact of the model (proved never to occur). *)
Inductive jres (A : Type) := JOk (a : A) | JRange | JError | JFuel.
Arguments JOk {A}. Arguments JRange {A}. Arguments JError {A}. Arguments JFuel {A}.
Definition jbind {A B} (x : jres A) (k : A -> jres B) : jres B :=
  match x with JOk a => k a | JRange => JRange | JError => JError | JFuel => JFuel end.
Definition jmap {A B} (f : A -> B) (x : jres A) : jres B := jbind x (fun a => JOk (f a)).

(** A [DataView]: buffer, [byteOffset], [byteLength]. *)
Record view := mkView { vbuf : bytes; voff : N; vlen : N }.

(** [new DataView(buffer, byteOffset, length)]: checked against the whole buffer. *)
Definition new_view (buf : bytes) (off len : N) : jres view :=
  if off + len <=? lenN buf then JOk (mkView buf off len) else JRange.

(** [n] bytes at [off] of the view ([getUint8], [getBigUint64], ...): checked against the view. *)
Definition vget (v : view) (off n : N) : jres bytes :=
  if off + n <=? vlen v then JOk (takeN n (dropN (voff v + off) (vbuf v))) else JRange.
Definition get_u8 (v : view) (off : N) : jres N := jmap le_val (vget v off 1).
Definition get_u64 (v : view) (off : N) : jres N := jmap le_val (vget v off 8).

(** Writing [data] at [off] through a view of a whole array buffer ([setUint8(off, x)] writes
    [le_bytes 1 x], [setUint16(off, x, true)] writes [le_bytes 2 x], and so on). *)
Definition vset (buf : bytes) (off : N) (data : bytes) : jres bytes :=
  if off + lenN data <=? lenN buf
  then JOk (takeN off buf ++ data ++ dropN (off + lenN data) buf) else JRange.

(** generate_typescript.rs 177-180: [zigzagEncode]. *)
Definition ts_zigzag_encode (value : Z) : Z :=
  (let twice := Z.shiftl value 1 in if value <? 0 then -1 - twice else twice)%Z.

(** generate_typescript.rs 182-185: [zigzagDecode]. *)
Definition ts_zigzag_decode (value : Z) : Z :=
  (let half := Z.shiftr (value + 1) 1 in if Z.land value 1 =? 0 then half else - half)%Z.

(** generate_typescript.rs 187-221: [varintSizeFromValue]. *)
Definition ts_varint_size (value : N) : N :=
  if value <? 128 then 1 else if value <? 16512 then 2 else if value <? 2113664 then 3
  else if value <? 270549120 then 4 else if value <? 34630287488 then 5
  else if value <? 4432676798592 then 6 else if value <? 567382630219904 then 7
  else if value <? 72624976668147840 then 8 else 9.

(** generate_typescript.rs 223-232: [varintSizeFromFirstByte]; the loop runs at most 8 times. *)
Fixpoint ts_trailing_zeros (fuel : nat) (first_byte : N) : N :=
  match fuel with
  | O => 0
  | S fuel' => if N.land first_byte 1 =? 1 then 0
               else 1 + ts_trailing_zeros fuel' (N.shiftr first_byte 1)
  end.
Definition ts_size_from_first_byte (first_byte : N) : N := ts_trailing_zeros 8 first_byte + 1.

(** generate_typescript.rs 234-318: [serializeVarint]; buffer and offset afterwards. *)
Definition ts_serialize_varint (buf : bytes) (off : N) (value : N) : jres (bytes * N) :=
  if value <? 128 then
    jbind (vset buf off (le_bytes 1 (N.lor (N.shiftl value 1) 1))) (fun buf => JOk (buf, off + 1))
  else if value <? 16512 then
    let value := value - 128 in
    jbind (vset buf off (le_bytes 1 (N.lor (N.shiftl value 2 mod 256) 2))) (fun buf =>
    jbind (vset buf (off + 1) (le_bytes 1 (N.shiftr value 6))) (fun buf => JOk (buf, off + 2)))
  else if value <? 2113664 then
    let value := value - 16512 in
    jbind (vset buf off (le_bytes 1 (N.lor (N.shiftl value 3 mod 256) 4))) (fun buf =>
    jbind (vset buf (off + 1) (le_bytes 2 (N.shiftr value 5 mod 65536))) (fun buf =>
      JOk (buf, off + 3)))
  else if value <? 270549120 then
    let value := value - 2113664 in
    jbind (vset buf off (le_bytes 1 (N.lor (N.shiftl value 4 mod 256) 8))) (fun buf =>
    jbind (vset buf (off + 1) (le_bytes 1 (N.shiftr value 4 mod 256))) (fun buf =>
    jbind (vset buf (off + 2) (le_bytes 2 (N.shiftr value 12 mod 65536))) (fun buf =>
      JOk (buf, off + 4))))
  else if value <? 34630287488 then
    let value := value - 270549120 in
    jbind (vset buf off (le_bytes 1 (N.lor (N.shiftl value 5 mod 256) 16))) (fun buf =>
    jbind (vset buf (off + 1) (le_bytes 4 (N.shiftr value 3 mod 4294967296))) (fun buf =>
      JOk (buf, off + 5)))
  else if value <? 4432676798592 then
    let value := value - 34630287488 in
    jbind (vset buf off (le_bytes 1 (N.lor (N.shiftl value 6 mod 256) 32))) (fun buf =>
    jbind (vset buf (off + 1) (le_bytes 1 (N.shiftr value 2 mod 256))) (fun buf =>
    jbind (vset buf (off + 2) (le_bytes 4 (N.shiftr value 10 mod 4294967296))) (fun buf =>
      JOk (buf, off + 6))))
  else if value <? 567382630219904 then
    let value := value - 4432676798592 in
    jbind (vset buf off (le_bytes 1 (N.lor (N.shiftl value 7 mod 256) 64))) (fun buf =>
    jbind (vset buf (off + 1) (le_bytes 2 (N.shiftr value 1 mod 65536))) (fun buf =>
    jbind (vset buf (off + 3) (le_bytes 4 (N.shiftr value 17 mod 4294967296))) (fun buf =>
      JOk (buf, off + 7))))
  else if value <? 72624976668147840 then
    let value := value - 567382630219904 in
    jbind (vset buf off (le_bytes 1 128)) (fun buf =>
    jbind (vset buf (off + 1) (le_bytes 1 (value mod 256))) (fun buf =>
    jbind (vset buf (off + 2) (le_bytes 2 (N.shiftr value 8 mod 65536))) (fun buf =>
    jbind (vset buf (off + 4) (le_bytes 4 (N.shiftr value 24 mod 4294967296))) (fun buf =>
      JOk (buf, off + 8)))))
  else
    let value := value - 72624976668147840 in
    jbind (vset buf off (le_bytes 1 0)) (fun buf =>
    jbind (vset buf (off + 1) (le_bytes 8 value)) (fun buf => JOk (buf, off + 9))).

(** generate_typescript.rs 328-331: the loop that copies [k] bytes, one [getUint8] each. *)
Fixpoint get_bytes (v : view) (off : N) (k : nat) : jres bytes :=
  match k with
  | O => JOk []
  | S k' => jbind (get_u8 v off) (fun b => jmap (cons b) (get_bytes v (off + 1) k'))
  end.

(** generate_typescript.rs 320-378: [deserializeVarint]; offset afterwards and value. *)
Definition ts_deserialize_varint (v : view) (off : N) : jres (N * N) :=
  jbind (get_u8 v off) (fun first_byte =>
    let size_minus_one := ts_size_from_first_byte first_byte - 1 in
    jbind (get_bytes v (off + 1) (N.to_nat size_minus_one)) (fun rest =>
      let rem := le_val rest in
      if size_minus_one =? 0 then JOk (off + 1, N.shiftr first_byte 1)
      else if size_minus_one =? 1 then
        JOk (off + 2, 128 + N.shiftr first_byte 2 + N.shiftl rem 6)
      else if size_minus_one =? 2 then
        JOk (off + 3, 16512 + N.shiftr first_byte 3 + N.shiftl rem 5)
      else if size_minus_one =? 3 then
        JOk (off + 4, 2113664 + N.shiftr first_byte 4 + N.shiftl rem 4)
      else if size_minus_one =? 4 then
        JOk (off + 5, 270549120 + N.shiftr first_byte 5 + N.shiftl rem 3)
      else if size_minus_one =? 5 then
        JOk (off + 6, 34630287488 + N.shiftr first_byte 6 + N.shiftl rem 2)
      else if size_minus_one =? 6 then
        JOk (off + 7, 4432676798592 + N.shiftr first_byte 7 + N.shiftl rem 1)
      else if size_minus_one =? 7 then JOk (off + 8, 567382630219904 + rem)
      else JOk (off + 9, (72624976668147840 + rem) mod two64))).

(** generate_typescript.rs 380-400: [fieldHeaderSize]. *)
Definition ts_header_size (index payload_size : N) (integer_encoded : bool) : N :=
  if payload_size =? 0 then ts_varint_size (N.shiftl index 2)
  else if payload_size =? 8 then ts_varint_size (N.lor (N.shiftl index 2) 1)
  else if integer_encoded then ts_varint_size (N.lor (N.shiftl index 2) 2)
  else ts_varint_size (N.lor (N.shiftl index 2) 3) + ts_varint_size payload_size.

(** generate_typescript.rs 402-423: [serializeFieldHeader]. *)
Definition ts_serialize_header (buf : bytes) (off : N) (index payload_size : N)
  (integer_encoded : bool) : jres (bytes * N) :=
  if payload_size =? 0 then ts_serialize_varint buf off (N.shiftl index 2)
  else if payload_size =? 8 then ts_serialize_varint buf off (N.lor (N.shiftl index 2) 1)
  else if integer_encoded then ts_serialize_varint buf off (N.lor (N.shiftl index 2) 2)
  else jbind (ts_serialize_varint buf off (N.lor (N.shiftl index 2) 3)) (fun bo =>
         ts_serialize_varint (fst bo) (snd bo) payload_size).

(** generate_typescript.rs 425-445: [deserializeFieldHeader]; offset, index, payload size. *)
Definition ts_deserialize_header (v : view) (off : N) : jres (N * N * N) :=
  jbind (ts_deserialize_varint v off) (fun ot =>
    let (off1, tag) := ot in
    let index := N.shiftr tag 2 in
    let mode := N.land tag 3 in
    if mode =? 0 then JOk (off1, index, 0)
    else if mode =? 1 then JOk (off1, index, 8)
    else if mode =? 2 then
      jbind (get_u8 v off1) (fun b => JOk (off1, index, ts_size_from_first_byte b))
    else
      jbind (ts_deserialize_varint v off1) (fun os =>
        let (off2, size) := os in JOk (off2, index, size))).
