(** Property theorems C01-C05, C07-C14, C48-C51. Each is closed by an [exact]; see MANIFEST.json. *)
From Verif Require Import PrimExtra.

(** C01 *)
Theorem varint_round_trip : forall n rest, n < two64 -> bytes_ok rest ->
  deserialize_varint (serialize_varint n ++ rest) = Ok n rest.
Proof. exact varint_roundtrip. Qed.
Print Assumptions varint_round_trip.

(** C02 *)
Theorem varint_layout : forall n, n < two64 -> serialize_varint n = spec_varint n.
Proof. exact serialize_varint_spec. Qed.
Print Assumptions varint_layout.
Theorem varint_size_predicted : forall n, n < two64 ->
  lenN (serialize_varint n) = varint_size_from_value n.
Proof. exact serialize_varint_length. Qed.
Print Assumptions varint_size_predicted.
Theorem varint_size_1_to_9 : forall n, 1 <= varint_size_from_value n <= 9.
Proof. exact varint_size_range. Qed.
Print Assumptions varint_size_1_to_9.
Theorem varint_size_from_first : forall n, n < two64 -> exists b tl,
  serialize_varint n = b :: tl /\ varint_size_from_first_byte b = lenN (serialize_varint n).
Proof. exact varint_first_byte. Qed.
Print Assumptions varint_size_from_first.

(** C03 *)
Theorem varint_at_most_base128 : forall n, varint_size_from_value n <= base128_len 10 n.
Proof. exact varint_le_base128. Qed.
Print Assumptions varint_at_most_base128.
Theorem varint_size_monotone : forall a b, a <= b ->
  varint_size_from_value a <= varint_size_from_value b.
Proof. exact varint_size_mono. Qed.
Print Assumptions varint_size_monotone.

(** C04: on every byte string, either a value in range, read from its documented encoding or from
    its one 9-byte alias, or end of input with an incomplete encoding. Nothing else (no panic). *)
Theorem varint_decode_any : forall bs, bytes_ok bs ->
  (exists n rest, deserialize_varint bs = Ok n rest /\ n < two64 /\
     (bs = spec_varint n ++ rest \/
      (n < 72624976668147840 /\ bs = varint_alias n ++ rest)))
  \/ (deserialize_varint bs = Err EOF /\
      match bs with [] => True | b :: _ => lenN bs < spec_varint_len b end).
Proof. exact varint_decode_total. Qed.
Print Assumptions varint_decode_any.
Theorem varint_alias_accepted : forall n rest, n < 72624976668147840 -> bytes_ok rest ->
  deserialize_varint (varint_alias n ++ rest) = Ok n rest.
Proof. exact varint_alias_decodes. Qed.
Print Assumptions varint_alias_accepted.

(** C05 *)
Theorem zigzag_is_documented_order : forall z, i64_ok z -> zigzag_encode z = spec_zigzag z.
Proof. exact zigzag_encode_spec. Qed.
Print Assumptions zigzag_is_documented_order.
Theorem zigzag_decode_encode : forall z, i64_ok z ->
  zigzag_encode z < two64 /\ zigzag_decode (zigzag_encode z) = z.
Proof. exact (fun z H => conj (zigzag_encode_lt z H) (zigzag_dec_enc z H)). Qed.
Print Assumptions zigzag_decode_encode.
Theorem zigzag_encode_decode : forall n, n < two64 ->
  i64_ok (zigzag_decode n) /\ zigzag_encode (zigzag_decode n) = n.
Proof. exact (fun n H => conj (zigzag_decode_ok n H) (zigzag_enc_dec n H)). Qed.
Print Assumptions zigzag_encode_decode.
Theorem zigzag_small_magnitudes : forall z k, i64_ok z -> k < two63 ->
  zigzag_encode z <= 2 * k <-> (- Z.of_N k <= z <= Z.of_N k)%Z.
Proof. exact zigzag_small. Qed.
Print Assumptions zigzag_small_magnitudes.

(** C07: the payload of an integer-encoded field has the length its first byte announces. *)
Theorem field_header_round_trip : forall i size ie rest, i <= max_index -> size < two64 ->
  bytes_ok rest ->
  (ie = true -> size <> 0 -> size <> 8 ->
     exists b tl, rest = b :: tl /\ spec_varint_len b = size) ->
  deserialize_field_header (serialize_field_header i size ie ++ rest) = Ok (i, size) rest.
Proof. exact header_roundtrip. Qed.
Print Assumptions field_header_round_trip.
Theorem field_header_layout : forall i size ie, i <= max_index -> size < two64 ->
  serialize_field_header i size ie = spec_header i size ie.
Proof. exact serialize_header_spec. Qed.
Print Assumptions field_header_layout.
Theorem field_header_size_predicted : forall i size ie, i <= max_index -> size < two64 ->
  field_header_size i size ie = lenN (serialize_field_header i size ie).
Proof. exact header_size_spec. Qed.
Print Assumptions field_header_size_predicted.

(** C08 *)
Theorem size_is_exact : forall v t bs, wt DOut v t -> ty_wf t -> size v t < two64 ->
  serialize v t = Some bs -> size v t = lenN bs.
Proof. exact size_of_serialized. Qed.
Print Assumptions size_is_exact.
Theorem size_is_documented_length : forall v t, wt DOut v t -> ty_wf t ->
  size v t = lenN (spec_encode true v t).
Proof. exact size_exact. Qed.
Print Assumptions size_is_documented_length.

(** C09 *)
Theorem serialize_writes_documented_format : forall v t, wt DOut v t -> ty_wf t ->
  size v t < two64 -> serialize v t = Some (spec_encode true v t).
Proof. exact serialize_spec. Qed.
Print Assumptions serialize_writes_documented_format.

(** C10 *)
Theorem rust_round_trip : forall v t bs, wt DOut v t -> ty_wf t -> size v t < 2 ^ 60 ->
  serialize v t = Some bs -> deserialize isize_max t bs = Ok (to_in v t) [].
Proof. exact roundtrip60. Qed.
Print Assumptions rust_round_trip.

(** C11 *)
Theorem serialization_injective : forall v1 v2 t bs, wt DOut v1 t -> wt DOut v2 t -> ty_wf t ->
  size v1 t < two64 -> size v2 t < two64 ->
  serialize v1 t = Some bs -> serialize v2 t = Some bs -> v1 = v2.
Proof. exact serialize_inj. Qed.
Print Assumptions serialization_injective.

(** C12 *)
Theorem safe_changes_are_compatible : forall a b v bs, ty_wf a -> ty_wf b -> safe a b ->
  wt DOut v a -> size v a < 2 ^ 60 -> serialize v a = Some bs ->
  deserialize isize_max b bs = Ok (migrate v a b) [] /\ wt DIn (migrate v a b) b.
Proof. exact evolution60. Qed.
Print Assumptions safe_changes_are_compatible.
Theorem safe_changes_are_compatible_back : forall a b v bs, ty_wf a -> ty_wf b -> safe a b ->
  wt DOut v b -> size v b < 2 ^ 60 -> serialize v b = Some bs ->
  deserialize isize_max a bs = Ok (migrate v b a) [] /\ wt DIn (migrate v b a) a.
Proof. exact evolution60_back. Qed.
Print Assumptions safe_changes_are_compatible_back.
Theorem migrating_to_the_same_type_is_identity : forall v t, wt DOut v t -> ty_wf t ->
  migrate v t t = to_in v t.
Proof. exact migrate_self. Qed.
Print Assumptions migrating_to_the_same_type_is_identity.

(** C13 *)
Theorem safe_reflexive : forall a, ty_wf a -> safe a a.
Proof. exact safe_refl. Qed.
Print Assumptions safe_reflexive.
Theorem safe_symmetric : forall a b, ty_wf a -> ty_wf b -> safe a b -> safe b a.
Proof. exact safe_sym. Qed.
Print Assumptions safe_symmetric.
Theorem safe_transitive_refuted : exists a b c, ty_wf a /\ ty_wf b /\ ty_wf c /\
  safe a b /\ safe b c /\ ~ safe a c.
Proof. exact safe_not_trans. Qed.
Print Assumptions safe_transitive_refuted.

(** C14: types whose common fields have compatible types but that are not related by safe changes:
    the side that knows less can write a message the other side rejects. *)
Theorem unsafe_struct_changes_fail : forall fs gs v1 v2,
  ty_wf (TStruct fs) -> ty_wf (TStruct gs) ->
  (forall f g, In f fs -> In g gs -> f_index f = f_index g -> safe (f_type f) (f_type g)) ->
  ~ safe (TStruct fs) (TStruct gs) ->
  wt DOut v1 (TStruct fs) -> size v1 (TStruct fs) < 2 ^ 60 ->
  wt DOut v2 (TStruct gs) -> size v2 (TStruct gs) < 2 ^ 60 ->
  (exists v bs, wt DOut v (TStruct fs) /\ serialize v (TStruct fs) = Some bs /\
     deserialize isize_max (TStruct gs) bs = Err InvalidData) \/
  (exists v bs, wt DOut v (TStruct gs) /\ serialize v (TStruct gs) = Some bs /\
     deserialize isize_max (TStruct fs) bs = Err InvalidData).
Proof. exact struct_unsafe60. Qed.
Print Assumptions unsafe_struct_changes_fail.
Theorem unsafe_choice_changes_fail : forall fs gs,
  ty_wf (TChoice fs) -> ty_wf (TChoice gs) ->
  (forall f g, In f fs -> In g gs -> f_index f = f_index g -> safe (f_type f) (f_type g)) ->
  ~ safe (TChoice fs) (TChoice gs) ->
  (forall f, In f fs -> exists p, wt DOut p (f_type f) /\ lenN (spec_encode true p (f_type f)) < 2 ^ 59) ->
  (forall g, In g gs -> exists p, wt DOut p (f_type g) /\ lenN (spec_encode true p (f_type g)) < 2 ^ 59) ->
  (exists v bs, wt DOut v (TChoice fs) /\ serialize v (TChoice fs) = Some bs /\
     deserialize isize_max (TChoice gs) bs = Err EOF) \/
  (exists v bs, wt DOut v (TChoice gs) /\ serialize v (TChoice gs) = Some bs /\
     deserialize isize_max (TChoice fs) bs = Err EOF).
Proof. exact choice_unsafe60. Qed.
Print Assumptions unsafe_choice_changes_fail.

(** C48 *)
Theorem utf8_round_trip : forall s, str_ok s -> utf8_decode (utf8_encode s) = Some s.
Proof. exact utf8_decode_encode. Qed.
Print Assumptions utf8_round_trip.
Theorem utf8_accepts_only_encodings : forall bs s,
  utf8_decode bs = Some s <-> str_ok s /\ utf8_encode s = bs.
Proof. exact utf8_decode_char. Qed.
Print Assumptions utf8_accepts_only_encodings.

(** C49 *)
Theorem any_type_migrates_to_any_other : forall a b, usable a -> usable b ->
  lenN (fields_of a) <= max_index -> lenN (fields_of b) <= max_index -> migratable a b.
Proof. exact migratable_all. Qed.
Print Assumptions any_type_migrates_to_any_other.

(** C50 *)
Theorem small_index_headers_take_one_byte : forall i v t, i < 32 -> wt DOut v t ->
  (t = TUnit \/ t = TF64 \/ t = TU64 \/ t = TS64 \/ t = TBool) ->
  lenN (spec_header i (lenN (spec_encode true v t)) (integer_encoded t)) = 1.
Proof. exact one_byte_header. Qed.
Print Assumptions small_index_headers_take_one_byte.
Theorem integer_fields_take_at_most_8_bytes : forall v t, t = TU64 \/ t = TS64 -> wt DOut v t ->
  lenN (spec_encode true v t) <= 8.
Proof. exact int_field_len. Qed.
Print Assumptions integer_fields_take_at_most_8_bytes.
Theorem enumerated_case_takes_one_byte : forall i fs f, ty_wf (TChoice fs) ->
  find_field i fs = Some f -> i < 32 -> f_type f = TUnit -> f_rule f = Required ->
  exists b, serialize (VChoice i VUnit None) (TChoice fs) = Some [b].
Proof. exact enum_one_byte. Qed.
Print Assumptions enumerated_case_takes_one_byte.

(** C51: the README says a value encoded as a variable-width integer gets size mode 2; a [[Unit]]
    field of 5 elements is such a value, but the code writes size mode 3 and an explicit size. *)
Theorem readme_unit_array_header_refuted :
  serialize unit_array_msg unit_array_field = Some (spec_header 0 1 false ++ spec_varint 5) /\
  spec_header 0 1 false <> spec_header 0 1 true.
Proof. exact unit_array_header. Qed.
Print Assumptions readme_unit_array_header_refuted.
